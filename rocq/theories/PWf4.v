(** * PWf4: proofs for C23: sequences of events, the endnotes, documents *)
From Verif Require Import Base Lex Attr Block Inline Doc Html Lib SpecAttr SpecDoc SpecHtml SpecWf PHtml PHtml2 PHtml3 PHtml4 PHtml5 PHtml6 PIds PCan14 PWf PWf2 PWf3.
Local Open Scope nat_scope.

Definition ev_step (st : list container) (e : event) : list container :=
  match e with Start c _ => c :: st | End_ _ => tl st | _ => st end.
Lemma nestd_step st e st' : nestd st [e] = Some st' -> st' = ev_step st e.
Proof.
  cbn [nestd]. destruct e; cbn [ev_step]; try congruence.
  - destruct st as [|[] st]; congruence.
  - destruct st as [|c' st]; [discriminate|]. destruct (container_eq_dec c c'); cbn [tl]; congruence.
Qed.
Definition not_doc (e : event) : Prop := match e with Start Document _ | End_ Document => False | _ => True end.
Definition fineN (N : event -> Prop) (st : list container) (e : event) : Prop := placed st e /\ N e /\ not_doc e.
Fixpoint fine_allN (N : event -> Prop) (st : list container) (evs : list event) : Prop :=
  match evs with [] => True | e :: r => fineN N st e /\ fine_allN N (ev_step st e) r end.
Notation fine := (fineN event_names).
Notation fine_all := (fine_allN event_names).
Definition late_ev (s : rstate) (st : list container) (e : event) : bool := match e with End_ c => late s (tl st) c | _ => false end.

Lemma wf_event d0 e st st' s s' o base x :
  (forall l, kind_of e <> KFStart l) -> kind_of e <> KFEnd -> nestd st [e] = Some st' -> coupled d0 st s -> r_tight s = tights st -> okst st ->
  fine st e -> plains (ind_of s) -> rbody s e = Ok (s', o) -> J st base x ->
  (if late_ev s st e then in_image st' = false /\ o = [] /\ opens (B "p" :: names st' ++ base) x else J st' base (x ++ o)) /\ r_tight s' = tights st' /\ okst st'.
Proof.
  intros K1 K2 Hn HC Ht Hok (Hp & Hna & Hd) Hind H HJ. pose proof HC as (Ho & _ & _ & Hig & _ & _).
  unfold rbody, rview in H. rewrite Ho in H.
  assert (Hsame : st' = st -> s' = s -> o = [] -> late_ev s st e = false -> (if late_ev s st e then in_image st' = false /\ o = [] /\ opens (B "p" :: names st' ++ base) x else J st' base (x ++ o)) /\ r_tight s' = tights st' /\ okst st').
  { intros -> -> -> ->. rewrite app_nil_r. auto. }
  destruct (kind_of e) eqn:K; [exfalso; eapply K1; reflexivity|congruence| | |].
  - (* start of a definition *) injection H as <- <-. destruct e as [c a| | | | | | | | | | | | | | | | | |]; try discriminate K; destruct c; try discriminate K.
    + pose proof (nestd_step _ _ _ Hn) as ->. cbn [ev_step late_ev]. rewrite app_nil_r. repeat split; try exact Ht; try exact Hok.
      * unfold J in *. change (in_image (LinkDefinition label :: st)) with (in_image st). cbn [names cn]. destruct (in_image st); exact HJ.
      * intros _. destruct (in_image st) eqn:Es; [discriminate (Hp Es)|reflexivity].
  - injection H as <- <-. destruct e as [|c| | | | | | | | | | | | | | | | |]; try destruct c; try discriminate K.
    cbn [nestd] in Hn. destruct st as [|c' st]; [discriminate|]. destruct (container_eq_dec _ _); [|discriminate]. injection Hn as <-. subst c'.
    cbn [late_ev tl late]. rewrite app_nil_r. destruct Hok as (_ & _ & Hok). repeat split; [|exact Ht|exact Hok].
    unfold J in *. change (in_image (LinkDefinition label :: st)) with (in_image st) in HJ. cbn [names cn] in HJ. destruct (in_image st); exact HJ.
  - destruct (r_ignore s) eqn:Ei.
    + injection H as <- <-. destruct st as [|c0 st]; [discriminate|]. destruct c0; try discriminate Hig.
      cbn [nestd] in Hn. apply Hsame; [|reflexivity|reflexivity|].
      * destruct e; try congruence. destruct (container_eq_dec _ _); [subst c; discriminate|discriminate].
      * destruct e; try reflexivity. destruct (container_eq_dec _ _); [subst c; discriminate|discriminate].
    + destruct (simple e) eqn:Es.
      * assert (Est : st' = st) by (rewrite (nestd_step _ _ _ Hn); destruct e; try reflexivity; discriminate Es). subst st'.
        assert (Ela : late_ev s st e = false) by (destruct e; try reflexivity; discriminate Es). rewrite Ela.
        destruct (other_ok s e s' o st base x d0 Es HC Hok Hp Hna Hind Ei H HJ) as [G1 G2]. split; [exact G1|]. split; [congruence|exact Hok].
      * destruct e as [c a|c| | | | | | | | | | | | | | | | |]; try discriminate Es.
        -- assert (Hf : is_fn c = false) by (destruct c; (reflexivity || discriminate K)).
           assert (HD : c <> Document) by (intros ->; exact Hd).
           assert (Hl : is_ld c = false) by (destruct c; (reflexivity || discriminate K)).
           pose proof (nestd_step _ _ _ Hn) as ->. cbn [ev_step late_ev]. destruct Hna as [Hk Hcc].
           assert (Hcc' : cont_ok c) by (destruct c; exact Hcc).
           destruct (start_ok s c a s' o st base x d0 Hf HD Hl HC Ht Hok Hp Hk Hcc' Hind H HJ) as [G1 G2].
           split; [exact G1|]. split; [exact G2|]. split; [|split; [exact Hcc'|exact Hok]].
           intros Eb. destruct (in_image st) eqn:Eim; [|reflexivity]. specialize (Hp Eim). cbn in Hp. congruence.
        -- assert (Hf : is_fn c = false) by (destruct c; (reflexivity || discriminate K)).
           assert (HD : c <> Document) by (intros ->; exact Hd).
           assert (Hl : is_ld c = false) by (destruct c; (reflexivity || discriminate K)).
           cbn [nestd] in Hn. destruct st as [|c' st]; [discriminate|]. destruct (container_eq_dec _ _); [|discriminate]. injection Hn as <-. subst c'.
           destruct (end_ok s c s' o st base x d0 Hf HD Hl HC Ht Hok Hind H HJ) as [G1 G2]. cbn [late_ev tl]. split; [exact G1|]. split; [exact G2|]. apply Hok.
Qed.

Lemma not_doc_end e : not_doc e -> doc_end e = false.
Proof. destruct e; try reflexivity. destruct c; try reflexivity. intros []. Qed.
Lemma fine_no_doc {N} st evs : fine_allN N st evs -> no_doc_end evs = true.
Proof.
  revert st; induction evs as [|e evs IH]; intros st H; [reflexivity|]. destruct H as [(_ & _ & H) H']. cbn [no_doc_end forallb]. rewrite (not_doc_end e H). exact (IH _ H').
Qed.
Lemma wf_body d0 evs : forall st st' s s' o base x, clean_body evs -> nestd st evs = Some st' -> coupled d0 st s -> r_tight s = tights st -> okst st ->
  fine_all st evs -> plains (ind_of s) -> f_number (r_foot s) = 0 -> render_events s evs = Ok (s', o) -> J st base x ->
  J st' base (x ++ o) /\ r_tight s' = tights st' /\ f_number (r_foot s') = 0.
Proof.
  induction evs as [|e evs IH]; intros st st' s s' o base x Hc Hn HC Ht Hok Hf Hind Hnum H HJ.
  - cbn in Hn, H. injection Hn as <-. injection H as <- <-. rewrite app_nil_r. auto.
  - destruct Hf as [Hf1 Hf2]. pose proof Hf1 as (_ & _ & Hd). apply not_doc_end in Hd.
    change (e :: evs) with ([e] ++ evs) in Hn. rewrite nestd_app in Hn. destruct (nestd st [e]) as [st1|] eqn:E; [|discriminate].
    destruct (Hc e) as [K1 K2]; [left; auto|]. assert (Hc' : clean_body evs) by (intros y Hy; apply Hc; right; exact Hy).
    cbn [render_events] in H. apply bind_ok in H as ([s1 o1] & H1 & H). apply bind_ok in H as ([s2 o2] & H2 & H). injection H as <- <-.
    rewrite render_event_body in H1 by exact Hd.
    destruct (event_ok d0 e st st1 s Hd K1 K2 E HC) as (s1' & o1' & E1 & HC1 & Hi1 & _). rewrite E1 in H1. injection H1 as -> ->.
    destruct (wf_event d0 e st st1 s s1 o1 base x K1 K2 E HC Ht Hok Hf1 Hind E1 HJ) as (G1 & G2 & G3).
    assert (Ela : late_ev s st e = false) by (destruct e; try reflexivity; destruct c; try reflexivity; cbn [late_ev late]; rewrite Hnum; apply andb_false_r). rewrite Ela in G1.
    destruct (rbody_frame s e s1 o1 (proj1 HC) K1 Hd E1) as (_ & _ & _ & F & _).
    rewrite <- (nestd_step _ _ _ E) in Hf2. rewrite app_assoc.
    apply (IH st1 st' s1 s2 o2 base (x ++ o1) Hc' Hn HC1 G2 G3 Hf2); [unfold ind_of in *; rewrite Hi1; exact Hind|congruence|exact H2|exact G1].
Qed.

(** ** One note *)
Definition Ju (u : bool) (st : list container) (base : list bytes) (x : bytes) : Prop :=
  if u then in_image st = false /\ opens (B "p" :: names st ++ base) x else J st base x.
Lemma wf_foot g d0 evs : forall st st' s s' u u' o base x, clean_body evs -> nestd st evs = Some st' -> coupled d0 st s -> r_tight s = tights st -> okst st ->
  fine_all st evs -> plains (ind_of s) -> 0 < f_number (r_foot s) -> foot_events (render_f (S g)) s evs u = Ok (s', o, u') -> Ju u st base x ->
  Ju u' st' base (x ++ o) /\ r_tight s' = tights st' /\ coupled d0 st' s' /\ ind_of s' = ind_of s /\ f_number (r_foot s') = f_number (r_foot s) /\ f_events (r_foot s') = f_events (r_foot s).
Proof.
  induction evs as [|e evs IH]; intros st st' s s' u u' o base x Hc Hn HC Ht Hok Hf Hind Hnum H HJ.
  - cbn in Hn, H. injection Hn as <-. injection H as <- <- <-. rewrite app_nil_r. auto 10.
  - destruct Hf as [Hf1 Hf2]. pose proof Hf1 as (_ & _ & Hd). apply not_doc_end in Hd.
    change (e :: evs) with ([e] ++ evs) in Hn. rewrite nestd_app in Hn. destruct (nestd st [e]) as [st1|] eqn:E; [|discriminate].
    destruct (Hc e) as [K1 K2]; [left; auto|]. assert (Hc' : clean_body evs) by (intros y Hy; apply Hc; right; exact Hy).
    rewrite <- (nestd_step _ _ _ E) in Hf2.
    destruct (keep e) eqn:Ek.
    + assert (H0 : (let! (s, o) := render_f (S g) s e in
           let! (s0, o', u0) := foot_events (render_f (S g)) s evs (match e with End_ Paragraph => negb (tight_top s) | _ => false end) in
           Ok (s0, (if u then B "</p>" else []) ++ o ++ o', u0)) = Ok (s', o, u')) by (destruct e; try discriminate Ek; exact H).
      clear H. apply bind_ok in H0 as ([s1 o1] & H1 & H). apply bind_ok in H as ([[s2 o2] u2] & H2 & H). injection H as <- <- <-.
      rewrite render_f_body in H1 by exact Hd.
      assert (HJ' : J st base (x ++ (if u then B "</p>" else []))).
      { unfold Ju in HJ. destruct u; [|rewrite app_nil_r; exact HJ]. destruct HJ as [Es HJ]. unfold J. rewrite Es. exact (opens_end _ _ (B "p") HJ). }
      destruct (event_ok d0 e st st1 s Hd K1 K2 E HC) as (s1' & o1' & E1 & HC1 & Hi1 & _). rewrite E1 in H1. injection H1 as -> ->.
      destruct (wf_event d0 e st st1 s s1 o1 base _ K1 K2 E HC Ht Hok Hf1 Hind E1 HJ') as (G1 & G2 & G3).
      destruct (rbody_frame s e s1 o1 (proj1 HC) K1 Hd E1) as (_ & _ & F2 & F & _).
      assert (Hind1 : ind_of s1 = ind_of s) by (unfold ind_of; rewrite Hi1; reflexivity).
      assert (Eu : match e with End_ Paragraph => negb (tight_top s1) | _ => false end = late_ev s st e).
      { destruct e; try reflexivity. destruct c; try reflexivity. cbn [late_ev late]. apply Nat.ltb_lt in Hnum. rewrite Hnum, andb_true_r.
        rewrite (tight_tt s1 st1 G2), (nestd_step _ _ _ E). reflexivity. }
      rewrite Eu in H2.
      assert (HJ1 : Ju (late_ev s st e) st1 base ((x ++ (if u then B "</p>" else [])) ++ o1)).
      { unfold Ju. destruct (late_ev s st e); [|exact G1]. destruct G1 as (A1 & A2 & A3). split; [exact A1|]. rewrite A2, app_nil_r. exact A3. }
      destruct (IH st1 st' s1 s2 _ u2 o2 base _ Hc' Hn HC1 G2 G3 Hf2 ltac:(rewrite Hind1; exact Hind) ltac:(rewrite F; exact Hnum) H2 HJ1) as (A1 & A2 & A3 & A4 & A5 & A6).
      rewrite !app_assoc. rewrite <- !app_assoc in A1. rewrite <- !app_assoc. split; [exact A1|]. split; [exact A2|]. split; [exact A3|]. split; [congruence|]. split; congruence.
    + assert (st1 = st) as -> by (destruct e; try discriminate Ek; cbn in E; congruence).
      assert (H0 : foot_events (render_f (S g)) s evs u = Ok (s', o, u')) by (destruct e; try discriminate Ek; exact H).
      exact (IH st st' s s' u u' o base x Hc' Hn HC Ht Hok Hf2 Hind Hnum H0 HJ).
Qed.

(** ** The loop *)
Definition note_ok (b : list event) : Prop := good_body b /\ fine_all [] b.
Definition item_attr (n : nat) : list (bytes * bytes) := [(B "id", B "fn" ++ dec (N.of_nat n))].
Lemma back_ok n : html_ok (HElem (B "a") [(B "href", B "#fnref" ++ dec n); (B "role", B "doc-backlink")] [HText (B "↩︎")]).
Proof.
  constructor; [split; reflexivity|nv| |].
  - apply aok_cons; [gn|apply nodq_app; [apply plains_dq, plains_b; reflexivity|apply plains_dq, dec_plain]|].
    apply aok_cons; [gn|apply plains_dq, plains_b; reflexivity|constructor].
  - constructor; [|constructor]. constructor. apply plains_text, plains_b. reflexivity.
Qed.
Lemma wf_loop g d0 : forall fu s s' o base x, coupled d0 [] s -> r_tight s = [] -> plains (ind_of s) ->
  (forall l b, List.In (l, b) (f_events (r_foot s)) -> note_ok b) ->
  epi_loop fu (render_f (S g)) s = Ok (s', o) -> opens base x -> opens base (x ++ o) /\ ind_of s' = ind_of s.
Proof.
  induction fu as [|fu IH]; intros s s' o base x HC Ht Hind Hev H Hx; cbn [epi_loop] in H.
  - destruct (foot_next (r_foot s)) as [[[n evs] f]|] eqn:E; [discriminate|]. injection H as <- <-. rewrite app_nil_r. auto.
  - destruct (foot_next (r_foot s)) as [[[n evs] f]|] eqn:E; [|injection H as <- <-; rewrite app_nil_r; auto].
    unfold foot_next in E. destruct (nth_error (f_refs (r_foot s)) (f_number (r_foot s))) as [l|]; [|discriminate]. injection E as <- <- <-.
    set (k := f_number (r_foot s)) in *.
    set (f1 := FN (f_open (r_foot s)) (f_refs (r_foot s)) (map_remove (f_events (r_foot s)) l) (S k)) in *.
    set (s1 := r_set_foot s f1) in *.
    assert (HC1 : coupled d0 [] s1) by (destruct HC as (? & ? & ? & ? & ?); split; [auto|split; [auto|auto]]).
    set (b := match map_get (f_events (r_foot s)) l with Some l0 => l0 | None => [] end) in *.
    assert (Hb : note_ok b).
    { unfold b. destruct (map_get (f_events (r_foot s)) l) eqn:E; [|split; [apply good_nil|exact I]]. apply map_get_in in E. exact (Hev _ _ E). }
    destruct Hb as [(Hb1 & Hb2 & Hb3) Hb4].
    apply bind_ok in H as ([s1' o1] & H1 & H). pose proof (gap_block _ _ _ _ H1) as P1. apply (gap_plain (ind_of s1) _ Hind) in P1. apply w_block_same in H1. subst s1'.
    apply bind_ok in H as ([[s2 o2] u] & H2 & H).
    apply bind_ok in H as ([s3 o3] & H3 & H). apply bind_ok in H as ([s4 o4] & H4 & H). apply bind_ok in H as ([s5 o5] & H5 & H). injection H as <- <-.
    assert (Hli : forall y, opens base y -> opens (B "li" :: base) (y ++ item_start (S k))).
    { intros y Hy. assert (Ha : attrs_ok (item_attr (S k))) by (apply aok_cons; [gn|apply nodq_app; [apply plains_dq, plains_b; reflexivity|apply plains_dq, dec_plain]|constructor]).
      pose proof (opens_start _ _ (B "li") _ Hy (conj eq_refl eq_refl) ltac:(nv) Ha) as K. unfold start_tag, item_attr, attr_text in K. cbn [flat_map fst snd] in K. rewrite app_nil_r, <- ?app_assoc in K. exact K. }
    pose proof (Hli _ (opens_plain _ _ _ Hx P1)) as K1.
    assert (HJ : Ju false [] (B "li" :: base) ((x ++ o1) ++ item_start (S k))) by exact K1.
    destruct (wf_foot g d0 b [] [] s1 s2 false u o2 _ _ Hb2 Hb3 HC1 Ht I Hb4 Hind (Nat.lt_0_succ _) H2 HJ) as (A1 & A2 & A3 & A4 & A5 & A6).
    assert (K2 : opens (B "p" :: B "li" :: base) ((((x ++ o1) ++ item_start (S k)) ++ o2) ++ o3) /\ s3 = s2).
    { unfold Ju in A1. destruct u.
      - injection H3 as <- <-. destruct A1 as [_ A1]. rewrite app_nil_r. auto.
      - apply bind_ok in H3 as ([s6 w] & H3 & H6). injection H6 as <- <-. pose proof (gap_block _ _ _ _ H3) as P3. rewrite A4 in P3. apply (gap_plain (ind_of s1) _ Hind) in P3. apply w_block_same in H3.
        split; [|exact H3]. rewrite app_assoc. exact (opens_start _ _ (B "p") [] (opens_plain _ _ _ A1 P3) (conj eq_refl eq_refl) ltac:(nv) ltac:(constructor)). }
    destruct K2 as [K2 ->].
    pose proof (gap_block _ _ _ _ H4) as P4. rewrite A4 in P4. apply (gap_plain (ind_of s1) _ Hind) in P4. apply w_block_same in H4. subst s4.
    pose proof (opens_html _ _ _ K2 (back_ok (N.of_nat (S k)))) as K3. apply opens_end in K3. apply (opens_plain _ _ o4) in K3; [|exact P4]. apply opens_end in K3.
    assert (Hev2 : forall l b, List.In (l, b) (f_events (r_foot s2)) -> note_ok b).
    { intros l' b' Hin. rewrite A6 in Hin. apply map_remove_in in Hin. exact (Hev _ _ Hin). }
    destruct (IH s2 s5 o5 base _ A3 A2 ltac:(rewrite A4; exact Hind) Hev2 H5 K3) as [K4 I4].
    split; [|rewrite I4; exact A4].
    cbn [html_text flat_map] in K4. unfold start_tag, end_tag, attr_text, item_start in K4. cbn [fst snd flat_map] in K4.
    rewrite ?app_nil_r, <- ?app_assoc in K4. rewrite <- ?app_assoc. exact K4.
Qed.
Lemma wf_epilogue g d0 fu s s' o x : coupled d0 [] s -> r_tight s = [] -> plains (ind_of s) -> (forall l b, List.In (l, b) (f_events (r_foot s)) -> note_ok b) ->
  render_epilogue fu (render_f (S g)) s = Ok (s', o) -> opens [] x -> opens [] (x ++ o).
Proof.
  intros HC Ht Hind Hev H Hx. unfold render_epilogue in H. apply bind_ok in H as ([s1 o1] & H1 & H). injection H as <- <-.
  rewrite app_assoc. apply opens_plain; [|destruct (r_indent s1); [apply plains_b; reflexivity|constructor]].
  destruct (f_refs (r_foot s)); [injection H1 as <- <-; rewrite app_nil_r; exact Hx|].
  assert (W : forall s2 w, w_block s DSame = Ok (s2, w) -> s2 = s /\ plains w).
  { intros s2 w E. pose proof (gap_block _ _ _ _ E) as P. apply (gap_plain _ _ Hind) in P. apply w_block_same in E. auto. }
  apply bind_ok in H1 as ([sa wa] & Ha & H1). apply W in Ha as [-> Ha]. apply bind_ok in H1 as ([sb wb] & Hb & H1). apply W in Hb as [-> Hb].
  apply bind_ok in H1 as ([sc wc] & Hc & H1). apply W in Hc as [-> Hc]. apply bind_ok in H1 as ([s2 o2] & H2 & H1).
  apply bind_ok in H1 as ([sd wd] & Hd & H1). apply bind_ok in H1 as ([se we] & He & H1). injection H1 as <- <-.
  pose proof (opens_start _ _ (B "section") [(B "role", B "doc-endnotes")] (opens_plain _ _ _ Hx Ha) (conj eq_refl eq_refl) ltac:(nv) ltac:(apply aok_cons; [gn|apply plains_dq, plains_b; reflexivity|constructor])) as K.
  apply (opens_plain _ _ wb) in K; [|exact Hb]. apply (opens_html _ _ (HVoid (B "hr") [] false)) in K; [|constructor; [cbn; auto|constructor]].
  apply (opens_plain _ _ wc) in K; [|exact Hc]. apply (fun H => opens_start _ _ (B "ol") [] H (conj eq_refl eq_refl) ltac:(nv) ltac:(constructor)) in K.
  destruct (wf_loop g d0 fu s s2 o2 _ _ HC Ht Hind Hev H2 K) as [K2 I2].
  assert (P5 : plains wd /\ sd = s2).
  { pose proof (gap_block _ _ _ _ Hd) as P. rewrite I2 in P. apply (gap_plain _ _ Hind) in P. apply w_block_same in Hd. auto. }
  destruct P5 as [P5 ->].
  assert (P6 : plains we).
  { pose proof (gap_block _ _ _ _ He) as P. rewrite I2 in P. apply (gap_plain _ _ Hind) in P. exact P. }
  apply (opens_plain _ _ wd) in K2; [|exact P5]. apply opens_end in K2. apply (opens_plain _ _ we) in K2; [|exact P6]. apply opens_end in K2.
  cbn [html_text flat_map] in K2. unfold start_tag, end_tag, attr_text in K2. cbn [fst snd flat_map] in K2. rewrite ?app_nil_r, <- ?app_assoc in K2. rewrite <- ?app_assoc. exact K2.
Qed.

(** ** Taking the footnotes out *)
Lemma in_image_app a b : in_image (a ++ b) = in_image a || in_image b.
Proof. unfold in_image. apply existsb_app. Qed.
Lemma fine_weak {N} seg st e : fineN N (seg ++ st) e -> fineN N seg e.
Proof. intros (H1 & H2). split; [|exact H2]. intros E. apply H1. rewrite in_image_app, E. reflexivity. Qed.
Lemma fine_all_app {N} a b : forall st st1, nestd st a = Some st1 -> fine_allN N st a -> fine_allN N st1 b -> fine_allN N st (a ++ b).
Proof.
  induction a as [|e a IH]; intros st st1 Hn Ha Hb; [cbn in Hn; injection Hn as <-; exact Hb|].
  change (e :: a) with ([e] ++ a) in Hn. rewrite nestd_app in Hn. destruct (nestd st [e]) as [st2|] eqn:E; [|discriminate].
  cbn [app fine_allN]. destruct Ha as [Ha1 Ha2]. split; [exact Ha1|]. rewrite <- (nestd_step _ _ _ E) in *. apply (IH st2 st1 Hn Ha2 Hb).
Qed.
Lemma sep_fine {N} evs : forall st st' stack base,
  nestd st evs = Some st' -> layers st stack base -> fine_allN N st evs -> (forall l b, List.In (l, b) stack -> fine_allN N [] b) ->
  fine_allN N base (fst (separate stack evs)) /\ forall l b, List.In (l, b) (snd (separate stack evs)) -> fine_allN N [] b.
Proof.
  induction evs as [|e evs IH]; intros st st' stack base H L Hf Hst; [split; [exact I|intros ? ? []]|].
  destruct Hf as [Hf1 Hf2]. rewrite separate_cons. unfold sep_case.
  (* a step inside a footnote *)
  assert (Hin : forall l b stk, stack = (l, b) :: stk -> (forall l, kind_of e <> KFStart l) -> kind_of e <> KFEnd ->
    fine_allN N base (fst (separate ((l, b ++ [e]) :: stk) evs)) /\ forall l1 b1, List.In (l1, b1) (snd (separate ((l, b ++ [e]) :: stk) evs)) -> fine_allN N [] b1).
  { intros l b stk -> K1 K2. inversion L as [|seg l0 l' b0 st0 stk0 base0 Hs Hb HL Htl]; subst. clear L.
    change (e :: evs) with ([e] ++ evs) in H. rewrite nestd_app in H.
    destruct (nestd (seg ++ Footnote l' :: st0) [e]) as [st1|] eqn:E; [|discriminate].
    assert (Hseg : exists seg', st1 = seg' ++ Footnote l' :: st0 /\ cnt is_fn seg' = 0 /\ nestd [] (b ++ [e]) = Some seg').
    { rewrite nestd_app, Hb. cbn [nestd] in E |- *. destruct e; try (injection E as <-; exists seg; auto; fail).
      - assert (Ef : is_fn c = false) by (destruct c; try reflexivity; exfalso; eapply K1; reflexivity).
        exists (c :: seg). rewrite cnt_cons, Ef, Hs.
        destruct seg as [|c' seg]; cbn [app] in E |- *; [injection E as <-; auto|].
        destruct c'; try discriminate; injection E as <-; auto.
      - destruct seg as [|c' seg]; cbn [app] in E |- *.
        + destruct (container_eq_dec c (Footnote l')); [|discriminate]. subst c. exfalso. apply K2. reflexivity.
        + destruct (container_eq_dec c c'); [|discriminate]. injection E as <-. exists seg.
          rewrite cnt_cons in Hs. split; [auto|split; [lia|auto]]. }
    destruct Hseg as (seg' & E1 & Hc & Hn). rewrite <- (nestd_step _ _ _ E), E1 in Hf2. subst st1.
    apply (IH _ _ _ base H (layS seg' l l' (b ++ [e]) st0 stk base Hc Hn HL Htl) Hf2).
    intros l1 b1 [[= <- <-]|Hi]; [|apply (Hst l1); right; exact Hi].
    apply (fine_all_app b [e] [] seg Hb); [apply (Hst l); left; reflexivity|]. split; [exact (fine_weak _ _ _ Hf1)|exact I]. }
  (* a step outside *)
  assert (Hout : stack = [] -> (forall l, kind_of e <> KFStart l) ->
    fine_allN N base (fst (let (body, notes) := separate [] evs in (e :: body, notes))) /\
      forall l b, List.In (l, b) (snd (let (body, notes) := separate [] evs in (e :: body, notes))) -> fine_allN N [] b).
  { intros -> K1. inversion L as [base0 Hb|]; subst. clear L.
    change (e :: evs) with ([e] ++ evs) in H. rewrite nestd_app in H.
    destruct (nestd base [e]) as [st1|] eqn:E; [|discriminate].
    assert (Hl : layers st1 [] st1).
    { constructor. cbn [nestd] in E. destruct e; try (injection E as <-; auto; fail).
      - assert (Ef : is_fn c = false) by (destruct c; try reflexivity; exfalso; eapply K1; reflexivity).
        assert (st1 = c :: base) as -> by (destruct base as [|[] base]; congruence).
        rewrite cnt_cons, Ef. auto.
      - destruct base as [|c' base]; [discriminate|]. destruct (container_eq_dec c c'); [|discriminate].
        injection E as <-. rewrite cnt_cons in Hb. lia. }
    rewrite <- (nestd_step _ _ _ E) in Hf2.
    destruct (IH _ _ _ _ H Hl Hf2 ltac:(intros ? ? [])) as [H1 H2]. pose proof (nestd_step _ _ _ E) as ->.
    destruct (separate [] evs) as [body notes]. cbn [fst snd] in *. split; [|exact H2]. split; [exact Hf1|exact H1]. }
  destruct (kind_of e) eqn:K.
  - assert (He : exists a, e = Start (Footnote l) a) by (destruct e as [c a|c| | | | | | | | | | | | | | | | |]; try destruct c; try discriminate; injection K as <-; eauto).
    destruct He as [a ->]. cbn [nestd] in H.
    assert (Ht : top_leaf st = false) by (destruct st as [|[] st]; auto; discriminate).
    assert (H' : nestd (Footnote l :: st) evs = Some st') by (destruct st as [|[] st]; auto; discriminate).
    apply (IH _ _ _ _ H' (layS [] l l [] st stack base eq_refl eq_refl L Ht) Hf2). intros l1 b1 [[= <- <-]|Hi]; [exact I|exact (Hst _ _ Hi)].
  - destruct stack as [|[l b] stk]; [apply Hout; auto; congruence|].
    assert (He : exists l, e = End_ (Footnote l)) by (destruct e as [c a|c| | | | | | | | | | | | | | | | |]; try destruct c; try discriminate; eauto).
    destruct He as [l2 ->]. inversion L as [|seg l0 l' b0 st0 stk0 base0 Hs Hb HL Htl]; subst. clear L.
    cbn [nestd] in H. destruct seg as [|c' seg]; cbn [app] in H.
    + destruct (container_eq_dec _ _); [|discriminate]. destruct (IH _ _ _ _ H HL Hf2) as [H1 H2]; [intros l1 b1 Hi; apply (Hst l1); right; exact Hi|].
      destruct (separate stk evs) as [body notes]. cbn [fst snd] in *. split; [exact H1|]. intros l1 b1 [[= <- <-]|Hi]; [apply (Hst l); left; reflexivity|exact (H2 _ _ Hi)].
    + destruct (container_eq_dec _ _); [|discriminate]. subst c'. rewrite cnt_cons in Hs. discriminate.
  - destruct stack as [|[l b] stk]; [apply Hout; auto; congruence|]. apply Hin; auto; congruence.
  - destruct stack as [|[l b] stk]; [apply Hout; auto; congruence|]. apply Hin; auto; congruence.
  - destruct stack as [|[l b] stk]; [apply Hout; auto; congruence|]. apply Hin; auto; congruence.
Qed.

(** ** Documents *)
Fixpoint blk (st : list container) : Prop :=
  match st with [] => True | c :: r => (is_block c = true \/ c = Document -> in_image r = false) /\ blk r end.
Lemma blk_top p st : blk (p :: st) -> in_image (p :: st) = true -> is_block p = false /\ p <> Document.
Proof.
  intros [H _] E. destruct (in_image st) eqn:Es.
  - split; [destruct (is_block p); [discriminate H; auto|reflexivity]|]. intros ->. discriminate H. auto.
  - rewrite is_img_in, Es, orb_false_r in E. destruct p; try discriminate E. split; [reflexivity|discriminate].
Qed.
Lemma may_start_block p c : may_start p c = true -> is_block c = true \/ c = Document -> is_block p = true \/ p = Document.
Proof. intros H H2. destruct c; try (destruct H2 as [H2|H2]; discriminate H2); destruct p; try discriminate H; auto; try (destruct has_section; discriminate H). Qed.
Lemma well_placed_fine {N} evs : forall d st', nestd d evs = Some st' -> blk (d ++ [Document]) -> well_placed (d ++ [Document]) evs = true -> Forall N evs -> no_document evs ->
  fine_allN N d evs.
Proof.
  induction evs as [|e evs IH]; intros d st' Hn Hb Hw Hna Hnd; [exact I|].
  change (e :: evs) with ([e] ++ evs) in Hn. rewrite nestd_app in Hn. destruct (nestd d [e]) as [d1|] eqn:E; [|discriminate].
  pose proof (nestd_step _ _ _ E) as ->. cbn [well_placed] in Hw. apply andb_prop in Hw as [Hw1 Hw2].
  inversion Hna as [|? ? Hna1 Hna2]; subst. assert (Hnd' : no_document evs) by (intros y Hy; apply Hnd; right; exact Hy).
  assert (Hp : exists p r, d ++ [Document] = p :: r /\ may_contain p e = true).
  { destruct d as [|p d]; [exists Document, []|exists p, (d ++ [Document])]; split; auto. }
  destruct Hp as (p & r & Ep & Hm).
  assert (Hpl : placed d e).
  { intros Ei. assert (Ei' : in_image (p :: r) = true) by (rewrite <- Ep, in_image_app, Ei; reflexivity). rewrite Ep in Hb. destruct (blk_top _ _ Hb Ei') as [T1 T2].
    destruct e; try exact I; cbn [may_contain] in Hm.
    - destruct (is_block c) eqn:Ec; [|reflexivity]. destruct (may_start_block _ _ Hm (or_introl Ec)); congruence.
    - destruct p; (discriminate Hm || discriminate T1 || (exfalso; apply T2; reflexivity)). }
  split; [split; [exact Hpl|]; split; [exact Hna1|apply (Hnd e); left; reflexivity]|].
  apply (IH (ev_step d e) st' Hn); [|destruct e; try exact Hw2; destruct d; [discriminate E|exact Hw2]|exact Hna2|exact Hnd'].
  destruct e; try exact Hb.
  - cbn [ev_step app]. split; [|exact Hb]. intros Hc. rewrite Ep in *. cbn [may_contain] in Hm. destruct (in_image (p :: r)) eqn:Ei; [|reflexivity].
    destruct (blk_top _ _ Hb Ei) as [T1 T2]. destruct (may_start_block _ _ Hm Hc); congruence.
  - cbn [ev_step]. destruct d as [|c0 d]; [discriminate E|]. apply Hb.
Qed.

Theorem wf_document ind evs s o : document evs -> well_placed [] evs = true -> Forall event_names evs -> plains (ind_of (r_new ind)) ->
  render_events (r_new ind) evs = Ok (s, o) -> well_formed o.
Proof.
  intros (a & inner & -> & Hnd & Hn) Hw Hna Hind H. apply opens_done.
  assert (Hde := no_document_doc_end inner Hnd).
  assert (L0 : layers [] [] []) by (constructor; auto).
  assert (Hfine : fine_all [] inner).
  { cbn [well_placed] in Hw. apply (well_placed_fine inner [] [] Hn); [split; [reflexivity|exact I]| | |exact Hnd].
    - apply andb_prop in Hw as [_ Hw]. revert Hw. cbn [app]. generalize [Document]. clear. induction inner as [|e inner IH]; intros st Hw; [reflexivity|].
      cbn [app well_placed] in Hw |- *. apply andb_prop in Hw as [Hw1 Hw2]. rewrite Hw1. exact (IH _ Hw2).
    - inversion Hna as [|? ? _ Hna2]; subst. apply Forall_app in Hna2. apply Hna2. }
  destruct (sep_fine inner [] [] [] [] Hn L0 Hfine ltac:(intros ? ? [])) as [Fb Fn].
  destruct (sep_nest inner [] [] [] [] Hn L0) as (base' & B1 & B2 & B3).
  assert (Hop : sep_open [] inner = [] /\ base' = []).
  { inversion B2; subst; auto. destruct seg; discriminate. }
  destruct Hop as [Hop ->].
  set (body := fst (separate [] inner)) in *. set (notes := snd (separate [] inner)) in *.
  assert (Hcb : clean_body body) by (eapply separate_clean; eauto).
  destruct (body_ok _ body [] [] (r_new ind) (fine_no_doc _ _ Fb) Hcb B1 (r_new_coupled ind)) as (s1 & o1 & E1 & HC1 & Hi1).
  destruct (wf_body _ body [] [] (r_new ind) s1 o1 [] [] Hcb B1 (r_new_coupled ind) eq_refl I Fb Hind eq_refl E1 (op_nil [] (Forall_nil _))) as (W1 & W2 & W3).
  assert (Edoc : render_events (r_new ind) (Start Document a :: inner ++ [End_ Document]) =
     (let! (s2, o2) := render_events (r_new ind) inner in let! (s3, o3) := render_event s2 (End_ Document) in Ok (s3, o2 ++ o3))).
  { cbn [render_events]. rewrite render_event_body by reflexivity. change (rbody (r_new ind) (Start Document a)) with (Ok (r_new ind, @nil ascii)).
    cbn [bind]. rewrite bind_id, render_events_app. apply bind_ext. intros [s2 o2] _. cbn [render_events].
    destruct (render_event s2 (End_ Document)) as [[s3 o3]| |]; cbn [bind]; auto. rewrite app_nil_r. reflexivity. }
  rewrite Edoc in H. clear Edoc.
  rewrite (render_separate inner (r_new ind) Hde) in H. change (f_open (r_foot (r_new ind))) with (@nil (bytes * list event)) in H.
  change (f_events (r_foot (r_new ind))) with (@nil (bytes * list event)) in H.
  change (set_notes (r_new ind) [] []) with (r_new ind) in H. rewrite Hop in H. fold body notes in H. rewrite E1 in H.
  cbn [res_map bind notes_map fst snd] in H.
  set (s2 := set_notes s1 [] (store notes [])) in *.
  assert (HC2 : coupled (r_depth (r_new ind)) [] s2).
  { destruct HC1 as (C1 & C2 & C3 & C4 & C5). split; [reflexivity|]. split; [exact C2|]. split; [exact C3|]. split; [exact C4|]. exact C5. }
  apply bind_ok in H as ([s3 o3] & H3 & H). injection H as <- <-.
  set (fb := foot_bound (r_foot s2)) in *.
  assert (Eep : render_event s2 (End_ Document) = render_epilogue (S fb) (render_f (S fb)) s2).
  { unfold render_event. fold fb. cbn [render_f]. rewrite render_body_view. unfold rview. cbn [kind_of].
    change (f_open (r_foot s2)) with (@nil (bytes * list event)).
    destruct HC2 as (_ & _ & C3 & C4 & _). rewrite C4. cbn [top_ld]. cbn [rmain is_block_container bind]. rewrite C3.
    cbn [cnt filter length Nat.ltb Nat.leb andb close_tag bind].
    change (fix render_f (fuel : nat) (s : rstate) (e : event) {struct fuel} : res (rstate * bytes) :=
      match fuel with 0 => Fuel | S f => render_body (fun s0 => render_epilogue f (render_f f) s0) s e end) with render_f.
    change (fun (s : rstate) (e : event) => render_body (fun s0 : rstate => render_epilogue fb (render_f fb) s0) s e) with (render_f (S fb)).
    destruct (render_epilogue (S fb) (render_f (S fb)) s2) as [[? ?]| |]; reflexivity. }
  rewrite Eep in H3. apply (wf_epilogue fb (r_depth (r_new ind)) (S fb) s2 s3 o3 o1 HC2 W2); [|  |exact H3|exact W1].
  - unfold ind_of in *. change (r_indent s2) with (r_indent s1). rewrite Hi1. exact Hind.
  - assert (Hst : forall m, (forall l b, List.In (l, b) m -> note_ok b) -> forall ns, (forall l b, List.In (l, b) ns -> note_ok b) ->
       forall l b, List.In (l, b) (store ns m) -> note_ok b).
    { clear. intros m Hm ns. revert m Hm. induction ns as [|[k c] ns IH]; intros m Hm Hns l b Hin; [eapply Hm; eauto|].
      cbn [store fold_left] in Hin. apply (IH (store1 m (k, c))) with (l := l); auto.
      - intros l1 b1 [[= <- <-]|H]; [apply (Hns k); left; auto|]. apply map_remove_in in H. eauto.
      - intros l1 b1 H. apply (Hns l1); right; auto. }
    apply (Hst [] ltac:(intros ? ? []) notes). intros l b Hin. destruct (sep_bodies inner [] Hde) with (l := l) (b := b) as [G1 G2]; [intros ? ? []|exact Hin|].
    rewrite Forall_forall in B3. split; [split; [exact G1|split; [exact G2|exact (B3 _ Hin)]]|exact (Fn _ _ Hin)].
Qed.
