(** * PHtml7: proofs about the renderer: layout *)
From Verif Require Import Base Attr Block Inline Doc Html Lib SpecDoc SpecHtml PHtml PHtml2 PHtml3 PHtml4 PHtml5 PHtml6.
Local Open Scope nat_scope.

Definition msim (ind : bytes) (s m : rstate) : Prop :=
  r_indent s = Some ind /\ r_indent m = None /\ r_raw m = r_raw s /\ r_img m = r_img s /\ r_tight m = r_tight s /\
  r_first m = r_first s /\ r_ignore m = r_ignore s /\ r_foot m = r_foot s.
(** The minified state that corresponds to a state. *)
Definition mini (s : rstate) (d : nat) : rstate := R None d (r_raw s) (r_img s) (r_tight s) (r_first s) (r_ignore s) (r_foot s).
Lemma msim_mini ind s m : msim ind s m <-> r_indent s = Some ind /\ m = mini s (r_depth m).
Proof.
  unfold msim, mini. split.
  - intros (H & H1 & H2 & H3 & H4 & H5 & H6 & H7). split; auto. destruct m; cbn in *. congruence.
  - intros [H ->]. cbn. auto 10.
Qed.

Lemma w_block_mini s d k o s' : w_block s d = Ok (s', o) -> w_block (mini s k) d = Ok (mini s' k, []).
Proof. intros H. apply w_block_frame in H. rewrite H. reflexivity. Qed.
Lemma open_tag_mini s c k :
  open_tag (mini s k) c =
  res_map (fun t => match t with inl s => inl (mini s k) | inr p => inr (mini (fst p) k, snd p) end) (open_tag s c).
Proof.
  destruct s as [ind dep raw img ti fi ig foot], c; try reflexivity.
  - destruct ti as [|[] ti]; reflexivity.
  - destruct head; reflexivity.
  - cbn. destruct img; reflexivity.
Qed.
Lemma close_tag_mini s c k :
  close_tag (mini s k) c =
  res_map (fun t => match t with inl (inl u) => inl (inl u) | inl (inr s) => inl (inr (mini s k))
                               | inr p => inr (mini (fst p) k, snd p) end) (close_tag s c).
Proof.
  destruct s as [ind dep raw img ti fi ig foot], c; try reflexivity.
  - destruct ti as [|[] ti]; reflexivity.
  - destruct head; reflexivity.
  - cbn. destruct (usub img 1 "html.rs:617"); reflexivity.
Qed.
Lemma ok_inj {A B} (a c : A) (b d : B) : Ok (a, b) = Ok (c, d) -> c = a /\ d = b.
Proof. intros [= -> ->]. auto. Qed.
Definition markupb (x : bytes) : bool :=
  match x with c :: y => (c =? "<")%char && match rev y with d :: _ => (d =? ">")%char | [] => false end | [] => false end.
Lemma markup_b x : markupb x = true -> markup x.
Proof.
  destruct x as [|c y]; [discriminate|]. unfold markupb. intros H. apply andb_prop in H. destruct H as [H1 H2].
  apply Ascii.eqb_eq in H1. subst c. destruct (rev y) as [|d z] eqn:E; [discriminate|]. apply Ascii.eqb_eq in H2. subst d.
  exists (rev z). rewrite <- (rev_involutive y), E. reflexivity.
Qed.
Lemma close_open_mini s c k s' o : close_open_tag s c = Ok (s', o) ->
  exists om, close_open_tag (mini s k) c = Ok (mini s' k, om) /\
   (om = o \/ exists b w x, c = TaskListItem b /\ gap (ind_of s) w /\ markup x /\ om = B ">" ++ x /\ o = B ">" ++ w ++ x).
Proof.
  intros H. destruct c; cbn [close_open_tag] in *; try (injection H as <- <-; eexists; split; [reflexivity|auto]; fail).
  - apply bind_ok in H. destruct H as ([s1 w] & H1 & H). injection H as <- <-.
    rewrite (w_block_mini _ _ k _ _ H1). cbn [bind]. eexists. split; [reflexivity|]. right.
    do 3 eexists. split; [reflexivity|]. split; [eapply gap_block; eauto|]. split; [|split; [reflexivity|reflexivity]].
    apply markup_b. destruct checked; reflexivity.
  - destruct a; injection H as <- <-; eexists; (split; [reflexivity|auto]).
Qed.

Lemma ind_of_some s ind : r_indent s = Some ind -> ind_of s = ind.
Proof. unfold ind_of. intros ->. auto. Qed.

(** The epilogue, if it is reached, is laid out. *)
Definition epi_sim (ind : bytes) (epi epim : rstate -> res (rstate * bytes)) : Prop :=
  forall s k s' o, r_indent s = Some ind -> epi s = Ok (s', o) ->
  r_indent s' = Some ind /\ exists om k', epim (mini s k) = Ok (mini s' k', om) /\ laid ind om o.

Lemma markup_start s c a o2 s2 : c = TaskListItem a -> open_tag s c = Ok (inr (s2, o2)) -> o2 = B "<li".
Proof. intros -> H. cbn in H. injection H as _ <-. reflexivity. Qed.

Lemma rmain_sim ind epi epim s k e s' o : r_indent s = Some ind -> epi_sim ind epi epim ->
  rmain epi s e = Ok (s', o) ->
  r_indent s' = Some ind /\ exists om k', rmain epim (mini s k) e = Ok (mini s' k', om) /\ event_lay ind e om o.
Proof.
  intros Hi He H.
  assert (Hfr : doc_end e = false -> r_indent s' = Some ind).
  { intros Hd. apply rmain_frame in H; auto. destruct H as (-> & _). auto. }
  destruct e; cbn [rmain] in *;
    try (split; [apply Hfr; reflexivity|]; injection H as <- <-; do 2 eexists; split; [reflexivity|apply el_same]; fail).
  - (* Start *)
    split; [apply Hfr; reflexivity|]. clear Hfr.
    apply bind_ok in H. destruct H as ([s1 o1] & H1 & H).
    assert (E1 : (if is_block c then w_block (mini s k) (if is_block_container c then DUp else DSame) else Ok (mini s k, [])) = Ok (mini s1 k, []) /\ gap ind o1 /\ r_indent s1 = Some ind).
    { destruct (is_block c).
      - split; [eapply w_block_mini; eauto|]. split; [rewrite <- (ind_of_some s ind Hi); eapply gap_block; eauto|].
        apply w_block_frame in H1. rewrite H1. auto.
      - injection H1 as <- <-. split; [reflexivity|]. split; [apply gap_nil|auto]. }
    destruct E1 as (-> & Hg & Hi1). cbn [bind]. change (r_img (mini s1 k)) with (r_img s1).
    destruct (_ && _).
    { injection H as <- <-. do 2 eexists. split; [reflexivity|]. rewrite <- (app_nil_r o1). apply el_block; [exact I|auto]. }
    rewrite open_tag_mini. apply bind_ok in H. destruct H as ([s2|[s2 o2]] & H2 & H).
    { rewrite H2. cbn [res_map bind]. injection H as <- <-. do 2 eexists. split; [reflexivity|]. rewrite <- (app_nil_r o1). apply el_block; [exact I|auto]. }
    rewrite H2. cbn [res_map bind fst snd].
    apply bind_ok in H. destruct H as ([s3 o3] & H3 & H). injection H as <- <-.
    pose proof H3 as H3'. apply (close_open_mini _ _ k) in H3'. destruct H3' as (om & -> & Hc). cbn [bind].
    do 2 eexists. split; [reflexivity|]. cbn [app].
    destruct Hc as [->|(b & w & x & -> & Hgw & Hm & -> & ->)]; [apply el_block; [exact I|auto]|].
    apply (markup_start s1 _ b) in H2 as Ho2; auto. subst o2.
    pose proof (open_tag_frame s1 (TaskListItem b) s2) as Hf. destruct Hf as (Hf & _); [eauto|].
    rewrite (ind_of_some s2 ind) in Hgw by congruence.
    replace (B "<li" ++ write_attrs (TaskListItem b) a ++ B ">" ++ x) with ((B "<li" ++ write_attrs (TaskListItem b) a ++ B ">") ++ x) by (rewrite <- !app_assoc; reflexivity).
    replace (o1 ++ B "<li" ++ write_attrs (TaskListItem b) a ++ B ">" ++ w ++ x) with (o1 ++ (B "<li" ++ write_attrs (TaskListItem b) a ++ B ">") ++ w ++ x) by (rewrite <- !app_assoc; reflexivity).
    apply el_task; auto. exists (B "li" ++ write_attrs (TaskListItem b) a). rewrite <- app_assoc. reflexivity.
  - (* End *)
    apply bind_ok in H. destruct H as ([s1 o1] & H1 & H).
    assert (E1 : (if is_block_container c then w_block (mini s k) DDown else Ok (mini s k, [])) = Ok (mini s1 k, []) /\ gap ind o1 /\ r_indent s1 = Some ind).
    { destruct (is_block_container c).
      - split; [eapply w_block_mini; eauto|]. split; [rewrite <- (ind_of_some s ind Hi); eapply gap_block; eauto|].
        apply w_block_frame in H1. rewrite H1. auto.
      - injection H1 as <- <-. split; [reflexivity|]. split; [apply gap_nil|auto]. }
    destruct E1 as (-> & Hg & Hi1). cbn [bind]. change (r_img (mini s1 k)) with (r_img s1).
    destruct (_ && _).
    { injection H as <- <-. split; [auto|]. do 2 eexists. split; [reflexivity|]. rewrite <- (app_nil_r o1). apply el_block; [exact I|auto]. }
    rewrite close_tag_mini. apply bind_ok in H. destruct H as ([[u|s2]|[s2 o2]] & H2 & H); rewrite H2; cbn [res_map bind fst snd].
    + apply close_tag_doc in H2. subst c. cbn in H1. injection H1 as <- <-.
      apply bind_ok in H. destruct H as ([s3 o3] & H3 & H). injection H as <- <-.
      destruct (He s k _ _ Hi H3) as (Hi3 & om & k' & -> & Hl). split; [auto|]. cbn [bind].
      do 2 eexists. split; [reflexivity|]. cbn [app]. apply el_end. auto.
    + injection H as <- <-. split; [destruct (close_tag_frame s1 c s2) as (-> & _); eauto|].
      do 2 eexists. split; [reflexivity|]. rewrite <- (app_nil_r o1). apply el_block; [exact I|auto].
    + injection H as <- <-. split; [destruct (close_tag_frame s1 c s2) as (Hx & _); eauto; cbn; congruence|].
      do 2 eexists. split; [reflexivity|]. apply el_block; [exact I|auto].
  - (* FootnoteReference *)
    split; [apply Hfr; reflexivity|]. change (r_foot (mini s k)) with (r_foot s).
    destruct (foot_reference (r_foot s) label) as [f n]. injection H as <- <-. do 2 eexists. split; [reflexivity|apply el_same].
  - (* Softbreak *)
    split; [apply Hfr; reflexivity|]. injection H as <- <-. do 2 eexists. split; [reflexivity|].
    change (w_indent (mini s k)) with (@nil ascii). apply (el_break _ _ [NL]); auto.
    rewrite <- (ind_of_some s ind Hi). apply gap_indent.
  - (* Hardbreak *)
    split; [apply Hfr; reflexivity|]. apply bind_ok in H. destruct H as ([s1 o1] & H1 & H). injection H as <- <-.
    rewrite (w_block_mini _ _ k _ _ H1). cbn [bind]. do 2 eexists. split; [reflexivity|]. rewrite app_nil_r. apply (el_break ind Hardbreak (B "<br>") o1); auto.
    rewrite <- (ind_of_some s ind Hi). eapply gap_block; eauto.
  - (* ThematicBreak *)
    split; [apply Hfr; reflexivity|]. apply bind_ok in H. destruct H as ([s1 o1] & H1 & H). injection H as <- <-.
    rewrite (w_block_mini _ _ k _ _ H1). cbn [bind]. do 2 eexists. split; [reflexivity|]. cbn [app]. apply el_block; [exact I|].
    rewrite <- (ind_of_some s ind Hi). eapply gap_block; eauto.
Qed.

Definition rend_sim (ind : bytes) (rend rendm : rstate -> event -> res (rstate * bytes)) : Prop :=
  forall s k e s' o, r_indent s = Some ind -> rend s e = Ok (s', o) ->
  r_indent s' = Some ind /\ exists om k', rendm (mini s k) e = Ok (mini s' k', om) /\ event_lay ind e om o.

Lemma render_body_sim ind epi epim : epi_sim ind epi epim -> rend_sim ind (render_body epi) (render_body epim).
Proof.
  intros He s k e s' o Hi H. rewrite render_body_view in *. unfold rview in *.
  change (r_foot (mini s k)) with (r_foot s). change (r_ignore (mini s k)) with (r_ignore s).
  destruct (kind_of e) eqn:K; destruct (f_open (r_foot s)) as [|[l0 b0] st];
    try (injection H as <- <-; split; [auto|]; do 2 eexists; split; [reflexivity|apply el_same]; fail).
  all: destruct (r_ignore s) eqn:Eg;
    [injection H as <- <-; split; [auto|]; do 2 eexists; split; [reflexivity|apply el_same]|].
  all: eapply rmain_sim; eauto.
Qed.

Lemma markup_p : markup (B "</p>") /\ markup (B "<p>").
Proof. split; [exists (B "/p")|exists (B "p")]; reflexivity. Qed.
Lemma foot_events_sim ind rend rendm : rend_sim ind rend rendm -> forall evs s k u s' o u',
  r_indent s = Some ind -> foot_events rend s evs u = Ok (s', o, u') ->
  r_indent s' = Some ind /\ exists om k', foot_events rendm (mini s k) evs u = Ok (mini s' k', om, u') /\
    forall a b, laid ind a b -> laid ind (om ++ a) (o ++ b).
Proof.
  intros Hr. induction evs as [|e evs IH]; intros s k u s' o u' Hi H.
  - cbn in H. injection H as <- <- <-. split; [auto|]. exists [], k. split; [reflexivity|auto].
  - assert (Hcase : forall (P : rstate -> bool), (forall s k, P (mini s k) = P s) ->
      (let! (s1, o1) := rend s e in let! (s2, o2, u2) := foot_events rend s1 evs (P s1) in
        Ok (s2, (if u then B "</p>" else []) ++ o1 ++ o2, u2)) = Ok (s', o, u') ->
      r_indent s' = Some ind /\ exists om k',
        (let! (s1, o1) := rendm (mini s k) e in let! (s2, o2, u2) := foot_events rendm s1 evs (P s1) in
        Ok (s2, (if u then B "</p>" else []) ++ o1 ++ o2, u2)) = Ok (mini s' k', om, u') /\
        forall a b, laid ind a b -> laid ind (om ++ a) (o ++ b)).
    { intros P HP H1. apply bind_ok in H1. destruct H1 as ([s1 o1] & H1 & H2).
      apply bind_ok in H2. destruct H2 as ([[s2 o2] u2] & H2 & H3). injection H3 as <- <- <-.
      destruct (Hr s k e s1 o1 Hi H1) as (Hi1 & om1 & k1 & -> & L1). cbn [bind]. rewrite HP.
      destruct (IH s1 k1 _ _ _ _ Hi1 H2) as (Hi2 & om2 & k2 & -> & L2). split; [auto|]. cbn [bind].
      do 2 eexists. split; [reflexivity|]. intros a b Hab. rewrite <- !app_assoc.
      assert (L : laid ind (om1 ++ om2 ++ a) (o1 ++ o2 ++ b)) by (apply (laid_event ind e); auto).
      destruct u; [apply laid_tag; [apply markup_p|auto]|exact L]. }
    cbn [foot_events] in *.
    destruct e; try (eapply IH; eauto; fail); try (apply (Hcase (fun _ => false)); [reflexivity|exact H]).
    destruct c; try (apply (Hcase (fun _ => false)); [reflexivity|exact H]).
    apply (Hcase (fun s => negb (tight_top s))); [reflexivity|exact H].
Qed.

Lemma laid_gap0 ind w : gap ind w -> laid ind [] w.
Proof. intros H. rewrite <- (app_nil_r w). apply laid_gap; [auto|apply laid_nil]. Qed.
Lemma epi_loop_sim ind rend rendm : rend_sim ind rend rendm -> forall fu s k s' o,
  r_indent s = Some ind -> epi_loop fu rend s = Ok (s', o) ->
  r_indent s' = Some ind /\ exists om k', epi_loop fu rendm (mini s k) = Ok (mini s' k', om) /\
    forall a b, laid ind a b -> laid ind (om ++ a) (o ++ b).
Proof.
  intros Hr. induction fu as [|fu IH]; intros s k s' o Hi H; cbn [epi_loop] in *; change (r_foot (mini s k)) with (r_foot s).
  - destruct (foot_next (r_foot s)) as [[[n evs] f]|]; [discriminate|]. injection H as <- <-.
    split; [auto|]. exists [], k. split; [reflexivity|auto].
  - destruct (foot_next (r_foot s)) as [[[n evs] f]|].
    2:{ injection H as <- <-. split; [auto|]. exists [], k. split; [reflexivity|auto]. }
    change (r_set_foot (mini s k) f) with (mini (r_set_foot s f) k).
    apply bind_ok in H. destruct H as ([s1 o1] & H1 & H). apply bind_ok in H. destruct H as ([[s2 o2] u] & H2 & H).
    apply bind_ok in H. destruct H as ([s3 o3] & H3 & H). apply bind_ok in H. destruct H as ([s4 o4] & H4 & H).
    apply bind_ok in H. destruct H as ([s5 o5] & H5 & H). apply ok_inj in H. destruct H as [-> ->].
    rewrite (w_block_mini _ _ k _ _ H1). cbn [bind].
    assert (G1 : gap ind o1) by (rewrite <- (ind_of_some (r_set_foot s f) ind Hi); eapply gap_block; eauto).
    apply w_block_same in H1. subst s1.
    destruct (foot_events_sim ind rend rendm Hr _ (r_set_foot s f) k _ _ _ _ Hi H2) as (Hi2 & om2 & k2 & -> & L2). cbn [bind].
    assert (H3' : s3 = s2 /\ exists om3, (if u then Ok (mini s2 k2, []) else let! (s, o) := w_block (mini s2 k2) DSame in Ok (s, o ++ B "<p>")) = Ok (mini s2 k2, om3) /\
       forall a b, laid ind a b -> laid ind (om3 ++ a) (o3 ++ b)).
    { destruct u; [injection H3 as <- <-; split; [auto|]; exists []; split; [reflexivity|auto]|].
      apply bind_ok in H3. destruct H3 as ([s6 o6] & H6 & H3). injection H3 as <- <-.
      rewrite (w_block_mini _ _ k2 _ _ H6). cbn [bind].
      assert (G6 : gap ind o6) by (rewrite <- (ind_of_some s2 ind Hi2); eapply gap_block; eauto).
      apply w_block_same in H6. subst s6. split; [auto|]. eexists. split; [reflexivity|].
      intros a b Hab. change (laid ind (B "<p>" ++ a) ((o6 ++ B "<p>") ++ b)). rewrite <- app_assoc. apply laid_gap; [auto|]. apply laid_tag; [apply markup_p|auto]. }
    destruct H3' as (-> & om3 & -> & L3). cbn [bind].
    rewrite (w_block_mini _ _ k2 _ _ H4). cbn [bind].
    assert (G4 : gap ind o4) by (rewrite <- (ind_of_some s2 ind Hi2); eapply gap_block; eauto).
    apply w_block_same in H4. subst s4.
    destruct (IH s2 k2 _ _ Hi2 H5) as (Hi5 & om5 & k5 & -> & L5). cbn [bind]. split; [auto|].
    do 2 eexists. split; [reflexivity|]. intros a b Hab.
    set (d := dec (N.of_nat n)).
    assert (M1 : markup (item_start n)).
    { exists (B "li id=" ++ [DQ] ++ B "fn" ++ d ++ [DQ]). unfold item_start. rewrite !app_assoc_reverse. reflexivity. }
    assert (M2 : markup (backlink n)).
    { exists (B "a href=" ++ [DQ] ++ B "#fnref" ++ d ++ [DQ] ++ B " role=" ++ [DQ] ++ B "doc-backlink" ++ [DQ] ++ B ">↩︎</a></p").
      unfold backlink. rewrite !app_assoc_reverse. reflexivity. }
    assert (M3 : markup (B "</li>")) by (exists (B "/li"); reflexivity).
    match goal with |- laid ind ?x ?y =>
      replace x with (item_start n ++ om2 ++ om3 ++ backlink n ++ B "</li>" ++ om5 ++ a) by (unfold item_start, backlink, d; rewrite !app_assoc_reverse; reflexivity);
      replace y with (o1 ++ item_start n ++ o2 ++ o3 ++ backlink n ++ o4 ++ B "</li>" ++ o5 ++ b) by (unfold item_start, backlink, d; rewrite !app_assoc_reverse; reflexivity)
    end.
    apply laid_gap; [auto|]. apply laid_tag; [auto|]. apply L2, L3. apply laid_tag; [auto|]. apply laid_gap; [auto|]. apply laid_tag; auto.
Qed.

Lemma epilogue_sim ind rend rendm fu : rend_sim ind rend rendm -> epi_sim ind (render_epilogue fu rend) (render_epilogue fu rendm).
Proof.
  intros Hr s k s' o Hi H. unfold render_epilogue in *. change (r_foot (mini s k)) with (r_foot s).
  destruct (f_refs (r_foot s)).
  - cbn [bind] in *. injection H as <- <-. split; [auto|]. exists [], k. rewrite Hi. split; [reflexivity|].
    apply laid_gap0. apply gap_nl, gap_nil.
  - apply bind_ok in H. destruct H as ([sx ox] & H & Hx). apply ok_inj in Hx. destruct Hx as [-> ->].
    apply bind_ok in H. destruct H as ([s1 o1] & H1 & H). pose proof (gap_block _ _ _ _ H1) as G1.
    rewrite (w_block_mini _ _ k _ _ H1). cbn [bind]. apply w_block_same in H1. subst s1.
    apply bind_ok in H. destruct H as ([s2 o2] & H2 & H). pose proof (gap_block _ _ _ _ H2) as G2.
    rewrite (w_block_mini _ _ k _ _ H2). cbn [bind]. apply w_block_same in H2. subst s2.
    apply bind_ok in H. destruct H as ([s3 o3] & H3 & H). pose proof (gap_block _ _ _ _ H3) as G3.
    rewrite (w_block_mini _ _ k _ _ H3). cbn [bind]. apply w_block_same in H3. subst s3.
    apply bind_ok in H. destruct H as ([s4 o4] & H4 & H).
    destruct (epi_loop_sim ind rend rendm Hr _ s k _ _ Hi H4) as (Hi4 & om4 & k4 & -> & L4). cbn [bind].
    apply bind_ok in H. destruct H as ([s5 o5] & H5 & H). pose proof (gap_block _ _ _ _ H5) as G5.
    rewrite (w_block_mini _ _ k4 _ _ H5). cbn [bind]. apply w_block_same in H5. subst s5.
    apply bind_ok in H. destruct H as ([s6 o6] & H6 & H). pose proof (gap_block _ _ _ _ H6) as G6.
    rewrite (w_block_mini _ _ k4 _ _ H6). cbn [bind]. apply w_block_same in H6. subst s6.
    apply ok_inj in H. destruct H as [-> ->]. split; [auto|]. rewrite Hi4. do 2 eexists. split; [reflexivity|].
    rewrite (ind_of_some s ind Hi) in *. rewrite (ind_of_some s4 ind Hi4) in *.
    change (r_indent (mini s4 k4)) with (@None bytes). cbv iota. rewrite app_nil_r.
    set (sec := B "<section role=" ++ [DQ] ++ B "doc-endnotes" ++ [DQ] ++ B ">").
    assert (M : markup sec) by (exists (B "section role=" ++ [DQ] ++ B "doc-endnotes" ++ [DQ]); reflexivity).
    match goal with |- laid ind ?x ?y =>
      replace x with (sec ++ B "<hr>" ++ B "<ol>" ++ om4 ++ B "</ol>" ++ B "</section>" ++ []) by (unfold sec; rewrite !app_assoc_reverse, ?app_nil_r; reflexivity);
      replace y with (o1 ++ sec ++ o2 ++ B "<hr>" ++ o3 ++ B "<ol>" ++ o4 ++ o5 ++ B "</ol>" ++ o6 ++ B "</section>" ++ [NL])
        by (unfold sec; rewrite !app_assoc_reverse; reflexivity) end.
    apply laid_gap; [auto|]. apply laid_tag; [auto|]. apply laid_gap; [auto|]. apply laid_tag; [exists (B "hr"); reflexivity|].
    apply laid_gap; [auto|]. apply laid_tag; [exists (B "ol"); reflexivity|]. apply L4.
    apply laid_gap; [auto|]. apply laid_tag; [exists (B "/ol"); reflexivity|]. apply laid_gap; [auto|].
    apply laid_tag; [exists (B "/section"); reflexivity|]. apply laid_gap0. apply gap_nl, gap_nil.
Qed.

Lemma render_f_sim ind fu : rend_sim ind (render_f fu) (render_f fu).
Proof.
  induction fu as [|fu IH]; intros s k e s' o Hi H; [discriminate|].
  cbn [render_f] in *. eapply render_body_sim; eauto. intros s1 k1 s1' o1. apply (epilogue_sim ind _ _ fu IH).
Qed.
Lemma render_event_sim ind : rend_sim ind render_event render_event.
Proof. intros s k e s' o Hi H. unfold render_event in *. change (r_foot (mini s k)) with (r_foot s). eapply render_f_sim; eauto. Qed.

Lemma render_list_sim ind evs : forall s k s' os, r_indent s = Some ind -> render_list s evs = Ok (s', os) ->
  exists m' oms, render_list (mini s k) evs = Ok (m', oms) /\ lays ind evs oms os.
Proof.
  induction evs as [|e evs IH]; intros s k s' os Hi H.
  - cbn in H. injection H as <- <-. exists (mini s k), []. cbn. auto.
  - cbn [render_list] in *. apply bind_ok in H. destruct H as ([s1 o1] & H1 & H).
    apply bind_ok in H. destruct H as ([s2 os2] & H2 & H). injection H as <- <-.
    destruct (render_event_sim ind s k e s1 o1 Hi H1) as (Hi1 & om1 & k1 & -> & L1). cbn [bind].
    destruct (IH s1 k1 s2 os2 Hi1 H2) as (m' & oms & -> & L2). cbn [bind]. do 2 eexists. split; [reflexivity|]. cbn. auto.
Qed.
