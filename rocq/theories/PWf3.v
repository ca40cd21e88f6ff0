(** * PWf3: proofs for C23: one event *)
From Verif Require Import Base Lex Attr Block Inline Doc Html Lib SpecAttr SpecDoc SpecHtml SpecWf PHtml PHtml2 PHtml3 PHtml4 PHtml5 PHtml6 PIds PCan14 PWf PWf2.
Local Open Scope nat_scope.

Ltac en_tag H n := exact (opens_end _ _ (B n) H).
Lemma close_inr s c s' o2 ns x : is_img c = false -> (c = Paragraph -> f_number (r_foot s) = 0) ->
  close_tag s c = Ok (inr (s', o2)) -> opens (cn (tight_top s) c ++ ns) x -> opens ns (x ++ o2).
Proof.
  intros Himg Hp H Hx. destruct c; try discriminate Himg; cbn [cn] in Hx; cbn [close_tag] in H; try discriminate H; try (injection H as <- <-).
  - en_tag Hx "blockquote"%string.
  - destruct k; [en_tag Hx "ul"%string|en_tag Hx "ol"%string|en_tag Hx "ul"%string].
  - en_tag Hx "li"%string.
  - en_tag Hx "li"%string.
  - en_tag Hx "dl"%string.
  - en_tag Hx "dd"%string.
  - en_tag Hx "table"%string.
  - en_tag Hx "tr"%string.
  - en_tag Hx "section"%string.
  - en_tag Hx "div"%string.
  - destruct (tight_top s); [discriminate H|]. rewrite (Hp eq_refl) in H. injection H as <- <-. en_tag Hx "p"%string.
  - apply opens_end in Hx. unfold end_tag in Hx. rewrite <- ?app_assoc in Hx. exact Hx.
  - destruct head; injection H as <- <-; [en_tag Hx "th"%string|en_tag Hx "td"%string].
  - en_tag Hx "caption"%string.
  - en_tag Hx "dt"%string.
  - rewrite app_nil_r. exact Hx.
  - apply opens_end, opens_end in Hx. rewrite <- app_assoc in Hx. exact Hx.
  - en_tag Hx "span"%string.
  - en_tag Hx "a"%string.
  - en_tag Hx "code"%string.
  - apply (opens_lit _ _ (if display then B "\]" else B "\)")) in Hx; [|destruct display; reflexivity]. apply opens_end in Hx. rewrite <- app_assoc in Hx. destruct display; exact Hx.
  - rewrite app_nil_r. exact Hx.
  - en_tag Hx "sub"%string.
  - en_tag Hx "sup"%string.
  - en_tag Hx "ins"%string.
  - en_tag Hx "del"%string.
  - en_tag Hx "strong"%string.
  - en_tag Hx "em"%string.
  - en_tag Hx "mark"%string.
Qed.
Lemma close_inl s c s' : close_tag s c = Ok (inl (inr s')) -> c = Paragraph /\ tight_top s = true /\ s' = s.
Proof.
  destruct c; cbn [close_tag]; intros H; try discriminate H.
  - destruct (tight_top s); [|discriminate H]. injection H as <-. auto.
  - destruct head; discriminate H.
  - destruct (usub _ _ _); discriminate H.
Qed.

(** ** The open elements of a stack of containers *)
Fixpoint tights (st : list container) : list bool :=
  match st with [] => [] | ListC _ t :: r => t :: tights r | _ :: r => tights r end.
Definition tt (st : list container) : bool := hd false (tights st).
Fixpoint names (st : list container) : list bytes :=
  match st with [] => [] | c :: r => (if in_image r then [] else cn (tt r) c) ++ names r end.
Fixpoint okst (st : list container) : Prop :=
  match st with [] => True | c :: r => (is_block c = true -> in_image r = false) /\ cont_ok c /\ okst r end.
Definition placed (st : list container) (e : event) : Prop :=
  in_image st = true -> match e with Start c _ => is_block c = false | ThematicBreak _ => False | _ => True end.
Definition J (st : list container) (base : list bytes) (x : bytes) : Prop :=
  if in_image st then alt (names st ++ base) x else opens (names st ++ base) x.
Lemma tight_tt s st : r_tight s = tights st -> tight_top s = tt st.
Proof. unfold tight_top, tt. intros ->. destruct (tights st) as [|[] l]; reflexivity. Qed.
Lemma tight_block_cont c st : is_block c = false -> tights (c :: st) = tights st.
Proof. destruct c; intros H; try reflexivity; discriminate H. Qed.

Lemma w_block_tight s d s' o : w_block s d = Ok (s', o) -> r_tight s' = r_tight s /\ r_img s' = r_img s /\ r_foot s' = r_foot s /\ r_indent s' = r_indent s.
Proof. intros H. rewrite (w_block_frame _ _ _ _ H). repeat split; reflexivity. Qed.
Lemma open_tight s c s' : open_tag s c = Ok (inl s') \/ (exists o, open_tag s c = Ok (inr (s', o))) ->
  r_tight s' = (match c with ListC _ t => [t] | _ => [] end) ++ r_tight s.
Proof.
  intros H. destruct c; cbn [open_tag] in H; try (destruct H as [H|(o & H)]; (discriminate H || (injection H as <-; reflexivity) || (injection H as <- <-; reflexivity)); fail).
  - destruct (tight_top s); destruct H as [H|(o & H)]; (discriminate H || (injection H as <-; reflexivity) || (injection H as <- <-; reflexivity)).
  - destruct head; destruct H as [H|(o & H)]; (discriminate H || (injection H as <-; reflexivity) || (injection H as <- <-; reflexivity)).
  - cbn in H. destruct (r_img s); cbn in H; destruct H as [H|(o & H)]; (discriminate H || (injection H as <-; reflexivity) || (injection H as <- <-; reflexivity)).
Qed.
Lemma close_tight s c s' : close_tag s c = Ok (inl (inr s')) \/ (exists o, close_tag s c = Ok (inr (s', o))) ->
  r_tight s' = match c with ListC _ _ => tl (r_tight s) | _ => r_tight s end.
Proof.
  intros H. destruct c; cbn [close_tag] in H; try (destruct H as [H|(o & H)]; (discriminate H || (injection H as <-; reflexivity) || (injection H as <- <-; reflexivity)); fail).
  - destruct (tight_top s); destruct H as [H|(o & H)]; (discriminate H || (injection H as <-; reflexivity) || (injection H as <- <-; reflexivity)).
  - destruct head; destruct H as [H|(o & H)]; (discriminate H || (injection H as <-; reflexivity) || (injection H as <- <-; reflexivity)).
  - destruct (usub _ _ _); cbn in H; destruct H as [H|(o & H)]; (discriminate H || (injection H as <-; reflexivity) || (injection H as <- <-; reflexivity)).
Qed.
Lemma close_open_same s c s' o : close_open_tag s c = Ok (s', o) -> s' = s.
Proof. intros H. destruct (close_open_tag_ok s c) as [o' E]. rewrite E in H. injection H as <- <-. reflexivity. Qed.

Lemma J_add st base x t : J st base x -> plains t -> J st base (x ++ t).
Proof. unfold J. intros H Ht. destruct (in_image st); [apply alt_add; [exact H|apply plains_dq, Ht]|apply opens_plain; assumption]. Qed.

Lemma is_img_in c st : in_image (c :: st) = is_img c || in_image st.
Proof. reflexivity. Qed.
Lemma start_ok s c a s' o st base x d0 :
  is_fn c = false -> c <> Document -> is_ld c = false -> coupled d0 st s -> r_tight s = tights st -> okst st -> placed st (Start c a) -> keys_ok a -> cont_ok c -> plains (ind_of s) ->
  rmain (fun _ => Fuel) s (Start c a) = Ok (s', o) -> J st base x -> J (c :: st) base (x ++ o) /\ r_tight s' = tights (c :: st).
Proof.
  intros Hf HD Hl HC Ht Hok Hp Hk Hcc Hind H HJ. destruct HC as (_ & _ & Himg & _ & _ & _).
  cbn [rmain] in H. apply bind_ok in H as ([s1 o1] & H1 & H).
  assert (F : r_tight s1 = r_tight s /\ r_img s1 = r_img s /\ r_foot s1 = r_foot s /\ r_indent s1 = r_indent s).
  { destruct (is_block c); [eapply w_block_tight; exact H1|injection H1 as <- <-; auto]. }
  destruct F as (F1 & F2 & F3 & F4).
  assert (Ho1 : plains o1 /\ (is_block c = false -> o1 = [])).
  { destruct (is_block c); [split; [|discriminate]|injection H1 as <- <-; split; [constructor|reflexivity]]. eapply gap_plain; [exact Hind|eapply gap_block; exact H1]. }
  destruct Ho1 as [Ho1 Ho1']. pose proof (in_image_cnt st) as Ei. rewrite <- Himg, <- F2 in Ei.
  assert (Hblk : in_image st = true -> tights (c :: st) = tights st) by (intros E; apply tight_block_cont, (Hp E)).
  assert (Hcn0 : in_image st = true -> names (c :: st) = names st) by (intros E; cbn [names]; rewrite E; reflexivity).
  destruct (Nat.ltb 0 (r_img s1) && match c with Image _ _ => false | _ => true end) eqn:E.
  { injection H as <- <-. apply andb_prop in E as [E1 E2]. rewrite E1 in Ei. split; [|rewrite F1, (Hblk Ei); exact Ht].
    unfold J in *. rewrite Ei in HJ. rewrite is_img_in, Ei. rewrite orb_true_r, (Hcn0 Ei). rewrite (Ho1' (Hp Ei)), app_nil_r. exact HJ. }
  apply bind_ok in H as (t & H2 & H). destruct t as [s2|[s2 o2]].
  - injection H as <- <-. destruct (open_inl _ _ _ H2) as [Hcn Him]. rewrite (tight_tt s1 st) in Hcn by congruence.
    pose proof (open_tight _ _ _ (or_introl H2)) as G. rewrite F1, Ht in G. split.
    + unfold J in *. rewrite is_img_in. cbn [names]. destruct (in_image st) eqn:Es.
      * rewrite orb_true_r. cbn [app]. rewrite (Ho1' (Hp Es)), app_nil_r. exact HJ.
      * rewrite Him, orb_false_l, Hcn; [cbn [app]; apply opens_plain; [exact HJ|exact Ho1]|].
        symmetry in Ei. apply Nat.ltb_ge in Ei. lia.
    + rewrite G. destruct c; reflexivity.
  - apply bind_ok in H as ([s3 o3] & H3 & H). injection H as <- <-. pose proof (close_open_same _ _ _ _ H3) as ->.
    pose proof (open_tight _ _ _ (or_intror (ex_intro _ _ H2))) as G. rewrite F1, Ht in G. split.
    2:{ change (r_tight (r_set_first s2 false)) with (r_tight s2). rewrite G. destruct c; reflexivity. }
    destruct (in_image st) eqn:Es.
    + (* only an image, which would be nested *) exfalso. symmetry in Ei. rewrite Ei in E. cbn [andb] in E. destruct c; try discriminate E.
      cbn in H2. apply Nat.ltb_lt in Ei. destruct (r_img s1) as [|n]; [lia|]. cbn in H2. discriminate H2.
    + symmetry in Ei. apply Nat.ltb_ge in Ei. assert (Ei0 : r_img s1 = 0) by lia.
      unfold J in *. rewrite Es in HJ. assert (Hind1 : plains (ind_of s1)) by (unfold ind_of in *; rewrite F4; exact Hind).
      pose proof (open_inr s1 c s2 o2 s2 o3 a (names st ++ base) (x ++ o1) Hind1 Ei0 H2 H3 Hcc Hk (opens_plain _ _ _ HJ Ho1)) as K.
      rewrite (tight_tt s1 st) in K by congruence. rewrite is_img_in, Es, orb_false_r. cbn [names]. rewrite Es, <- !app_assoc. rewrite <- !app_assoc in K.
      destruct (is_img c) eqn:Eic; [|exact K]. destruct c; try discriminate Eic. exact K.
Qed.
(** The end of a paragraph in a note, which is written later. *)
Definition late (s : rstate) (st : list container) (c : container) : bool :=
  match c with Paragraph => negb (tt st) && Nat.ltb 0 (f_number (r_foot s)) | _ => false end.
Lemma end_ok s c s' o st base x d0 :
  is_fn c = false -> c <> Document -> is_ld c = false -> coupled d0 (c :: st) s -> r_tight s = tights (c :: st) -> okst (c :: st) -> plains (ind_of s) ->
  rmain (fun _ => Fuel) s (End_ c) = Ok (s', o) -> J (c :: st) base x ->
  (if late s st c then in_image st = false /\ o = [] /\ opens (B "p" :: names st ++ base) x else J st base (x ++ o)) /\ r_tight s' = tights st.
Proof.
  intros Hf HD Hl HC Ht Hok Hind H HJ. destruct HC as (_ & _ & Himg & _ & _ & _). destruct Hok as (Hb & Hcc & Hok).
  cbn [rmain] in H. apply bind_ok in H as ([s1 o1] & H1 & H).
  assert (Hbc : is_block_container c = true -> is_block c = true) by (unfold is_block; intros ->; reflexivity).
  assert (F : r_tight s1 = r_tight s /\ r_img s1 = r_img s /\ r_foot s1 = r_foot s /\ r_indent s1 = r_indent s).
  { destruct (is_block_container c); [eapply w_block_tight; exact H1|injection H1 as <- <-; auto]. }
  destruct F as (F1 & F2 & F3 & F4).
  assert (Ho1 : plains o1 /\ (is_block c = false -> o1 = [])).
  { destruct (is_block_container c); [split; [|rewrite Hbc; congruence]|injection H1 as <- <-; split; [constructor|reflexivity]]. eapply gap_plain; [exact Hind|eapply gap_block; exact H1]. }
  destruct Ho1 as [Ho1 Ho1']. pose proof (in_image_cnt (c :: st)) as Ei. rewrite <- Himg, <- F2 in Ei.
  assert (Hnb : in_image st = true -> is_block c = false) by (destruct (is_block c); [intros E; rewrite Hb in E by reflexivity; discriminate E|reflexivity]).
  destruct (Nat.ltb 0 (r_img s1) && match c with Image _ _ => false | _ => true end) eqn:E.
  { injection H as <- <-. apply andb_prop in E as [E1 E2]. rewrite E1, is_img_in in Ei. assert (Eic : is_img c = false) by (destruct c; (reflexivity || discriminate E2)).
    rewrite Eic, orb_false_l in Ei. specialize (Hnb Ei). assert (Hla : late s st c = false) by (destruct c; try reflexivity; discriminate Hnb). rewrite Hla. split.
    - unfold J in *. rewrite is_img_in, Eic, Ei in HJ. rewrite Ei. cbn [orb names] in HJ. rewrite Ei in HJ. rewrite (Ho1' Hnb), app_nil_r. exact HJ.
    - rewrite F1, Ht. apply tight_block_cont, Hnb. }
  apply bind_ok in H as (t & H2 & H).
  assert (Hni : is_img c = false -> in_image st = false /\ r_img s1 = 0 /\ in_image (c :: st) = false).
  { intros Eic. assert (Hm : match c with Image _ _ => false | _ => true end = true) by (destruct c; (reflexivity || discriminate Eic)). rewrite Hm, andb_true_r in E.
    rewrite E in Ei. split; [rewrite is_img_in, Eic in Ei; exact Ei|]. split; [apply Nat.ltb_ge in E; lia|exact Ei]. }
  assert (Hlate : late s st c = true -> c = Paragraph /\ tt st = false /\ 0 < f_number (r_foot s)).
  { unfold late. destruct c; try discriminate. intros G. apply andb_prop in G as [G1 G2]. apply negb_true_iff in G1. apply Nat.ltb_lt in G2. auto. }
  destruct t as [[u|s2]|[s2 o2]].
  - apply close_tag_doc in H2. congruence.
  - injection H as <- <-. apply close_inl in H2 as (-> & G1 & ->). rewrite (tight_tt s1 st) in G1 by (rewrite F1, Ht; reflexivity).
    destruct (Hni eq_refl) as (N1 & N2 & N3). split; [|rewrite F1, Ht; reflexivity]. unfold late. rewrite G1. cbn [negb andb].
    unfold J in *. rewrite N1. rewrite N3 in HJ. cbn [names] in HJ. rewrite N1 in HJ. cbn [cn] in HJ. rewrite G1 in HJ. cbn [app] in HJ. apply opens_plain; assumption.
  - injection H as <- <-. pose proof (close_tight _ _ _ (or_intror (ex_intro _ _ H2))) as G. rewrite F1, Ht in G.
    split; [|change (r_tight (r_set_first s2 false)) with (r_tight s2); rewrite G; destruct c; reflexivity].
    destruct (is_img c) eqn:Eic.
    + destruct c; try discriminate Eic. cbn [late]. cbn [close_tag] in H2. destruct (usub (r_img s1) 1 "html.rs:617") as [n| |] eqn:Eu; cbn [bind] in H2; try discriminate H2.
      assert (E2 : o2 = (if Nat.eqb (r_img s1) 1 then (match src with [] => [] | _ => [DQ] ++ B " src=" ++ [DQ] ++ write_attr src end) ++ [DQ] ++ B ">" else [])) by (injection H2 as _ H2; symmetry; exact H2).
      clear H2. rewrite (Ho1' eq_refl). cbn [app]. unfold J in *. rewrite is_img_in in HJ. cbn [is_img orb names cn] in HJ.
      assert (Ec : Nat.eqb (r_img s1) 1 = negb (in_image st)).
      { rewrite F2, Himg, cnt_cons, in_image_cnt. cbn [is_img]. destruct (cnt is_img st); reflexivity. }
      rewrite Ec in E2. subst o2. destruct (in_image st); cbn [negb].
      * rewrite app_nil_r. exact HJ.
      * apply alt_close. exact HJ.
    + destruct (Hni eq_refl) as (N1 & N2 & N3). unfold J in HJ. rewrite N3 in HJ. cbn [names] in HJ. rewrite N1, <- app_assoc in HJ.
      destruct (late s st c) eqn:Ela.
      * destruct (Hlate eq_refl) as (-> & G1 & G2). split; [exact N1|]. cbn [close_tag] in H2. rewrite (tight_tt s1 st) in H2 by (rewrite F1, Ht; reflexivity).
        rewrite G1, F3 in H2. apply Nat.ltb_lt in G2. rewrite G2 in H2. injection H2 as <- <-. cbn [cn] in HJ. rewrite G1 in HJ.
        split; [|exact HJ]. cbn in H1. injection H1 as <- <-. reflexivity.
      * unfold J. rewrite N1, app_assoc. apply (close_inr s1 c s2 o2); [exact Eic| |exact H2|].
        -- intros ->. unfold late in Ela. cbn [close_tag] in H2. rewrite (tight_tt s1 st) in H2 by (rewrite F1, Ht; reflexivity). rewrite F3.
           destruct (tt st); [discriminate H2|]. cbn [negb andb] in Ela. apply Nat.ltb_ge in Ela. lia.
        -- assert (Ett : cn (tight_top s1) c = cn (tt st) c).
           { destruct c; try reflexivity. cbn [cn]. rewrite (tight_tt s1 st) by (rewrite F1, Ht; reflexivity). reflexivity. }
           rewrite Ett. apply opens_plain; [exact HJ|exact Ho1].
Qed.

Lemma plain_lit t : forallb plainb t = true -> plains t.
Proof. apply plains_b. Qed.
Lemma anchor_ok n : html_ok (HElem (B "a") [(B "id", B "fnref" ++ dec n); (B "href", B "#fn" ++ dec n); (B "role", B "doc-noteref")]
                        [HElem (B "sup") [] [HText (dec n)]]).
Proof.
  constructor; [split; reflexivity|nv| |].
  - apply aok_cons; [gn|apply nodq_app; [apply plains_dq, plains_b; reflexivity|apply plains_dq, dec_plain]|].
    apply aok_cons; [gn|apply nodq_app; [apply plains_dq, plains_b; reflexivity|apply plains_dq, dec_plain]|].
    apply aok_cons; [gn|apply plains_dq, plains_b; reflexivity|constructor].
  - constructor; [|constructor]. constructor; [split; reflexivity|nv|constructor|]. constructor; [|constructor]. constructor. apply plains_text, dec_plain.
Qed.
Definition simple (e : event) : bool := match e with Start _ _ | End_ _ => false | _ => true end.
Lemma other_ok s e s' o st base x d0 :
  simple e = true -> coupled d0 st s -> okst st -> placed st e -> event_names e -> plains (ind_of s) -> r_ignore s = false ->
  rmain (fun _ => Fuel) s e = Ok (s', o) -> J st base x -> J st base (x ++ o) /\ r_tight s' = r_tight s.
Proof.
  intros Hs HC Hok Hp Hn Hind Hig H HJ. destruct HC as (_ & _ & Himg & Higs & _ & Hraw).
  pose proof (in_image_cnt st) as Ei. rewrite <- Himg in Ei.
  destruct e; try discriminate Hs; cbn [rmain] in H; try (injection H as <- <-; split; [|reflexivity]; first [rewrite app_nil_r; exact HJ|apply J_add; [exact HJ|apply plains_b; reflexivity]]; fail).
  - (* Str *) injection H as <- <-. split; [|reflexivity]. rewrite Hraw, <- Ei.
    assert (Hr : raw_of st <> RawHtml).
    { unfold raw_of, raw_fmt. destruct st as [|c st]; [discriminate|]. destruct Hok as (_ & Hc & _). destruct c; try discriminate; cbn [cont_ok] in Hc;
      (destruct (in_image st); [discriminate|]; destruct (bytes_eqb format (B "html")) eqn:Eb; [apply bytes_eqb_eq in Eb; congruence|discriminate]). }
    assert (Hr2 : in_image st = true -> raw_of st = RawNone).
    { unfold raw_of. destruct st as [|c st]; [reflexivity|]. destruct c; try reflexivity; intros E; (change (in_image st = true) in E; rewrite E; reflexivity). }
    unfold J in *. destruct (in_image st).
    + rewrite (Hr2 eq_refl). apply alt_add; [exact HJ|apply text_dq].
    + destruct (raw_of st); [apply opens_text; [exact HJ|apply text_ok_esc]|congruence|rewrite app_nil_r; exact HJ].
  - (* FootnoteReference *) destruct (foot_reference (r_foot s) label) as [f n]. injection H as <- <-. split; [|reflexivity].
    assert (E0 : Nat.eqb (r_img s) 0 = negb (in_image st)) by (rewrite Ei; destruct (r_img s); reflexivity). rewrite E0. unfold J in *. destruct (in_image st); cbn [negb].
    + rewrite app_nil_r. exact HJ.
    + pose proof (opens_html _ _ _ HJ (anchor_ok (N.of_nat n))) as K. cbn [html_text flat_map] in K. unfold start_tag, end_tag, attr_text in K. cbn [fst snd flat_map] in K.
      rewrite ?app_nil_r, <- ?app_assoc in K. exact K.
  - (* Symbol *) injection H as <- <-. split; [|reflexivity]. apply J_add; [exact HJ|]. constructor; [apply plainb_ok; reflexivity|].
    apply Forall_app. split; [|apply plains_b; reflexivity]. cbn [event_names] in Hn. eapply Forall_impl; [|exact Hn]. intros c [Hc| ->]; [apply name_plain, Hc|apply plainb_ok; reflexivity].
  - (* Softbreak *) injection H as <- <-. split; [|reflexivity]. apply J_add; [exact HJ|]. constructor; [apply plainb_ok; reflexivity|]. eapply gap_plain; [exact Hind|apply gap_indent].
  - (* Hardbreak *) apply bind_ok in H as ([s1 w] & H1 & H). injection H as <- <-. split; [|apply w_block_tight in H1; apply H1]. apply gap_block in H1. apply (gap_plain _ _ Hind) in H1. match goal with |- J _ _ ?y => change y with (x ++ B "<br>" ++ w) end. rewrite app_assoc. apply J_add; [|exact H1].
    unfold J in *. destruct (in_image st); [apply alt_add; [exact HJ|cbn; intros G; repeat (destruct G as [G|G]; [discriminate G|]); exact G]|].
    apply (opens_html _ _ (HVoid (B "br") [] false)); [exact HJ|]. constructor; [cbn; auto|constructor].
  - (* ThematicBreak *) apply bind_ok in H as ([s1 w] & H1 & H). injection H as <- <-. split; [|apply w_block_tight in H1; apply H1]. apply gap_block in H1. apply (gap_plain _ _ Hind) in H1.
    unfold J in *. destruct (in_image st) eqn:Es; [destruct (Hp Es)|].
    destruct (write_pairs (fun _ => []) (unique_pairs a)) as (al & E & Ha); [apply pairs_keys, Hn|intros k []|].
    match goal with |- context [concat ?y ++ _] => replace (concat y) with (flat_map attr_text al) by (symmetry; exact E) end.
    match goal with |- opens _ ?y => change y with (x ++ w ++ html_text (HVoid (B "hr") al false)) end.
    rewrite app_assoc. apply (opens_html _ _ (HVoid (B "hr") al false)); [apply opens_plain; assumption|]. constructor; [cbn; auto|exact Ha].
Qed.
