(** * PInl5: reading attributes ahead *)
From Verif Require Import Base Lex Attr Block Inline Doc SpecLex Lib SpecAttr SpecSrc PAttr PAttr3 PAttr4 PSafe PBlock2 PLex PBlock3 PBlock4 PInl1 PInl2 PInl3 PInl4.
Local Open Scope nat_scope.

Lemma advance_ok src : forall m i, Forall (span_ok src) (i_ahead i) -> m <= length (i_ahead i) ->
  exists i', advance_lines src m i = Ok i' /\ i_ahead i' = skipn m (i_ahead i) /\ i_line i' = nthl (i_line i :: i_ahead i) m /\
    i_complete i' = i_complete i.
Proof.
  induction m as [|m IH]; intros i Hs Hm; cbn [advance_lines].
  - eexists. split; [reflexivity|]. auto.
  - destruct (i_ahead i) as [|l ls] eqn:E; [cbn in Hm; lia|]. inv Hs. unfold set_current_line. rewrite span_ok_bsub by auto. cbn [bind].
    match goal with |- context [advance_lines src m ?I] => destruct (IH I) as (i' & E' & H1' & H2' & H3') end; cbn in *; auto; try lia.
    exists i'. split; [exact E'|]. split; [exact H1'|]. split; [exact H2'|exact H3'].
Qed.
Lemma chain_skip lo x ls P hi m : chain lo (x :: ls ++ P) hi -> m <= length ls -> chain (se (nthl (x :: ls) m)) (skipn m ls ++ P) hi.
Proof.
  revert lo x ls; induction m as [|m IH]; intros lo x ls H Hm.
  - cbn. apply H.
  - destruct ls as [|y ls]; [cbn in Hm; lia|]. cbn [app chain] in H. destruct H as (H1 & H2 & H3). change (nthl (x :: y :: ls) (S m)) with (nthl (y :: ls) m).
    cbn [skipn]. apply (IH (se x)); [exact H3|cbn in Hm; lia].
Qed.
Lemma eolsx_skip src x ls P m : eolsx src (x :: ls ++ P) -> m <= length ls -> eolsx src (nthl (x :: ls) m :: skipn m ls ++ P).
Proof.
  revert x ls; induction m as [|m IH]; intros x ls H Hm; [exact H|]. destruct ls as [|y ls]; [cbn in Hm; lia|].
  change (nthl (x :: y :: ls) (S m)) with (nthl (y :: ls) m). cbn [skipn]. apply IH; [apply H|cbn in Hm; lia].
Qed.
Lemma Forall_skipn {A} (Q : A -> Prop) n l : Forall Q l -> Forall Q (skipn n l).
Proof. revert l; induction n as [|n IH]; intros l H; [exact H|]. destruct l; [constructor|]. inv H. cbn. auto. Qed.
Lemma starts_c_nth s c : starts_c s c = true <-> nth_error s 0 = Some c.
Proof. destruct s as [|d s]; cbn; [split; discriminate|]. split; intros H; [apply beq_eq in H; congruence|]. injection H as ->. apply beq_refl. Qed.
Lemma acc_at_app src LL P q st : acc_at src LL q st -> acc_at src (LL ++ P) q st.
Proof.
  intros [H|(H0 & H1 & H2 & H3 & H4)]; [left; auto|]. right. split; [auto|]. unfold accepted. rewrite app_length.
  unfold nthl in *. rewrite app_nth1 by auto. rewrite text_app by auto. repeat split; auto. lia.
Qed.
Lemma brace_next b : hd_is (fun c => existsb (beq c) after_brace) b = false ->
  exists l', lex_next (lex_new ("{"%char :: b)) = Ok (Some (Tok (LOpen Brace) 1), l').
Proof.
  intros H. assert (Hs : scan false false ("{"%char :: b) = (Some (Tok (LOpen Brace) 1), false)).
  { unfold scan. change (count_while (fun c => negb (is_special c)) ("{"%char :: b)) with 0. cbn [Nat.ltb Nat.leb].
    unfold special_token. change (beq "{" NL) with false. cbn [beq]. cbn -[open_brace]. destruct b as [|c b]; [reflexivity|].
    destruct (open_brace c) as [d|] eqn:E; [|reflexivity]. exfalso. revert H E. cbn [hd_is]. unfold open_brace.
    destruct c as [[][][][][][][][]]; cbn; intros H E; discriminate. }
  unfold lex_next, next_token, lex_new, lex_token. cbn [lx_next lx_verb lx_esc lx_src lx_pos skipn]. rewrite Hs. eauto.
Qed.

Lemma text_lines src e : forall LL m lo hi, Forall (span_ok src) LL -> chain lo LL hi -> eolsx src LL -> m < length LL ->
  ss (nthl LL m) < e -> e <= se (nthl LL m) -> lines_text src (ss (nthl LL 0)) e (text src LL e m).
Proof.
  induction LL as [|x LL IH]; intros m lo hi Hs Hc He Hm H1 H2; [cbn in Hm; lia|]. destruct m as [|m].
  - unfold text. cbn [firstn map concat app]. apply lt_last. lia.
  - inv Hs. destruct Hc as (C1 & C2 & C3). destruct He as (E1 & E2). cbn in Hm.
    change (text src (x :: LL) e (S m)) with ((slice src x ++ concat (map (slice src) (firstn m LL))) ++ slice src (Sp (ss (nthl LL m)) e)).
    rewrite <- app_assoc. change (nthl (x :: LL) 0) with x. change (nthl (x :: LL) (S m)) with (nthl LL m) in *.
    rewrite <- (span_eta x) at 2. pose proof (chain_nth_le lo (x :: LL) hi 0 (S m) (conj C1 (conj C2 C3)) ltac:(lia) ltac:(cbn; lia)) as Hx.
    change (nthl (x :: LL) 0) with x in Hx. change (nthl (x :: LL) (S m)) with (nthl LL m) in Hx.
    assert (Hsm : span_ok src (nthl LL m)) by (rewrite Forall_forall in *; match goal with H : forall y, _ -> span_ok src y |- _ => apply H end; eapply nth_error_In; apply nthl_some; lia).
    assert (Hsm2 : se (nthl LL m) <= length src) by apply Hsm.
    assert (Ho : eol src (se x)).
    { apply (eolsx_nth src (x :: LL) 0 (S m)); [split; auto|lia|cbn; lia|]. change (nthl (x :: LL) (S m)) with (nthl LL m). lia. }
    destruct Ho as [Ho|[Ho1 Ho2]]; [lia|]. eapply lt_line; [lia|exact Ho1|exact Ho2| |].
    2: { eapply IH; eauto. lia. }
    destruct LL as [|y LL]; [cbn in Hm; lia|]. apply C3.
Qed.
Lemma two_sets_at src p : nth_error src p = Some "}"%char -> nth_error src (S p) = Some "{"%char -> two_sets src.
Proof.
  intros H1 H2. apply nth_error_split in H1. destruct H1 as (a & b & -> & <-). exists a.
  rewrite nth_error_app2 in H2 by lia. replace (S (length a) - length a) with 1 in H2 by lia. cbn in H2.
  destruct b as [|c b]; [discriminate H2|]. injection H2 as ->. exists b. reflexivity.
Qed.
Lemma braced_at src q e : q < e -> e <= length src -> nth_error src q = Some "{"%char -> nth_error src (e - 1) = Some "}"%char -> braced (slice src (Sp q e)).
Proof.
  intros H1 H2 H3 H4. assert (e <> S q) by (intros ->; replace (S q - 1) with q in H4 by lia; congruence).
  exists (slice src (Sp (q + 1) (e - 1))). rewrite <- (slice_app src q (q + 1) e) by lia. rewrite Nat.add_1_r at 1. rewrite (slice_snoc src q q "{"%char) by auto.
  rewrite slice_nil. replace (Sp (q + 1) e) with (Sp (q + 1) (S (e - 1))) by (f_equal; lia). rewrite (slice_snoc src (q + 1) (e - 1) "}"%char) by (auto; lia). reflexivity.
Qed.

Lemma resume_ok src P lo hi W s st (eaten first : bool) q : wfb src ->
  pos s = q + (if eaten then 1 else 0) -> LexI src P hi (s_in s) -> s_verb s = None -> s_attr s = None ->
  span_ok src (Sp q (se (i_line (s_in s)))) -> nth_error src q = Some "{"%char -> q < se (i_line (s_in s)) -> ss (i_line (s_in s)) <= q \/ two_sets src ->
  evz src lo s q -> lastok src (s_events s) -> wsum (s_events s) + 4 * (length src - q) <= W ->
  elem_at src (s_cow s) (s_attrs s) (lstart s) lo (s_openers s) (s_events s) q (as_elem st) ->
  (if first then as_end st = q /\ as_lines st = 0 /\ as_val st = AStart
   else exists ah l, i_ahead (s_in s) = ah ++ [l] /\
     let LL := Sp q (se (i_line (s_in s))) :: ah in
     acc_at src LL q st /\ nth_error src (as_end st) = Some "{"%char /\ as_lines st <= length ah /\ answer src LL (length ah) 0 None (as_val st)) ->
  (if eaten then hd_is (fun c => existsb (beq c) after_brace) (lx_rest (i_lex (s_in s))) = false
   else exists l', lex_next (i_lex (s_in s)) = Ok (Some (Tok (LOpen Brace) 1), l')) ->
  exists r, resume_attributes src s st eaten first = Ok r /\
  let (o, s') := r in
  ext s s' /\ length (i_ahead (s_in s')) <= length (i_ahead (s_in s)) /\
  match o with
  | None => s' = s
  | Some FContinue => Rdy src P lo hi W s' /\ q < pos s'
  | Some FMore => exists st', Wat src P lo hi W s' st' false
  | Some _ => False
  end.
Proof.
  intros Hw Hpos HL Hv Ha Hso Hbr Hq Hlow Hz Hlast Hwt Hel Hfirst Htok. unfold resume_attributes.
  fold (pos s). rewrite usub_yes by (destruct eaten; lia). cbn [bind].
  replace (pos s - (if eaten then 1 else 0)) with q by (destruct eaten; lia).
  assert (Hls : se (i_line (s_in s)) <= length src) by apply Hso.
  assert (Hbq : boundary src q = true) by apply Hso.
  rewrite span_ok_ssub by (repeat split; cbn; auto; [lia|apply boundary_end]). cbn [bind].
  replace (starts_c _ "{") with true.
  2: { symmetry. apply starts_c_nth. rewrite slice_nth by (cbn; lia). cbn. rewrite Nat.add_0_r. exact Hbr. }
  cbn [assert bind].
  set (i := s_in s) in *. set (LL := Sp q (se (i_line i)) :: i_ahead i).
  assert (HsL : Forall (span_ok src) LL).
  { constructor; [auto|]. pose proof (li_lines HL) as X. apply Forall_app in X. apply X. }
  assert (HcP : chain q (LL ++ P) hi).
  { cbn. split; [auto|]. split; [apply Hso|]. apply (li_chain HL). }
  assert (HcL : exists h, chain q LL h) by (apply chain_app in HcP; destruct HcP as (h & X & _); eauto). destruct HcL as [h HcL].
  assert (HeP : eolsx src (LL ++ P)) by (pose proof (li_eols HL) as X; exact X).
  assert (HeL : eolsx src LL).
  { revert HeP. generalize LL. clear. induction LL as [|x l IH]; cbn; [auto|]. intros [H1 H2]. split; [|auto]. destruct H1 as [|H1]; [auto|right].
    apply Forall_app in H1. apply H1. }
  assert (Hinit : exists m ls, (if first then Ok (0, q, se (i_line i))
     else let! last := usub (length (i_ahead i)) 1 "inline.rs:459" in
          let! l := get_at (i_ahead i) last "inline.rs:461" in
          Ok (length (i_ahead i), ss l, se l)) = Ok (m, ls, se (nthl LL m)) /\ m < length LL /\ ls = ss (nthl LL m) /\
      as_lines st <= m /\ acc_at src LL q st /\ live (as_val st) /\ sim (as_val st) (drun (text src LL ls m) AStart)).
  { destruct first.
    - destruct Hfirst as (E1 & E2 & E3). exists 0, q. split; [reflexivity|]. split; [cbn; lia|]. split; [reflexivity|]. split; [lia|].
      split; [left; auto|]. rewrite E3. split; [lv|]. left. unfold text, LL, nthl. cbn [firstn map concat nth ss app]. rewrite slice_nil. reflexivity.
    - destruct Hfirst as (ah & l & E & Hacc & Hob & Hln & Hans). rewrite E, app_length. cbn [length].
      rewrite usub_yes by lia. cbn [bind]. rewrite get_mid by lia. cbn [bind].
      assert (EL : LL = (Sp q (se (i_line i)) :: ah) ++ [l]) by (unfold LL; rewrite E; reflexivity).
      assert (En : nthl LL (length ah + 1) = l).
      { apply nthl_error. rewrite EL. rewrite nth_error_app2 by (cbn; lia). cbn [length]. replace (length ah + 1 - S (length ah)) with 0 by lia. reflexivity. }
      exists (length ah + 1), (ss l). rewrite En. split; [reflexivity|]. split; [rewrite EL, app_length; cbn; lia|].
      assert (span_ok src l) by (rewrite Forall_forall in HsL; apply HsL; rewrite EL; apply in_or_app; right; left; auto).
      split; [reflexivity|]. split; [lia|]. rewrite EL. split; [apply acc_at_app; exact Hacc|].
      cbn [answer] in Hans. destruct Hans as [Hl1 Hl2]. split; [exact Hl1|].
      rewrite <- EL. replace (length ah + 1) with (S (length ah)) by lia.
      rewrite <- En. replace (length ah + 1) with (S (length ah)) by lia.
      rewrite text_next by (rewrite EL, app_length; cbn; lia). rewrite EL. unfold nthl. rewrite app_nth1 by (cbn; lia). rewrite text_app by (cbn; lia). exact Hl2. }
  destruct Hinit as (m & ls & -> & Hm & -> & Hlm & Hacc & Hlv & Hsim). cbn [bind].
  assert (Hsm : span_ok src (nthl LL m)) by (rewrite Forall_forall in HsL; apply HsL; eapply nth_error_In; apply nthl_some; auto).
  rewrite span_eta. rewrite span_ok_ssub by auto. cbn [bind].
  assert (Hsm1 : ss (nthl LL m) <= se (nthl LL m)) by apply Hsm. assert (Hsm2 : se (nthl LL m) <= length src) by apply Hsm.
  destruct (validator_answer src LL m (ss (nthl LL m)) (as_val st) HsL Hm ltac:(lia) ltac:(lia) Hlv Hsim) as (r0 & v & Ev & Hans).
  rewrite span_eta in Ev. rewrite Ev. cbn [bind].
  destruct (attr_scan_ok src q h (i_ahead i) (i_complete i) (Sp q (se (i_line i))) Hw HsL HcL (attr_fuel src (i_ahead i)) r0 m (ss (nthl LL m))
     (AS (as_elem st) (as_end st) (as_lines st) v)) as (out & Eo & Hout); auto; try lia.
  { unfold attr_fuel. lia. }
  { cbn [as_end]. destruct first; [|destruct Hfirst as (? & ? & _ & _ & Hob & _); exact Hob]. destruct Hfirst as (-> & _). exact Hbr. }
  fold LL in Eo, Hout. rewrite Eo. cbn [bind]. destruct out as [[[m' le'] st']|st'].
  - destruct Hout as (O1 & O2 & O3 & -> & O5 & Olin). cbn [as_elem] in O5. cbn [ss] in O1. destruct (Nat.eqb_spec q (as_end st')) as [Eq|Ne].
    + eexists. split; [reflexivity|]. cbn. split; [apply ext_refl|]. auto.
    + destruct O1 as [[O1 _]|[O1 O6]]; [congruence|].
      destruct (attr_lines_ok src q LL h (as_end st') (as_lines st') Hw HsL HcL HeL O6) as (a & Ea & Hg).
      change (Sp q (se (i_line i)) :: firstn (as_lines st') (i_ahead i)) with (firstn (S (as_lines st')) LL). rewrite Ea. cbn [bind].
      assert (Hm' : m' <= length (i_ahead i)) by (unfold LL in O3; cbn in O3; lia).
      destruct (advance_ok src m' i) as (i' & Ei & I1 & I2 & I3); auto. { inv HsL. auto. }
      rewrite Ei. cbn [bind].
      assert (HsLm : span_ok src (nthl LL m')) by (rewrite Forall_forall in HsL; apply HsL; eapply nth_error_In; apply nthl_some; auto).
      assert (Hse : se (nthl (i_line i :: i_ahead i) m') = se (nthl LL m')) by (unfold LL; destruct m'; reflexivity).
      assert (Hend : as_end st' <= se (nthl LL m')).
      { destruct O6 as (O6 & O7 & O8 & _). destruct (Nat.eq_dec (as_lines st') m') as [E|E]; [rewrite <- E; auto|].
        pose proof (chain_nth_le _ _ _ (as_lines st') m' HcL ltac:(lia) O3). destruct HsLm as (X & _). lia. }
      pose proof (accepted_boundary _ _ _ _ Hw O6 HsL) as Hbe.
      assert (Hsl : span_ok src (Sp (as_end st') (se (nthl LL m')))) by (destruct HsLm as (X1 & X2 & X3 & X4); repeat split; cbn; auto).
      rewrite span_ok_bsub by auto. cbn [bind].
      assert (Hqe : span_ok src (Sp q (as_end st'))) by (destruct Hsl as (X1 & X2 & X3 & X4); cbn in *; repeat split; cbn; auto; lia).
      match goal with |- context [place_attrs src ?S a (as_elem st')] => set (s1 := S) end.
      assert (Hline : lstart s1 = lstart s \/ lstart s1 = 0 \/ exists e, q <= e /\ e <= lstart s1 /\ 0 < e /\ nth_error src (e - 1) = Some NL).
      { unfold lstart. change (i_line (s_in s1)) with (i_line i'). rewrite I2. destruct m' as [|m0]; [left; reflexivity|right].
        destruct (sp_empty (nthl (i_line i :: i_ahead i) (S m0))) eqn:Eem; [left; reflexivity|right].
        change (nthl (i_line i :: i_ahead i) (S m0)) with (nthl LL (S m0)) in *. unfold sp_empty in Eem. apply negb_false_iff, Nat.ltb_lt in Eem.
        exists (se (nthl LL 0)). pose proof (chain_nth_le _ _ _ 0 (S m0) HcL ltac:(lia) O3) as Hx.
        destruct HsLm as (Y1 & Y2 & _).
        assert (Ho : eol src (se (nthl LL 0))) by (apply (eolsx_nth src LL 0 (S m0)); auto; lia).
        destruct Ho as [Ho|[Ho1 Ho2]]; [lia|]. change (se (nthl LL 0)) with (se (i_line i)) in *. repeat split; auto; lia. }
      destruct (place_attrs_ok src lo s1 a (as_elem st') q (as_end st') Hw) as (evs & al' & Ep & Z1 & Z2 & Z3); auto.
      { exact (zip_line _ _ _ _ _ _ _ _ _ Hz Hline). }
      { split; [apply Hqe|]. split; [apply Hqe|]. exists (text src LL (as_end st') (as_lines st')). split; [exact Hg|]. destruct O6 as (O6 & O7 & O8 & _). exact (text_lines src (as_end st') LL (as_lines st') q h HsL HcL HeL O6 O7 O8). }
      { apply braced_at; auto; [apply Hqe|eapply accepted_last; eauto]. }
      { rewrite O5. exact (elem_line _ _ _ _ _ _ _ _ _ _ Hel Hline). }
      rewrite Ep. cbn [bind]. eexists. split; [reflexivity|]. cbn beta iota.
      split; [split; [exists []; rewrite app_nil_r; reflexivity|exists al'; reflexivity]|].
      split; [cbn; rewrite I1, skipn_length; lia|]. split; [|cbn; auto].
      constructor; cbn; auto.
      * constructor; cbn [in_set_lex in_set_span i_lex i_span i_line i_ahead i_complete se]; rewrite ?I1, ?I2, ?I3, ?Hse; auto using lex_wf_new.
        -- pose proof (li_lines HL) as X. apply Forall_app in X. destruct X as [X1 X2]. apply Forall_app. split; [apply Forall_skipn; auto|auto].
        -- change (LL ++ P) with (Sp q (se (i_line i)) :: i_ahead i ++ P) in HcP. exact (chain_skip q _ _ P hi m' HcP Hm').
        -- apply eolsx_skip; [apply (li_eols HL)|auto].
        -- apply (li_compl HL).
        -- destruct Olin as [<-|Olin].
           ++ destruct O6 as (O6 & O7 & O8 & _). destruct (as_lines st') as [|k] eqn:El; [|left; exact (Nat.lt_le_incl _ _ O7)].
              destruct Hlow as [X|X]; [left|right; exact X]. cbn [nthl nth]. clear - X O1. lia.
           ++ right. apply two_sets_at with (as_end st' - 1); [eapply accepted_last; eauto|]. replace (S (as_end st' - 1)) with (as_end st') by lia. exact Olin.
      * change (s_events s1) with (s_events s) in Z3. destruct Hsl as (Y1 & Y2 & _). destruct Hqe as (Y3 & _). cbn in Y1, Y2, Y3. lia.
  - destruct Hout as (O0 & O1 & O2 & O3 & O4 & O7). cbn [ss] in O1. cbn [as_elem] in O3.
    assert (HP : P <> []) by (pose proof (li_compl HL) as X; fold i in X; rewrite O0 in X; destruct P; [discriminate|discriminate]).
    destruct eaten.
    + rewrite span_ok_bsub by auto. cbn [bind]. eexists. split; [reflexivity|]. cbn beta iota.
      split; [split; exists []; rewrite app_nil_r; reflexivity|]. split; [cbn; auto|]. exists st'.
      assert (Hr : slice src (Sp q (se (i_line i))) = "{"%char :: lx_rest (i_lex i)).
      { rewrite (li_rest HL). fold i. change (se (i_span i)) with (pos s). rewrite Hpos. rewrite <- (slice_app src q (q + 1) (se (i_line i))) by lia.
        rewrite Nat.add_1_r, (slice_snoc src q q "{"%char) by auto. rewrite slice_nil. reflexivity. }
      apply mkWat; [| exact Hv | reflexivity | exact Hz | exact Hlast | exact Hwt | | | intros _; exact HP |].
      * destruct HL as [L1 L2 L3 L4 L5 L6 L7 L8]. constructor; cbn [s_set_lex s_set_span s_set_attr s_set_in s_in in_set_span in_set_lex i_span i_lex i_line i_ahead i_complete ss se]; auto using lex_wf_new.
      * destruct (brace_next _ Htok) as (l' & El). rewrite <- Hr in El. exists l'. exact El.
      * rewrite O3. exact Hel.
      * exists (i_ahead i), (Sp 0 0). split; [reflexivity|]. split; [exact O1|]. split; [exact O7|]. split; [exact O2|exact O4].
    + rewrite Nat.add_0_r in Hpos. eexists. split; [reflexivity|]. cbn beta iota. split; [split; exists []; rewrite app_nil_r; reflexivity|]. split; [cbn; auto|]. exists st'.
      unfold evz in Hz. apply mkWat; [exact HL | exact Hv | reflexivity | | exact Hlast | | exact Htok | | intros _; exact HP |];
        change (pos (s_set_attr s (Some st'))) with (pos s); rewrite Hpos; auto.
      * rewrite O3. exact Hel.
      * exists (i_ahead i), (Sp 0 0). split; [reflexivity|]. split; [exact O1|]. split; [exact O7|]. split; [exact O2|exact O4].
Qed.
