(** * PCov7: verbatim text and attribute sets *)
From Verif Require Import Base Lex Attr Block Inline Doc SpecLex Lib SpecAttr SpecSrc PAttr PAttr3 PAttr4 PSafe PBlock2 PLex PBlock3 PBlock4 PInl1 PInl2 PInl3 PInl4 PInl5 PInl6 PInl7 PropsPunct PInl8 PInl9 PInl10 PMark SpecBlock SpecCover PCov5 PCov6.
From Verif Require PCov1 PTable.
Local Open Scope nat_scope.

(** Inside verbatim text, the events after the last one that was not white space are white space. *)
Definition vws (src : bytes) (s : istate) : Prop :=
  forall v k skip, s_verb s = Some v -> vs_last v = Some (k, skip) ->
  skip <= length (s_events s) /\ forall e j, List.In e (skipn skip (s_events s)) -> inn j (isp e) -> white src j.
Lemma vws_none src s : s_verb s = None -> vws src s.
Proof. intros H v k skip E. congruence. Qed.
Lemma ws_white src sp j : forallb is_ws (slice src sp) = true -> se sp <= length src -> inn j sp -> white src j.
Proof.
  intros H Hl [H1 H2]. destruct (nth_error src j) as [c|] eqn:E; [|apply nth_error_None in E; lia]. exists c. split; [exact E|].
  rewrite forallb_forall in H. apply H. apply (nth_error_In _ (j - ss sp)). rewrite slice_nth by lia. replace (ss sp + (j - ss sp)) with j by lia. exact E.
Qed.

Lemma place_verb src s a ty s' : place_attrs src s a ty = Ok s' -> s_verb s' = s_verb s.
Proof.
  unfold place_attrs. intros H. destruct a; destruct ty.
  - apply bind_ok in H. destruct H as (l & _ & H). apply bind_ok in H. destruct H as (e & _ & H). apply PTable.okp1 in H. subst. reflexivity.
  - apply PTable.okp1 in H. subst. reflexivity.
  - apply bind_ok in H. destruct H as (e & _ & H). apply bind_ok in H. destruct H as (l & _ & H). apply bind_ok in H. destruct H as (e1 & _ & H).
    apply bind_ok in H. destruct H as ([e2 l2] & _ & H). apply bind_ok in H. destruct H as (e3 & _ & H). apply PTable.okp1 in H. subst. reflexivity.
  - apply PTable.okp1 in H. subst. reflexivity.
Qed.
Lemma resume_verb src s st eaten first o s' : resume_attributes src s st eaten first = Ok (o, s') -> s_verb s' = s_verb s.
Proof.
  unfold resume_attributes. intros H. apply bind_ok in H. destruct H as (q & _ & H). apply bind_ok in H. destruct H as (r & _ & H). apply bind_ok in H. destruct H as (u & _ & H).
  apply bind_ok in H. destruct H as ([[ln ls] le] & _ & H). apply bind_ok in H. destruct H as (b & _ & H). apply bind_ok in H. destruct H as ([r0 v] & _ & H).
  apply bind_ok in H. destruct H as (out & _ & H). destruct out as [[[ln' le'] st']|st'].
  - destruct (Nat.eqb _ _); [destruct (okp _ _ _ _ H) as [_ ->]; reflexivity|].
    apply bind_ok in H. destruct H as (a & _ & H). apply bind_ok in H. destruct H as (i' & _ & H). apply bind_ok in H. destruct H as (b' & _ & H).
    apply bind_ok in H. destruct H as (s2 & E & H). destruct (okp _ _ _ _ H) as [_ ->]. apply place_verb in E. exact E.
  - destruct eaten; [apply bind_ok in H; destruct H as (b' & _ & H)|]; destruct (okp _ _ _ _ H) as [_ ->]; reflexivity.
Qed.
Lemma ahead_verb src s ty e o s' : ahead_attributes src s ty e = Ok (o, s') -> s_verb s' = s_verb s.
Proof. unfold ahead_attributes. intros H. apply bind_ok in H. destruct H as (q & _ & H). apply resume_verb in H. exact H. Qed.
Lemma peek_ahead_verb src s ty o s' :
  (let (t, s) := s_peek s in if peek_is_open t Brace then or_continue (ahead_attributes src s ty false) else Ok (Some FContinue, s)) = Ok (o, s') -> s_verb s' = s_verb s.
Proof.
  unfold s_peek. destruct (in_peek (s_in s)) as [t i1]. intros H. destruct (peek_is_open t Brace).
  - unfold or_continue in H. apply bind_ok in H. destruct H as ([o1 s1] & E & H). apply ahead_verb in E. destruct (okp _ _ _ _ H) as [_ ->]. exact E.
  - destruct (okp _ _ _ _ H) as [_ ->]. reflexivity.
Qed.

(** ** Verbatim text opens *)
Lemma verb_open_cov src P lo hi W q first s o s' i : Mid src P lo hi W q first s -> parse_verbatim src s first = Ok (o, s') -> accm s i ->
  match o with None => s' = s | Some _ => acc s' i /\ vws src s' end.
Proof.
  intros HM H Ha. pose proof HM as [M1 M2 M3 M4 M5 M6 M7 M8 M9 Mlow Mbrk M10]. unfold parse_verbatim in H. rewrite M2 in H.
  assert (Hnone : Ok (None, s) = Ok (o, s') -> match o with None => s' = s | Some _ => acc s' i /\ vws src s' end) by (intros E; destruct (okp _ _ _ _ E) as [-> ->]; reflexivity).
  destruct (tk first) as [| | | | |d|d|y|[| |]] eqn:Ek; try (apply Hnone; exact H). destruct (Nat.ltb (tlen first) 256); [|apply Hnone; exact H].
  destruct (verb_type_ok src s M6) as (ty & d & E & Hty & Hd). { eapply bal_spans, zip_bal, M5. }
  rewrite E in H. cbn [bind] in H. destruct (okp _ _ _ _ H) as [-> ->]. clear H. split.
  2: { intros v k skip E1 E2. cbn in E1. injection E1 as <-. discriminate E2. }
  pose proof (Mid_span _ _ _ _ _ _ _ _ HM) as Esp. unfold accm in Ha. rewrite M4 in Ha.
  destruct Hd as [[-> ->]|(E0 & a & b & Ev & Eb & Hda & Hbl & Hdol & Hdol1 & Hdd)].
  - eapply acq_up; [exact Ha|reflexivity|reflexivity| |].
    + intros j Hj. cbn [s_events push push_sp s_set_events s_set_attr s_set_verb s_set_lex s_set_in]. rewrite !ecov_app. auto.
    + intros H1 H2. cbn [s_events push push_sp s_set_events s_set_attr s_set_verb s_set_lex s_set_in]. rewrite !ecov_app. right. apply ecov_cons. left. split; [reflexivity|].
      unfold s_span, pos in *. cbn in *. rewrite Esp. split; cbn [ss se]; [exact H1|exact H2].
  - destruct d as [|d]; [exfalso; clear - Hdd; destruct Hdd as [[X _]|[X _]]; discriminate X|]. rewrite Ev, last_opt_app, butlast_app. cbn [isp ik ss se].
    rewrite M4 in Eb. subst b. destruct Ha as [Ha|[Ha|Ha]].
    + left. exact Ha.
    + destruct (Nat.lt_ge_cases i (pos s)) as [Hlt|Hge]; [|right; left; split; [exact Hge|apply Ha]]. right. right. cbn [s_events push push_sp s_set_events s_set_attr s_set_verb s_set_lex s_set_in].
      rewrite !ecov_app. right. apply ecov_cons. left. split; [reflexivity|]. split; cbn; [lia|exact Hlt].
    + rewrite Ev in Ha. apply ecov_app in Ha. right. right. cbn [s_events push push_sp s_set_events s_set_attr s_set_verb s_set_lex s_set_in s_set_span]. rewrite !ecov_app.
      destruct Ha as [Ha|Ha]; [auto|]. apply ecov_cons in Ha. destruct Ha as [[_ [Ha1 Ha2]]|Ha]; [|destruct (ecov_nil _ Ha)]. cbn [isp ss se] in Ha1, Ha2.
      destruct (Nat.lt_ge_cases i (q - S d)) as [Hlt|Hge].
      * left. left. right. apply ecov_cons. left. split; [reflexivity|]. split; cbn [isp ss se]; auto.
      * right. apply ecov_cons. left. split; [reflexivity|]. split; cbn; [lia|]. change (i < pos s). lia.
Qed.

(** ** A token inside verbatim text *)
Lemma verb_in_cov src P lo hi W q first s v o s' i : wfb src -> VMid src P lo hi W q s v -> vws src s -> parse_verbatim src s first = Ok (o, s') ->
  o <> None /\ (accm s i -> passed src i \/ acc s' i) /\ vws src s'.
Proof.
  intros Hw HV Hvw H. pose proof HV as [V1 V2 V3 (A & a & ph & ty & sp & Z & Ev & I1 & I2 & I3 & I4 & I5 & I6 & I7 & Iop & I8 & I9 & I10) V5 V6 V7 V8].
  unfold parse_verbatim in H. rewrite V2 in H. destruct (Nat.eqb (vs_len v) (tlen first) && _)%bool eqn:Ec.
  - apply bind_ok in H. destruct H as ([rf i'] & Er & H). destruct (raw_same _ _ _ Er) as (R1 & R2 & R3).
    destruct (raw_format_ok src P hi _ Hw V1) as (rf1 & i1' & Er1 & Hsame & Hss & Hrf). rewrite Er in Er1. destruct (okp _ _ _ _ Er1) as [-> ->]. clear Er1.
    apply bind_ok in H. destruct H as (s1 & E1 & H).
    assert (Hs1 : exists ty' i2, s1 = s_set_events (s_set_in s i2) (A ++ IE IPlaceholder (Sp ph ph) :: IE (IEnter ty') sp :: Z) /\ i_ahead i2 = i_ahead (s_in s) /\ i_line i2 = i_line (s_in s) /\ ss (i_span i2) = q /\
       q <= se (i_span i2) /\ LexI src P hi i2).
    { assert (Hq1 : ss (i_span (s_in s)) = q) by (change (ss (s_span s) = q); rewrite V6; reflexivity). assert (Hq0 : se (i_span (s_in s)) = pos s) by reflexivity.
      destruct rf as [sp0|].
      - destruct Hrf as (X1 & X2 & X3 & X4 & X5). apply bind_ok in E1. destruct E1 as (f & _ & E1). change (s_events (s_set_in s i')) with (s_events s) in E1. rewrite Ev in E1.
        change (A ++ IE IPlaceholder (Sp ph ph) :: IE (IEnter ty) sp :: Z) with (A ++ [IE IPlaceholder (Sp ph ph)] ++ IE (IEnter ty) sp :: Z) in E1.
        rewrite app_assoc, set_kind_mid in E1 by (rewrite app_length; cbn; lia). cbn [bind] in E1. apply PTable.okp1 in E1. subst s1. rewrite <- app_assoc.
        exists (CRawFormat f), (in_set_span i' (Sp (ss (i_span i')) (se sp0 + 1))). split; [reflexivity|]. split; [exact R1|]. split; [exact R2|]. cbn [in_set_span i_span ss se].
        split; [rewrite R3; exact Hq1|]. split; [destruct X3 as (X & _); rewrite Hq0 in X2; cbn in X; lia|]. exact X1.
      - destruct Hrf as [X1 X2]. apply PTable.okp1 in E1. subst s1. exists ty, i'. split; [rewrite <- Ev; destruct s; reflexivity|]. split; [exact R1|]. split; [exact R2|]. rewrite R3. split; [exact Hq1|]. split; [rewrite X2, Hq0; lia|exact X1]. }
    destruct Hs1 as (ty' & i2 & -> & K1 & K2 & K3 & K4 & K5). clear E1.
    assert (Eas : forall X, A ++ IE IPlaceholder (Sp ph ph) :: IE (IEnter ty') sp :: X = (A ++ [IE IPlaceholder (Sp ph ph)]) ++ IE (IEnter ty') sp :: X)
      by (intros; rewrite <- app_assoc; reflexivity).
    rewrite (Eas Z) in H at 1. cbn [s_events s_set_events] in H. rewrite get_mid in H by (rewrite app_length; cbn; lia). cbn [bind ik] in H.
    apply bind_ok in H. destruct H as (u & _ & H). apply bind_ok in H. destruct H as (s2 & E2 & H).
    assert (Hs2 : exists n, s2 = s_set_events (s_set_in s i2) (A ++ IE IPlaceholder (Sp ph ph) :: IE (IEnter ty') sp :: firstn n Z) /\ (forall e j, List.In e (skipn n Z) -> inn j (isp e) -> white src j)).
    { assert (Hid : Ok (s_set_events (s_set_in s i2) (A ++ IE IPlaceholder (Sp ph ph) :: IE (IEnter ty') sp :: Z)) = Ok s2 -> exists n, s2 = s_set_events (s_set_in s i2) (A ++ IE IPlaceholder (Sp ph ph) :: IE (IEnter ty') sp :: firstn n Z) /\ (forall e j, List.In e (skipn n Z) -> inn j (isp e) -> white src j)).
      { intros X. apply PTable.okp1 in X. subst s2. exists (length Z). rewrite firstn_all, skipn_all. split; [reflexivity|]. intros ? ? []. }
      destruct (vs_last v) as [[k skip]|] eqn:El; [|auto]. destruct k as [| | | | |d|d|y|[| |]]; auto.
      destruct (Hvw _ _ _ V2 El) as [Hsk Hww]. rewrite Ev in Hww.
      specialize (I10 _ _ eq_refl). apply bind_ok in E2. destruct E2 as (u2 & _ & E2). apply PTable.okp1 in E2. subst s2. exists (skip - (length A + 2)). split.
      - cbn [s_events s_set_events]. change (s_set_events (s_set_events ?x ?y) ?z) with (s_set_events x z). apply f_equal. rewrite firstn_app, (@firstn_all2 _ skip A) by lia. apply f_equal.
        replace (skip - length A) with (S (S (skip - (length A + 2)))) by lia. reflexivity.
      - intros e j He. apply Hww. rewrite skipn_app. apply in_or_app. right. replace (skip - length A) with (S (S (skip - (length A + 2)))) by lia. exact He. }
    destruct Hs2 as (n & -> & Hn). clear E2.
    set (s3 := s_set_verb _ None) in H.
    assert (Ev3 : s_events s3 = A ++ IE IPlaceholder (Sp ph ph) :: IE (IEnter ty') sp :: firstn n Z ++ [IE (IExit ty') (i_span i2)]).
    { unfold s3. cbn [s_set_verb s_set_lex s_set_in s_events push push_sp s_set_events]. rewrite <- app_assoc. reflexivity. }
    assert (Ha3 : accm s i -> passed src i \/ acc s3 i).
    { intros Ha. unfold accm in Ha. assert (Hq1 : ss (s_span s) = q) by (rewrite V6; reflexivity). rewrite Hq1 in Ha. destruct Ha as [Ha|[Ha|Ha]].
      - right. left. change (inl i (i_ahead i2)). rewrite K1. exact Ha.
      - right. right. destruct (Nat.lt_ge_cases i (pos s3)) as [Hlt|Hge]; [right|left; split; [exact Hge|change (i < se (i_line i2)); rewrite K2; apply Ha]].
        rewrite Ev3. rewrite ecov_app, !ecov_cons, ecov_app, ecov_cons. right. right. right. right. left. split; [reflexivity|]. split; cbn [isp]; [rewrite K3; apply Ha|exact Hlt].
      - rewrite Ev in Ha. rewrite ecov_app, !ecov_cons in Ha. rewrite <- (firstn_skipn n Z), ecov_app in Ha.
        assert (Hx : ecov (skipn n Z) i -> passed src i) by (intros (e & X1 & X2 & X3); left; left; eapply Hn; eauto).
        assert (Hy : ecov A i \/ (cnt IPlaceholder = true /\ inn i (Sp ph ph)) \/ (cnt (IEnter ty') = true /\ inn i sp) \/ ecov (firstn n Z) i -> acc s3 i).
        { intros Y. right. right. rewrite Ev3. rewrite ecov_app, !ecov_cons, ecov_app. cbn [ik isp]. tauto. }
        cbn [ik isp] in Ha. assert (cnt (IEnter ty) = cnt (IEnter ty')) by reflexivity. tauto. }
    assert (Hvn : s_verb s3 = None) by reflexivity.
    destruct rf as [sp0|].
    + destruct (okp _ _ _ _ H) as [-> ->]. split; [discriminate|]. split; [exact Ha3|apply vws_none; exact Hvn].
    + assert (Hq : vs_opener v = S (length A)) by auto.
      assert (H3 : (let (t, s) := s_peek s3 in if peek_is_open t Brace then or_continue (ahead_attributes src s (ElemContainer (length A)) false) else Ok (Some FContinue, s)) = Ok (o, s')).
      { destruct (s_peek s3) as [t s4]. rewrite Hq in H. destruct (peek_is_open t Brace); [|exact H]. rewrite usub_yes in H by lia. cbn [bind] in H. replace (S (length A) - 1) with (length A) in H by lia. exact H. }
      split; [|split].
      * destruct (s_peek s3) as [t s4]. destruct (peek_is_open t Brace); [|destruct (okp _ _ _ _ H3); congruence]. unfold or_continue in H3. apply bind_ok in H3. destruct H3 as ([[f|] s5] & _ & H3); destruct (okp _ _ _ _ H3); congruence.
      * intros Ha. destruct (Ha3 Ha) as [Ha4|Ha4]; [auto|]. eapply ahead_cov; [exact Hw| | |exact H3|exact Ha4].
        { apply LexI_verb. exact K5. }
        exists A, ph, (IEnter ty'), sp, (firstn n Z), (IExit ty'), (i_span i2). split; [exact Ev3|]. split; [reflexivity|]. split; [exact I6|]. split; [rewrite K3; exact K4|]. split; [reflexivity|]. right. eauto.
      * apply vws_none. rewrite (peek_ahead_verb _ _ _ _ _ H3). exact Hvn.
  - rewrite (span_ok_bsub src (s_span s)) in H by (rewrite V6; exact V8). cbn [bind] in H.
    assert (Hsl : se (s_span s) <= length src) by (rewrite V6; apply V8).
    assert (Hgrow : forall s1, s_events s1 = s_events s -> s_verb s1 = s_verb s -> s_span s1 = s_span s -> forallb is_ws (slice src (s_span s)) = true -> vws src (push s1 IStr)).
    { intros s1 X1 X2 X3 X4 v' k skip Y1 Y2. unfold push, push_sp in *. cbn [s_verb s_events s_set_events] in *. rewrite X2 in Y1. destruct (Hvw v' k skip Y1 Y2) as [Z1 Z2]. rewrite X1, X3, app_length. split; [lia|].
      intros e j He Hj. rewrite skipn_app in He. apply in_app_or in He. destruct He as [He|He]; [eauto|]. replace (skip - length (s_events s)) with 0 in He by lia. destruct He as [<-|[]]. eapply ws_white; [exact X4|exact Hsl|exact Hj]. }
    destruct (forallb is_ws (slice src (s_span s))) eqn:Ew.
    + destruct (vs_nonws v) eqn:En.
      * cbn [negb andb] in H. destruct (okp _ _ _ _ H) as [-> ->]. split; [discriminate|]. split; [intros Ha; right; apply acc_push; auto|]. apply Hgrow; auto.
      * cbn [negb andb] in H. destruct (s_peek s) as [t s1] eqn:Ep. destruct (s_peek_same _ _ _ Ep) as (i1 & -> & P1 & P2 & P3).
        assert (Hax : accm s i -> accm (s_set_in s i1) i) by (intros Ha; eapply accm_in; [exact Ha|exact P1|exact P2|unfold s_span; cbn; rewrite P3; reflexivity|reflexivity]).
        destruct (match t with Some _ => _ | None => false end); destruct (okp _ _ _ _ H) as [-> ->]; (split; [discriminate|]).
        -- split; [|intros v' k skip; apply (Hvw v' k skip)]. intros Ha. pose proof (Hax Ha) as Ha1. destruct (Nat.lt_ge_cases i (pos s)) as [Hlt|Hge].
           ++ unfold accm in Ha1. destruct Ha1 as [Ha1|[[Ha1 Ha2]|Ha1]]; [right; left; exact Ha1| |right; right; right; exact Ha1].
              left. left. left. eapply ws_white; [exact Ew|exact Hsl|]. split; [|exact Hlt]. unfold s_span in *. cbn in Ha1. rewrite P3 in Ha1. exact Ha1.
           ++ right. unfold acc. unfold accm, acq in *. assert (Hp : pos (s_set_in s i1) = pos s) by (unfold pos, s_span; cbn; rewrite P3; reflexivity). rewrite Hp. tauto.
        -- split; [intros Ha; right; apply acc_push; auto|]. apply Hgrow; auto.
    + destruct (okp _ _ _ _ H) as [-> ->]. split; [discriminate|]. split; [intros Ha; right; apply acc_push; [reflexivity|]; exact Ha|].
      intros v' k skip Y1 Y2. cbn in Y1. injection Y1 as <-. cbn [vs_last] in Y2. injection Y2 as <- <-. unfold push, push_sp. cbn [s_events s_set_events s_set_verb]. rewrite app_length. cbn [length]. split; [lia|].
      intros e j He. rewrite skipn_all2 in He by (rewrite app_length; cbn; lia). destruct He.
Qed.

(** ** Attribute sets *)
Lemma attrs_cov src P lo hi W q first s o s' i : wfb src -> Mid src P lo hi W q first s -> parse_attributes src s first = Ok (o, s') -> accm s i ->
  match o with None => s' = s | Some _ => (passed src i \/ acc s' i) /\ s_verb s' = None end.
Proof.
  intros Hw HM H Ha. pose proof HM as [M1 M2 M3 M4 M5 M6 M7 M8 M9 Mlow Mbrk M10]. unfold parse_attributes in H. rewrite M3 in H.
  assert (Hnone : Ok (None, s) = Ok (o, s') -> match o with None => s' = s | Some _ => (passed src i \/ acc s' i) /\ s_verb s' = None end) by (intros E; destruct (okp _ _ _ _ E) as [-> ->]; reflexivity).
  destruct (tk first) as [| | | | |d|d|y|sq] eqn:Ek; try (cbn [is_none assert bind] in H; apply Hnone; exact H). destruct d; try (cbn [is_none assert bind] in H; apply Hnone; exact H).
  destruct (Mid_one _ _ _ _ _ _ _ _ "{"%char HM) as (E1 & E2 & E3); [congruence|rewrite Ek; intros ? ? []; auto|].
  assert (Hv : s_verb s' = None) by (rewrite <- M2; eapply ahead_verb; exact H).
  unfold ahead_attributes in H. change (se (s_span s)) with (pos s) in H. rewrite usub_yes in H by lia. cbn [bind] in H.
  assert (Hls : span_ok src (Sp q (se (i_line (s_in s))))) by (eapply span_join; [exact M9|apply (li_span M1)]).
  assert (R : match o with None => s' = s | Some _ => forall i, acq q s i -> passed src i \/ acc s' i end).
  { eapply (resume_cov src P hi s (AS ElemWord (pos s - 1) 0 AStart) true true q o s' Hw); auto.
    - pose proof (li_span M1) as (X & _). cbn in X. change (se (i_span (s_in s))) with (pos s) in X. lia.
    - cbn. auto.
    - cbn. split; [lia|auto]. }
  destruct o; [|exact R]. split; [|exact Hv]. apply R. unfold accm in Ha. rewrite M4 in Ha. exact Ha.
Qed.
Lemma attrs_resume_cov src P lo hi W s0 s st q first o s' i : wfb src -> Wat src P lo hi W s0 st true -> s_span s = Sp q (q + 1) -> tk first = LOpen Brace ->
  q = pos s0 -> same_in (s_in s0) (s_in s) -> LexI src P hi (s_in s) -> s_verb s = None -> s_attr s = Some st -> s_events s = s_events s0 ->
  nth_error src q = Some "{"%char -> span_ok src (Sp q (q + 1)) ->
  parse_attributes src s first = Ok (o, s') -> accm s i ->
  match o with None => s' = s_set_attr s None | Some _ => (passed src i \/ acc s' i) /\ s_verb s' = None end.
Proof.
  intros Hw HW Esp Ek Eq (Q1 & Q2 & Q3) HL Hv Hat Ev Hbr Hso H Ha. unfold parse_attributes in H. rewrite Ek, Hat in H.
  assert (Hpos : pos s = q + 1) by (unfold pos; rewrite Esp; reflexivity).
  assert (Hls : span_ok src (Sp q (se (i_line (s_in s))))) by (pose proof (li_span HL) as X; change (se (i_span (s_in s))) with (pos s) in X; rewrite Hpos in X; eapply span_join; eauto).
  assert (Hv' : s_verb s' = None) by (rewrite (resume_verb _ _ _ _ _ _ _ H); exact Hv).
  destruct HW as [W1 W2 W3 W4 W5 W6 W7 W8 W9 W10].
  assert (R : match o with None => s' = s_set_attr s None | Some _ => forall i, acq q (s_set_attr s None) i -> passed src i \/ acc s' i end).
  { apply (resume_cov src P hi (s_set_attr s None) st true false q o s' Hw); auto.
    - pose proof (li_span HL) as (X & _). cbn in X. change (se (i_span (s_in s))) with (pos s) in X. cbn. lia.
    - apply elem_elt in W8. cbn. rewrite Ev, Eq. exact W8.
    - destruct W10 as (ah & l & X1 & X2). exists ah, l. change (s_in (s_set_attr s None)) with (s_in s). rewrite Q2, Q1, Eq. split; [exact X1|exact X2]. }
  destruct o; [|exact R]. split; [|exact Hv']. apply R. unfold accm in Ha. rewrite Esp in Ha. exact Ha.
Qed.

Lemma verb_open_vws src s first o s' : s_verb s = None -> parse_verbatim src s first = Ok (o, s') -> match o with None => s' = s | Some _ => vws src s' end.
Proof.
  intros Hv H. unfold parse_verbatim in H. rewrite Hv in H.
  assert (Hnone : Ok (None, s) = Ok (o, s') -> match o with None => s' = s | Some _ => vws src s' end) by (intros E; destruct (okp _ _ _ _ E) as [-> ->]; reflexivity).
  destruct (tk first) as [| | | | |d|d|y|[| |]] eqn:Ek; try (apply Hnone; exact H). destruct (Nat.ltb (tlen first) 256); [|apply Hnone; exact H].
  apply bind_ok in H. destruct H as ([ty d] & _ & H). destruct (okp _ _ _ _ H) as [-> ->]. intros v k skip E1 E2. cbn in E1. injection E1 as <-. discriminate E2.
Qed.
Lemma attrs_verb src s first o s' : parse_attributes src s first = Ok (o, s') -> s_verb s' = s_verb s.
Proof.
  unfold parse_attributes. intros H.
  assert (Hn : (let! _ := assert (is_none (s_attr s)) "inline.rs:428" in Ok (@None flow, s)) = Ok (o, s') -> s_verb s' = s_verb s).
  { intros E. apply bind_ok in E. destruct E as (u & _ & E). destruct (okp _ _ _ _ E) as [_ ->]. reflexivity. }
  destruct (tk first) as [| | | | |d|d|y|sq]; try (apply Hn; exact H). destruct d; try (apply Hn; exact H). destruct (s_attr s).
  - apply resume_verb in H. exact H.
  - apply ahead_verb in H. exact H.
Qed.
