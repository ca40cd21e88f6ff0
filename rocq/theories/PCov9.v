(** * PCov9: the inline parser hands out everything it is fed *)
From Verif Require Import Base Lex Attr Block Inline Doc SpecLex Lib SpecAttr SpecSrc PAttr PAttr3 PAttr4 PSafe PBlock2 PLex PBlock3 PBlock4 PInl1 PInl2 PInl3 PInl4 PInl5 PInl6 PInl7 PropsPunct PInl8 PInl9 PInl10 PInl11 PInl12 PMark SpecBlock SpecCover PCov5 PCov6 PCov7 PCov8.
From Verif Require PCov1 PTable PTree8.
Local Open Scope nat_scope.

Lemma set_line_same src i l i' : set_current_line src i l = Ok i' -> i_line i' = l /\ i_ahead i' = i_ahead i /\ i_span i' = Sp (ss l) (ss l).
Proof. unfold set_current_line. intros H. apply bind_ok in H. destruct H as (b & _ & H). apply PTable.okp1 in H. subst. auto. Qed.
Lemma line_cov s i' l ls i : i_line i' = l -> i_ahead i' = ls -> i_span i' = Sp (ss l) (ss l) ->
  inl i (l :: ls) \/ ecov (s_events s) i -> acc (s_set_in s i') i.
Proof.
  intros E1 E2 E3 H. unfold acc, acq, pos, s_span. cbn [s_in s_set_in s_events]. rewrite E1, E2, E3. cbn [se].
  destruct H as [(x & [<-|Hx] & X1 & X2)|H]; [right; left; auto|left; exists x; split; [exact Hx|split; auto]|auto].
Qed.
(** The buffering loop. *)
Lemma fill_act_cov src P lo hi W i : wfb src -> forall n s b s', Act src P lo hi W s -> vws src s -> fill n src s = Ok (b, s') ->
  (acc s i -> passed src i \/ acc s' i) /\ vws src s'.
Proof.
  intros Hw. induction n as [|n IH]; intros s b s' HA Hv H; [discriminate|]. cbn [fill] in H. destruct (must_buffer s).
  2: { destruct (okp _ _ _ _ H) as [_ ->]. auto. }
  destruct (parse_event_ok src P lo hi W s Hw HA) as (f & s1 & E & _ & _ & X3). rewrite E in H. cbn [bind] in H.
  destruct (event_cov src P lo hi W s f s1 i Hw HA Hv E) as [C1 C2].
  destruct f.
  - destruct X3 as [X3 X4]. destruct (IH _ _ _ (or_introl X3) C2 H) as [D1 D2]. split; [|exact D2]. intros Ha. destruct (C1 Ha); auto.
  - destruct X3 as (X3 & X4 & X5 & X6 & X7 & X8 & X8' & X9). destruct (i_ahead (s_in s1)) as [|l ls] eqn:Ea.
    + destruct (okp _ _ _ _ H) as [_ ->]. auto.
    + destruct (Buf_line src P lo hi W s1 l ls Hw X3 Ea X8) as (j & Ej & Y1 & Y2 & Y3). rewrite Ej in H. cbn [bind] in H.
      destruct (set_line_same _ _ _ _ Ej) as (L1 & L2 & L3). cbn in L2.
      assert (C4 : vws src (s_set_in s1 j)) by (intros v k skip; apply (C2 v k skip)).
      destruct (IH (s_set_in s1 j) _ _ (or_introl Y1) C4 H) as [D1 D2]. split; [|exact D2].
      intros Ha. destruct (C1 Ha) as [C3|C3]; [auto|]. apply D1. eapply line_cov; [exact L1|exact L2|exact L3|].
      unfold acc, acq in C3. rewrite Ea, X8 in C3. destruct C3 as [C3|[C3|C3]]; [auto|lia|auto].
  - destruct (okp _ _ _ _ H) as [_ ->]. auto.
  - destruct (okp _ _ _ _ H) as [_ ->]. auto.
Qed.
Lemma close_verb_cov s s' i : close_verbatim s = Ok s' -> (acc s i -> acc s' i) /\ s_verb s' = None.
Proof.
  unfold close_verbatim. intros H. destruct (s_verb s) as [v|] eqn:Ev; [|apply PTable.okp1 in H; subst; auto].
  apply bind_ok in H. destruct H as (e & _ & H). destruct (ik e); try discriminate. apply bind_ok in H. destruct H as (u & _ & H). apply PTable.okp1 in H. subst s'. split; [|reflexivity].
  intros Ha. eapply acq_up; [exact Ha|reflexivity|reflexivity|apply esub_app|]. unfold pos, s_span. cbn. lia.
Qed.
Lemma fill_run_cov src P hi W est s n b s1 i : wfb src -> Run src P hi W est s -> vws src s -> fill n src s = Ok (b, s1) ->
  (acc s i -> passed src i \/ acc s1 i) /\ vws src s1.
Proof.
  intros Hw [(lo & -> & HA)|HE] Hv H; [eapply fill_act_cov; eauto|].
  pose proof HE as [E1 E2 E3 (m & E4 & E5) E6 E7]. destruct n as [|n]; [discriminate|]. cbn [fill] in H. destruct (must_buffer s) eqn:Em.
  - destruct E7 as [(P0 & P1 & P2)|E7]; [|congruence]. subst P.
    unfold parse_event in H. change (s_in (s_set_in s ?i)) with i in H.
    destruct (in_eat_ok src [] hi (in_reset_span (s_in s)) Hw (LexI_reset_span _ _ _ _ E1)) as (o & j & Eeat & HL' & (Q1 & Q2 & Q3) & Ho).
    rewrite Eeat in H. cbn [bind] in H. change (s_set_in (s_set_in s (in_reset_span (s_in s))) j) with (s_set_in s j) in H.
    change (se (i_span (in_reset_span (s_in s)))) with (pos s) in Ho. change (i_lex (in_reset_span (s_in s))) with (i_lex (s_in s)) in Ho.
    change (i_line (in_reset_span (s_in s))) with (i_line (s_in s)) in *. change (i_ahead (in_reset_span (s_in s))) with (i_ahead (s_in s)) in *.
    destruct o as [t|].
    { exfalso. destruct Ho as (O1 & O2 & O3 & _). pose proof (LexI_len _ _ _ _ E1) as HL. rewrite P1 in HL. cbn in HL. change (se (i_span (s_in s))) with (pos s) in HL. lia. }
    destruct Ho as (O1 & O2 & O3). unfold in_last in H. cbn [s_in s_set_in] in H. rewrite (li_compl HL'), Q2, P2 in H. cbn [is_nil andb bind] in H.
    destruct (okp _ _ _ _ H) as [_ ->]. split; [|apply vws_none; exact E2]. intros Ha. right. eapply acc_in; [exact Ha|exact Q2|exact Q1|unfold pos, s_span; cbn; rewrite O2; reflexivity|reflexivity].
  - destruct (okp _ _ _ _ H) as [_ ->]. auto.
Qed.

(** ** Events handed out *)
Lemma merge_cov E : forall sp E' sp' i, merge_loop E sp = (E', sp') -> ss sp <= se sp -> Forall (fun e => ss (isp e) <= se (isp e)) E ->
  inn i sp \/ ecov E i -> inn i sp' \/ ecov E' i.
Proof.
  induction E as [|e E IH]; intros sp E' sp' i H Hle HF Hi; cbn [merge_loop] in H; [injection H as <- <-; auto|].
  destruct (_ && _)%bool eqn:Ec; [|injection H as <- <-; auto]. apply andb_prop in Ec. destruct Ec as [_ Ee]. apply Nat.eqb_eq in Ee. inversion HF as [|? ? He HF']; subst.
  eapply IH; [exact H|cbn; lia|exact HF'|]. destruct Hi as [[H1 H2]|Hi]; [left; split; cbn; lia|]. apply ecov_cons in Hi. destruct Hi as [[_ [H1 H2]]|Hi]; [left; split; cbn; lia|auto].
Qed.
Definition outs (o : option iev) (i : nat) : Prop := exists e, o = Some e /\ cnt (ik e) = true /\ inn i (isp e).
Lemma word_cov src nc al E sp e' E' i lo stk s2 : span_ok src sp -> runs src nc al (ES lo stk PNone) E s2 -> front_word_attr E = true ->
  apply_word_attributes src E sp = Ok (e', E') -> inn i sp \/ ecov E i -> outs (Some e') i \/ ecov E' i.
Proof.
  intros Hs Hr Hf H Hi. unfold apply_word_attributes in H. apply bind_ok in H. destruct H as (t & _ & H). destruct (rposition is_ws t) as [n|].
  - destruct (okp _ _ _ _ H) as [-> ->]. destruct Hi as [[H1 H2]|Hi]; [|right; apply ecov_cons; auto].
    destruct (Nat.lt_ge_cases i (ss sp + n + 1)) as [Hlt|Hge]; [left; eexists; split; [reflexivity|]; split; [reflexivity|]; split; cbn [isp ss se]; auto|].
    right. apply ecov_cons. left. split; [reflexivity|]. split; cbn [isp ss se]; auto.
  - destruct E as [|[k asp] E]; [discriminate|]. cbn in Hf. destruct k as [| | | | |[] ai|]; try discriminate.
    assert (Hi' : inn i sp \/ ecov E i) by (destruct Hi as [Hi|Hi]; [auto|]; apply ecov_cons in Hi; destruct Hi as [[X _]|Hi]; [discriminate X|auto]).
    destruct (sp_empty sp) eqn:Ee; cbn [negb] in H.
    + destruct (okp _ _ _ _ H) as [-> ->]. right. destruct Hi' as [[X Y]|Hi']; [|exact Hi']. unfold sp_empty in Ee. apply negb_true_iff, Nat.ltb_ge in Ee. lia.
    + destruct E as [|[k2 es0] E]; [discriminate|]. destruct k2; try discriminate. destruct (okp _ _ _ _ H) as [-> ->]. right. rewrite !ecov_cons. cbn [ik isp].
      assert (Hsame : es0 = asp).
      { inversion Hr as [|? ? s1 ? ? H1 H2]; subst. inversion H1; subst. inversion H2 as [|? ? s3 ? ? H3 H4]; subst. inversion H3; subst. reflexivity. }
      subst es0. rewrite ecov_cons in Hi'. cbn [ik isp] in Hi'. destruct Hi' as [Hi'|[Hi'|Hi']]; auto.
Qed.
Lemma next_cov src P hi i : wfb src -> forall n nf W est s o s', Run src P hi W est s -> vws src s -> i_next n nf src s = Ok (o, s') ->
  length src + length (i_ahead (s_in s)) < nf ->
  (acc s i -> passed src i \/ outs o i \/ acc s' i) /\ vws src s'.
Proof.
  intros Hw. induction n as [|n IH]; intros nf W est s o s' HR Hv H Hf; [discriminate|]. cbn [i_next] in H.
  destruct (fill_run src P hi W est s nf Hw HR) as (b & s1 & Ef & X1 & X2 & X3); [lia|]. rewrite Ef in H. cbn [bind] in H.
  destruct (fill_run_cov _ _ _ _ _ _ _ _ _ i Hw HR Hv Ef) as [C1 C2]. destruct b.
  2: { destruct (okp _ _ _ _ H) as [-> ->]. split; [|exact C2]. intros Ha. destruct (C1 Ha); auto. }
  destruct X3 as (s2 & Ec & Y1 & Y2 & HE). rewrite Ec in H. cbn [bind] in H. destruct (close_verb_cov _ _ i Ec) as [D1 D2].
  pose proof HE as [E1 E2 E3 (m & E4 & E5) E6 E7].
  destruct (s_events s2) as [|e evs] eqn:Ev.
  { destruct (okp _ _ _ _ H) as [-> ->]. split; [|apply vws_none; exact D2]. intros Ha. destruct (C1 Ha); auto. }
  inversion E4 as [|? ? est1 ? ? H1 H2]; subst. cbn [wsum] in E6.
  assert (Hlast : evs = [] \/ (lastn (s_events s2) = false -> lastn evs = false)).
  { destruct evs as [|e1 evs]; [auto|]. right. rewrite Ev. intros X. change (e :: e1 :: evs) with ([e] ++ e1 :: evs) in X. rewrite lastn_suffix in X by discriminate. exact X. }
  assert (Hpos : 1 <= iwt e) by (unfold iwt; destruct (ik e) as [| | | | |[]|]; lia).
  assert (Hpop : Run src P hi (W - 1) est1 (s_set_events s2 evs)) by (eapply Run_pop; eauto; lia).
  assert (Hacc : forall evs', (ecov (e :: evs) i -> outs o i \/ ecov evs' i) -> acc s2 i -> outs o i \/ acc (s_set_events s2 evs') i).
  { intros evs' Hx [Ha|[Ha|Ha]]; [right; left; exact Ha|right; right; left; exact Ha|]. rewrite Ev in Ha. destruct (Hx Ha); [auto|right; right; right; auto]. }
  assert (Hgo : Ok (Some e, s_set_events s2 evs) = Ok (o, s') -> (acc s i -> passed src i \/ outs o i \/ acc s' i) /\ vws src s').
  { intros X. destruct (okp _ _ _ _ X) as [-> ->]. split; [|apply vws_none; exact D2]. intros Ha. destruct (C1 Ha) as [C3|C3]; [auto|right]. apply Hacc; [|auto].
    intros Y. apply ecov_cons in Y. destruct Y as [Y|Y]; [left; exists e; auto|auto]. }
  assert (Hskip : (cnt (ik e) = true -> ~ inn i (isp e)) -> i_next n nf src (s_set_events s2 evs) = Ok (o, s') -> (acc s i -> passed src i \/ outs o i \/ acc s' i) /\ vws src s').
  { intros He X. destruct (IH nf (W - 1) est1 _ _ _ Hpop (vws_none src (s_set_events s2 evs) D2) X ltac:(cbn [s_set_events s_in]; lia)) as [F1 F2]. split; [|exact F2].
    intros Ha. destruct (C1 Ha) as [C3|C3]; [auto|]. apply F1. apply D1 in C3. destruct C3 as [C3|[C3|C3]]; [left; exact C3|right; left; exact C3|right; right].
    rewrite Ev in C3. apply ecov_cons in C3. destruct C3 as [[Y1' Y2']|C3]; [destruct (He Y1' Y2')|exact C3]. }
  destruct (ik e) eqn:Ek; try (apply Hgo; exact H).
  - destruct e as [k sp]. cbn in Ek. subst k. cbn [isp] in H. inversion H1; subst.
    destruct (sp_empty sp && negb (front_word_attr evs))%bool eqn:Ee.
    { apply Hskip; [|exact H]. intros _ [Y1' Y2']. apply andb_prop in Ee. destruct Ee as [Ee _]. unfold sp_empty in Ee. apply negb_true_iff, Nat.ltb_ge in Ee. cbn [isp] in *. lia. }
    apply bind_ok in H. destruct H as ([e' evs'] & Em & H). destruct (okp _ _ _ _ H) as [-> ->]. split; [|apply vws_none; exact D2].
    intros Ha. destruct (C1 Ha) as [C3|C3]; [auto|right]. change (s_set_events (s_set_events s2 evs) evs') with (s_set_events s2 evs'). apply Hacc; [|auto].
    intros Hi. apply ecov_cons in Hi. cbn [isp] in Hi. assert (Hi' : inn i sp \/ ecov evs i) by (destruct Hi as [[_ Hi]|Hi]; auto). clear Hi.
    unfold merge_str_events in Em. destruct (merge_loop evs sp) as [E' sp'] eqn:El.
    match goal with X : span_ok src sp |- _ => pose proof X as Hso end.
    assert (HF : Forall (fun e => ss (isp e) <= se (isp e)) evs) by (eapply Forall_impl; [|eapply runs_spans; exact H2]; cbn; intros ? Z; apply Z).
    destruct (merge_ok src _ _ evs (ss sp) stk sp _ H2 Hso ltac:(auto)) as (sp0 & E0 & Em0 & M1 & M2 & M3 & M4 & _). rewrite El in Em0. injection Em0 as <- <-.
    pose proof (merge_cov _ _ _ _ i El (proj1 Hso) HF Hi') as Hm.
    destruct (front_word_attr E') eqn:Ew.
    + eapply word_cov; [exact M3|exact M4|exact Ew|exact Em|exact Hm].
    + destruct (okp _ _ _ _ Em) as [-> ->]. destruct Hm as [Hm|Hm]; [left; eexists; split; [reflexivity|]; split; [reflexivity|exact Hm]|auto].
  - destruct e as [k sp]. cbn in Ek. subst k. apply Hskip; [|exact H]. inversion H1; subst. intros _ [Y1' Y2']. cbn [isp] in *. lia.
Qed.
