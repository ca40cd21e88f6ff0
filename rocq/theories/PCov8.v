(** * PCov8: containers, and one step of the inline parser *)
From Verif Require Import Base Lex Attr Block Inline Doc SpecLex Lib SpecAttr SpecSrc PAttr PAttr3 PAttr4 PSafe PBlock2 PLex PBlock3 PBlock4 PInl1 PInl2 PInl3 PInl4 PInl5 PInl6 PInl7 PropsPunct PInl8 PInl9 PInl10 PMark SpecBlock SpecCover PCov5 PCov6 PCov7.
From Verif Require PCov1 PTable PTree8.
Local Open Scope nat_scope.

Lemma runs_within src nc al s E s' : runs src nc al s E s' -> forall e, List.In e E -> cnt (ik e) = true -> e_lo s <= ss (isp e) /\ se (isp e) <= e_lo s'.
Proof.
  induction 1 as [s|s e s1 E s2 H1 H2 IH]; intros x Hx Hc; [destruct Hx|]. pose proof (estep_lo _ _ _ _ _ _ H1) as L1. pose proof (runs_lo _ _ _ _ _ _ H2) as L2.
  destruct Hx as [<-|Hx].
  - inversion H1; subst; cbn in *; try discriminate; lia.
  - destruct (IH _ Hx Hc). lia.
Qed.
Lemma bal_within src nc al lo E hi : bal src nc al lo E hi -> forall e, List.In e E -> cnt (ik e) = true -> lo <= ss (isp e) /\ se (isp e) <= hi.
Proof. intros (m & H1 & H2) e He Hc. destruct (runs_within _ _ _ _ _ _ H2 e He Hc) as [X Y]. cbn in X, Y. lia. Qed.

Definition okc (src : bytes) (s : istate) (o : option flow) (s' : istate) (i : nat) : Prop :=
  match o with None => s' = s | Some _ => (passed src i \/ acc s' i) /\ s_verb s' = None end.

Lemma finish_cov src P hi s ty o s' i : wfb src -> LexI src P hi (s_in s) -> elt src (s_events s) (pos s) ty -> s_verb s = None ->
  (let (t, s) := s_peek s in if peek_is_open t Brace then or_continue (ahead_attributes src s ty false) else Ok (Some FContinue, s)) = Ok (o, s') ->
  acc s i -> o <> None /\ (passed src i \/ acc s' i) /\ s_verb s' = None.
Proof.
  intros Hw HL He Hv H Ha. split; [|split].
  - destruct (s_peek s) as [t s4]. destruct (peek_is_open t Brace); [|destruct (okp _ _ _ _ H); congruence]. unfold or_continue in H. apply bind_ok in H. destruct H as ([[f|] s5] & _ & H); destruct (okp _ _ _ _ H); congruence.
  - eapply ahead_cov; eauto.
  - rewrite (peek_ahead_verb _ _ _ _ _ H). exact Hv.
Qed.

Lemma close_cov src P lo hi W q first s o r s' i : wfb src -> Mid src P lo hi W q first s ->
  (exists op e, nth_error (s_openers s) o = Some (op, e) /\ closed_by op (tk first) = true) ->
  try_close src s o = Ok (r, s') -> accm s i -> okc src s r s' i.
Proof.
  intros Hw HM (op & e & Ho & Hcl) H Ha. pose proof HM as [M1 M2 M3 M4 M5 M6 M7 M8 M9 Mlow Mbrk M10]. unfold try_close in H.
  assert (Hnone : Ok (None, s) = Ok (r, s') -> okc src s r s' i) by (intros E; destruct (okp _ _ _ _ E) as [-> ->]; reflexivity).
  rewrite (get_at_yes _ _ _ (op, e)) in H by auto. cbn [bind] in H.
  destruct (zip_split _ _ _ _ _ _ _ _ M5 _ _ _ Ho) as (A & a & HH & b & body & Ev & HA & Hh & Hb).
  pose proof (Mid_span _ _ _ _ _ _ _ _ HM) as Esp. assert (Hps : pos s <= length src) by apply M9.
  assert (Haq : acq q s i) by (unfold accm in Ha; rewrite M4 in Ha; exact Ha).
  clear M4. inversion Hh as [op0 n0 a0 p k sp b0 I1 I2 I3 I4 It I5 I6 I7 I8 J1 J2 J3 J4 J5 J6|im il es0 e0 n0 a0 p s0 T t s1 s2 b0 I1 I2 I3 I4 I5 I6 I7 I8 I9 I10 I11 I12 K1 K2 K3 K4 K5 J1 J2 J3 J4 J5 J6]; subst.
  - set (n := length A) in *.
    assert (Ea : (match op with OpLink es _ _ => let! a := usub es 1 "inline.rs:700" in Ok (a, n) | _ => Ok (n, n + 1) end) = (Ok (n, n + 1) : res (nat * nat))) by (destruct op; auto; discriminate).
    rewrite Ea in H. cbn [bind] in H. rewrite usub_yes in H by (rewrite Ev, !app_length; cbn; lia). cbn [bind] in H.
    destruct (Nat.eqb _ _ && _)%bool; [apply Hnone; exact H|]. destruct (bidirectional op && _)%bool; [apply Hnone; exact H|].
    set (s1 := s_set_openers s (firstn o (s_openers s))) in *.
    assert (Hset : forall k' k2, set_kind (s_events s1) (n + 1) k' "inline.rs:724" = Ok (A ++ IE IPlaceholder (Sp p p) :: IE k' sp :: body) /\
       set_kind (s_events s1) (n + 1) k' "inline.rs:728" = Ok (A ++ IE IPlaceholder (Sp p p) :: IE k' sp :: body) /\
       push (s_set_events s1 (A ++ IE IPlaceholder (Sp p p) :: IE k' sp :: body)) k2 =
         s_set_events s1 (A ++ IE IPlaceholder (Sp p p) :: IE k' sp :: body ++ [IE k2 (Sp q (pos s))])).
    { intros k' k2. change (s_events s1) with (s_events s). rewrite Ev.
      change (A ++ [IE IPlaceholder (Sp p p); IE k sp] ++ body) with (A ++ [IE IPlaceholder (Sp p p)] ++ IE k sp :: body).
      rewrite app_assoc, !set_kind_mid by (rewrite app_length; cbn; unfold n; lia). rewrite <- app_assoc. split; [reflexivity|]. split; [reflexivity|].
      unfold push, push_sp. change (s_span (s_set_events s1 _)) with (s_span s). rewrite Esp. cbn [s_set_events s_events]. rewrite <- app_assoc. reflexivity. }
    assert (Hck : cnt k = true) by (destruct I4 as [-> |[x [-> _]]]; reflexivity).
    assert (HaX : forall k' k2, cnt k' = true -> cnt k2 = true -> acc (s_set_events s1 (A ++ IE IPlaceholder (Sp p p) :: IE k' sp :: body ++ [IE k2 (Sp q (pos s))])) i).
    { intros k' k2 X1 X2. eapply acq_up; [exact Haq|reflexivity|reflexivity| |].
      - intros j. rewrite Ev. cbn [s_events s_set_events app]. rewrite !ecov_app, !ecov_cons, ecov_app. cbn [ik isp]. rewrite X1, Hck. tauto.
      - intros Y1 Y2. cbn [s_events s_set_events]. rewrite ecov_app, !ecov_cons, ecov_app, ecov_cons. right. right. right. right. left. split; [exact X2|]. split; cbn [isp ss se]; [exact Y1|exact Y2]. }
    assert (HeX : forall k' k2, ((k' = IStr /\ k2 = IStr) \/ exists c, k' = IEnter c /\ k2 = IExit c) ->
      elt src (A ++ IE IPlaceholder (Sp p p) :: IE k' sp :: body ++ [IE k2 (Sp q (pos s))]) (pos s) (ElemContainer n)).
    { intros k' k2 X. exists A, p, k', sp, body, k2, (Sp q (pos s)). split; [reflexivity|]. split; [reflexivity|]. split; [auto|]. cbn [ss se]. split; [lia|]. split; [reflexivity|exact X]. }
    destruct (delim_kind_of op) as [c|ty|qt|es im il] eqn:Ed.
    + destruct (Hset (IEnter c) (IExit c)) as (E1 & _ & E3). rewrite E1 in H. cbn [bind] in H. rewrite E3 in H.
      replace (match op with OpDoubleQuoted | OpSingleQuoted => ElemWord | _ => ElemContainer n end) with (ElemContainer n) in H by (destruct op; auto; discriminate).
      eapply finish_cov in H; [|exact Hw|exact M1|apply HeX; right; eauto|exact M2|apply HaX; reflexivity]. destruct H as (H1 & H2). destruct r; [exact H2|congruence].
    + assert (Ek : k = IStr) by (destruct op; inversion Ed; subst; eapply I8; eauto). subst k.
      destruct (s_peek s1) as [t s1'] eqn:Ep. destruct (in_peek_ok src P hi _ Hw M1) as (tt & i1 & Epk & HL1 & (Q1 & Q2 & Q3) & Hsp & Hn & Ht & Hr).
      unfold s_peek in Ep. change (s_in s1) with (s_in s) in Ep. rewrite Epk in Ep. injection Ep as <- <-.
      assert (Hsp1 : i_span i1 = Sp q (pos s)) by (rewrite Hsp; exact Esp).
      assert (E4 : push (s_set_in s1 i1) IStr = s_set_in (s_set_events s1 (A ++ IE IPlaceholder (Sp p p) :: IE IStr sp :: body ++ [IE IStr (Sp q (pos s))])) i1).
      { unfold push, push_sp. cbn [s_set_in s_events s_set_events s1 s_set_openers]. rewrite Ev, <- app_assoc. unfold s_span. cbn [s_in s_set_in s_set_openers]. rewrite Hsp1. reflexivity. }
      assert (Ha2 : acc (push (s_set_in s1 i1) IStr) i).
      { apply acc_push; [reflexivity|]. eapply accm_in; [exact Ha|exact Q2|exact Q1|unfold s_span; cbn; rewrite Hsp; reflexivity|reflexivity]. }
      assert (Hfin : (let (t0, s3) := s_peek (push (s_set_in s1 i1) IStr) in
          if peek_is_open t0 Brace then or_continue (ahead_attributes src s3 match op with OpDoubleQuoted | OpSingleQuoted => ElemWord | _ => ElemContainer n end false)
          else Ok (Some FContinue, s3)) = Ok (r, s') -> okc src s r s' i).
      { intros H0. replace (match op with OpDoubleQuoted | OpSingleQuoted => ElemWord | _ => ElemContainer n end) with (ElemContainer n) in H0 by (destruct op; auto; discriminate).
        eapply finish_cov in H0; [|exact Hw| | | |exact Ha2].
        - destruct H0 as (H1 & H2). destruct r; [exact H2|congruence].
        - exact HL1.
        - rewrite E4. cbn [s_events s_set_in s_set_events]. replace (pos (s_set_in _ i1)) with (pos s) by (unfold pos, s_span; cbn; rewrite Hsp; reflexivity). apply HeX. left. auto.
        - exact M2. }
      assert (Hlink : forall il, (let s3 := push (s_set_in s1 i1) IStr in
          let s3 := s_set_openers s3 (s_openers s3 ++ [(OpLink (n + 1) match ty with SpImage => true | SpGeneral => false end il, length (s_events s3))]) in
          let s3 := s_set_in s3 (in_reset_span (s_in s3)) in
          let! (_, i) := in_eat (s_in s3) in
          Ok (Some FContinue, push (s_set_in s3 i) IStr)) = Ok (r, s') -> okc src s r s' i).
      { intros il H0. cbv zeta in H0. apply bind_ok in H0. destruct H0 as ([t2 i2] & Ee & H0). destruct (okp _ _ _ _ H0) as [-> ->]. split; [right|exact M2].
        destruct (eat_same _ _ _ Ee) as (Y1 & Y2 & Y3 & Y4). apply acc_push; [reflexivity|]. unfold acc in Ha2.
        assert (Hpp : pos (push (s_set_in s1 i1) IStr) = se (i_span i1)) by reflexivity. rewrite Hpp in Ha2. unfold accm. 
        eapply acq_up; [exact Ha2|cbn in Y1 |- *; rewrite Y1; reflexivity|cbn in Y2 |- *; rewrite Y2; reflexivity|apply esub_refl|].
        cbn in Y3. unfold s_span. cbn. rewrite Y3. cbn. lia. }
      destruct tt as [[kk nn]|]; [|apply Hfin; exact H]. destruct kk as [| | | | |d|d|y|sq]; try (apply Hfin; exact H). destruct d; try (apply Hfin; exact H); [apply (Hlink false); exact H|apply (Hlink true); exact H].
    + destruct (Hset (IAtom (IQuote qt true)) (IAtom (IQuote qt false))) as (_ & E1 & E3). rewrite E1 in H. cbn [bind] in H. rewrite E3 in H.
      replace (match op with OpDoubleQuoted | OpSingleQuoted => ElemWord | _ => ElemContainer n end) with ElemWord in H by (destruct op; auto; discriminate).
      eapply finish_cov in H; [|exact Hw|exact M1|exact I|exact M2|apply HaX; reflexivity]. destruct H as (H1 & H2). destruct r; [exact H2|congruence].
    + destruct op; discriminate.
  - cbn [delim_kind_of] in H.
    rewrite usub_yes in H by lia. cbn [bind] in H. rewrite usub_yes in H by (rewrite Ev, !app_length; cbn; lia). cbn [bind] in H.
    rewrite andb_false_r in H. cbn [bidirectional andb] in H.
    destruct (close_link_ok src P lo hi W q first s (length A + 1) im il (length A + length T + 3) Hw HM Hcl A a p s0 T t s1 s2 b body (firstn o (s_openers s)) Ev eq_refl eq_refl HA I3 I4 I5 I6 I7 I8 I9 I10 I11 I12 Hb K1 K2 K3 K4 K5)
      as (spec & c & Ecl & Hcx & Htx & Hpq & _).
    rewrite Ecl in H. cbn [bind] in H. replace (length A + 1 - 1) with (length A) in H by lia.
    eapply finish_cov in H; [destruct H as (H1 & H2); destruct r; [exact H2|congruence]|exact Hw|exact M1| |exact M2|].
    + exists A, p, (IEnter c), s0, T, (IExit c), (Sp (ss s1) (pos s)). cbn [s_events s_set_events]. split; [reflexivity|]. split; [reflexivity|]. split; [auto|]. cbn [ss se].
      split; [|split; [reflexivity|right; eauto]]. destruct I9 as (X1 & _). destruct I11 as (X2 & _). apply bal_le in Hb. lia.
    + assert (Hbq : b <= q) by (apply bal_le in Hb; exact Hb). destruct I9 as (X1 & _). destruct I11 as (X2 & _).
      assert (Hx : ss s1 <= i -> i < pos s -> ecov (A ++ IE IPlaceholder (Sp p p) :: IE (IEnter c) s0 :: T ++ [IE (IExit c) (Sp (ss s1) (pos s))]) i).
      { intros Y1 Y2. rewrite ecov_app, !ecov_cons, ecov_app, ecov_cons. right. right. right. right. left. split; [reflexivity|]. split; cbn [isp ss se]; auto. }
      destruct Haq as [Haq|[[Y1 Y2]|Haq]].
      * left. exact Haq.
      * destruct (Nat.lt_ge_cases i (pos s)) as [Hlt|Hge]; [right; right; apply Hx; lia|right; left; split; [exact Hge|exact Y2]].
      * right. right. cbn [s_events s_set_events]. rewrite Ev in Haq. rewrite !ecov_app in Haq. destruct Haq as [Haq|[Haq|Haq]].
        -- apply ecov_app. auto.
        -- change (ecov ([IE IPlaceholder (Sp p p); IE IStr s0] ++ T ++ [IE IStr s1; IE IStr s2]) i) in Haq. rewrite !ecov_app in Haq. destruct Haq as [Haq|[Haq|Haq]].
           ++ rewrite !ecov_cons in Haq. rewrite ecov_app, !ecov_cons. cbn [ik isp] in *. destruct Haq as [Haq|[Haq|Haq]]; [auto|right; right; left; split; [reflexivity|apply Haq]|destruct (ecov_nil _ Haq)].
           ++ rewrite ecov_app, !ecov_cons, ecov_app. auto.
           ++ rewrite !ecov_cons in Haq. cbn [ik isp] in Haq. destruct Haq as [[_ [Z1 Z2]]|[[_ [Z1 Z2]]|Haq]]; [apply Hx; lia|apply Hx; lia|destruct (ecov_nil _ Haq)].
        -- destruct Haq as (x & Z1 & Z2 & Z3 & Z4). destruct (bal_within _ _ _ _ _ _ Hb x Z1 Z2). apply Hx; lia.
Qed.

(** ** The flag for verbatim text is only changed by [parse_verbatim] *)
Ltac vb H :=
  repeat match type of H with
  | bind _ _ = _ => let x := fresh in let E := fresh in apply bind_ok in H; destruct H as (x & E & H); try (destruct x; [idtac])
  | context [match ?x with _ => _ end] => let E := fresh in destruct x eqn:E
  | context [if ?x then _ else _] => let E := fresh in destruct x eqn:E
  end; destruct (okp _ _ _ _ H) as [_ ->].
Lemma autolink_verb src s first o s' : parse_autolink src s first = Ok (o, s') -> s_verb s' = s_verb s.
Proof. unfold parse_autolink. intros H. vb H; reflexivity. Qed.
Lemma symbol_verb src s first o s' : parse_symbol src s first = Ok (o, s') -> s_verb s' = s_verb s.
Proof. unfold parse_symbol. intros H. vb H; reflexivity. Qed.
Lemma footnote_verb src s first o s' : parse_footnote_reference src s first = Ok (o, s') -> s_verb s' = s_verb s.
Proof.
  unfold parse_footnote_reference, s_peek. intros H. destruct (in_peek (s_in s)) as [t i1]. vb H; reflexivity.
Qed.
Lemma open_verb src s first o s' : try_open src s first = Ok (o, s') -> s_verb s' = s_verb s.
Proof.
  unfold try_open. intros H. destruct (opener_of (tk first)); [|destruct (okp _ _ _ _ H) as [_ ->]; reflexivity]. apply bind_ok in H. destruct H as (ah & _ & H).
  destruct (_ && _)%bool; [destruct (okp _ _ _ _ H) as [_ ->]; reflexivity|]. apply bind_ok in H. destruct H as (wsb & _ & H). destruct (_ && _ && _)%bool; destruct (okp _ _ _ _ H) as [_ ->]; reflexivity.
Qed.
Lemma ellipses_verb : forall n s s', ellipses n s = Ok s' -> s_verb s' = s_verb s.
Proof.
  induction n as [|n IH]; intros s s' H; [discriminate|]. cbn [ellipses] in H. destruct (Nat.leb 3 _); [apply IH in H; exact H|apply PTable.okp1 in H; subst; reflexivity].
Qed.
Lemma dashes_verb w a : forall n s, s_verb (push_dashes n w a s) = s_verb s.
Proof. induction n as [|n IH]; intros s; [reflexivity|]. cbn [push_dashes]. rewrite IH. reflexivity. Qed.
Lemma atom_verb s first o s' : parse_atom s first = Ok (o, s') -> s_verb s' = s_verb s.
Proof.
  unfold parse_atom. intros H. destruct (tk first) as [| | | | |d|d|y|sq]; try (destruct (okp _ _ _ _ H) as [_ ->]; reflexivity);
   [destruct d|destruct d|destruct y|destruct sq]; try (destruct (okp _ _ _ _ H) as [_ ->]; reflexivity).
  - destruct (Nat.leb 2 (tlen first)); [|destruct (okp _ _ _ _ H) as [_ ->]; reflexivity]. apply bind_ok in H. destruct H as ([m n] & _ & H). destruct (okp _ _ _ _ H) as [_ ->]. rewrite !dashes_verb. reflexivity.
  - apply bind_ok in H. destruct H as (s1 & E & H). destruct (okp _ _ _ _ H) as [_ ->]. apply ellipses_verb in E. exact E.
Qed.

Lemma finish_verb src s ty o s' :
  (let (t, s) := s_peek s in if peek_is_open t Brace then or_continue (ahead_attributes src s ty false) else Ok (Some FContinue, s)) = Ok (o, s') -> o <> None /\ s_verb s' = s_verb s.
Proof.
  intros H. split; [|eapply peek_ahead_verb; eauto]. destruct (s_peek s) as [t s4]. destruct (peek_is_open t Brace); [|destruct (okp _ _ _ _ H); congruence].
  unfold or_continue in H. apply bind_ok in H. destruct H as ([[f|] s5] & _ & H); destruct (okp _ _ _ _ H); congruence.
Qed.
Lemma close_link_verb src s es im il e s' : close_link src s es im il e = Ok s' -> s_verb s' = s_verb s.
Proof. unfold close_link. intros H. do 6 (apply bind_ok in H; destruct H as (? & _ & H)). apply PTable.okp1 in H. subst. reflexivity. Qed.
Lemma close_both src s n o s' : try_close src s n = Ok (o, s') -> s_verb s' = s_verb s /\ (o = None -> s' = s).
Proof.
  unfold try_close. intros H. apply bind_ok in H. destruct H as ([op e] & _ & H). apply bind_ok in H. destruct H as ([ea eo] & _ & H). apply bind_ok in H. destruct H as (l & _ & H).
  destruct (Nat.eqb _ _ && _)%bool; [destruct (okp _ _ _ _ H) as [_ ->]; auto|]. destruct (bidirectional op && _)%bool; [destruct (okp _ _ _ _ H) as [_ ->]; auto|].
  assert (Hfin : forall s1, s_verb s1 = s_verb s ->
    (let (t, s) := s_peek s1 in if peek_is_open t Brace then or_continue (ahead_attributes src s (match op with OpDoubleQuoted | OpSingleQuoted => ElemWord | _ => ElemContainer ea end) false) else Ok (Some FContinue, s)) = Ok (o, s') ->
    s_verb s' = s_verb s /\ (o = None -> s' = s)).
  { intros s1 Hv E. destruct (finish_verb _ _ _ _ _ E) as [X Y]. split; [congruence|contradiction]. }
  destruct (delim_kind_of op) as [c|ty|qt|es im il].
  - apply bind_ok in H. destruct H as (evs & _ & H). apply Hfin in H; [exact H|reflexivity].
  - unfold s_peek at 1 in H. destruct (in_peek _) as [t i1].
    assert (Hlink : forall il, (let s3 := push (s_set_in (s_set_openers s (firstn n (s_openers s))) i1) IStr in
          let s3 := s_set_openers s3 (s_openers s3 ++ [(OpLink eo match ty with SpImage => true | SpGeneral => false end il, length (s_events s3))]) in
          let s3 := s_set_in s3 (in_reset_span (s_in s3)) in
          let! (_, i) := in_eat (s_in s3) in
          Ok (Some FContinue, push (s_set_in s3 i) IStr)) = Ok (o, s') -> s_verb s' = s_verb s /\ (o = None -> s' = s)).
    { intros il E. cbv zeta in E. apply bind_ok in E. destruct E as ([t2 i2] & _ & E). destruct (okp _ _ _ _ E) as [-> ->]. split; [reflexivity|discriminate]. }
    destruct t as [[kk nn]|]; [|apply Hfin in H; [exact H|reflexivity]]. destruct kk as [| | | | |d|d|y|sq]; try (apply Hfin in H; [exact H|reflexivity]).
    destruct d; try (apply Hfin in H; [exact H|reflexivity]); [apply (Hlink false); exact H|apply (Hlink true); exact H].
  - apply bind_ok in H. destruct H as (evs & _ & H). apply Hfin in H; [exact H|reflexivity].
  - apply bind_ok in H. destruct H as (s2 & E & H). apply close_link_verb in E. apply Hfin in H; [exact H|exact E].
Qed.
Lemma close_verb src s n o s' : try_close src s n = Ok (o, s') -> s_verb s' = s_verb s.
Proof. intros H. apply (close_both _ _ _ _ _ H). Qed.
Lemma close_same src s n s' : try_close src s n = Ok (None, s') -> s' = s.
Proof. intros H. apply (close_both _ _ _ _ _ H). reflexivity. Qed.

(** ** One step *)
Section Step.
Variables (src : bytes) (P : list span) (lo hi W q : nat) (first : token) (i : nat).
Variable A : Prop.
Definition good (m : res (option flow * istate)) : Prop :=
  exists o s', m = Ok (o, s') /\ match o with None => Mid src P lo hi W q first s' /\ (A -> accm s' i) | Some _ => (A -> passed src i \/ acc s' i) /\ vws src s' end.
Lemma good_op s m : (exists r, m = Ok r /\ Post src P lo hi W q first s r) ->
  (forall o s', m = Ok (o, s') -> match o with None => A -> accm s' i | Some _ => (A -> passed src i \/ acc s' i) /\ vws src s' end) -> good m.
Proof.
  intros ([o s'] & E & H1 & H2 & H3) H. exists o, s'. split; [exact E|]. specialize (H _ _ E). destruct o; auto.
Qed.
Lemma good_else m f : good m -> (forall s', Mid src P lo hi W q first s' -> (A -> accm s' i) -> good (f s')) -> good (or_else m f).
Proof.
  intros (o & s & -> & H) Hf. unfold or_else. cbn [bind]. destruct o as [f0|]; [exists (Some f0), s; auto|]. destruct H. auto.
Qed.
Lemma container_cov s : wfb src -> Mid src P lo hi W q first s -> (A -> accm s i) -> good (iparse_container src s first).
Proof.
  intros Hw HM Ha. apply (good_op s); [apply container_ok; auto|]. intros o s' H. unfold iparse_container in H.
  assert (Hop : forall s1, s_verb s1 = None -> (A -> accm s1 i) -> try_open src s1 first = Ok (o, s') -> match o with None => A -> accm s' i | Some _ => (A -> passed src i \/ acc s' i) /\ vws src s' end).
  { intros s1 Hv Ha1 E. assert (X : A -> match o with None => accm s' i | Some _ => acc s' i end) by (intros HA; exact (open_cov _ _ _ _ _ _ E (Ha1 HA))).
    pose proof (open_verb _ _ _ _ _ E) as Y. destruct o; [|exact X]. split; [auto|]. apply vws_none. congruence. }
  pose proof (m_verb _ _ _ _ _ _ _ _ HM) as Hv.
  destruct (rposition _ (s_openers s)) as [n|] eqn:Eo; [|apply (Hop s); auto].
  apply PTree8.rposition_some in Eo. destruct Eo as [([op e] & Eo & Hcl) _]. cbn in Hcl.
  apply bind_ok in H. destruct H as ([f s1] & E & H). assert (X : A -> okc src s f s1 i) by (intros HA; eapply close_cov; eauto). pose proof (close_verb _ _ _ _ _ E) as Y.
  destruct f as [f|].
  - destruct (okp _ _ _ _ H) as [-> ->]. split; [intros HA; apply (X HA)|apply vws_none; congruence].
  - assert (Es : s1 = s) by (eapply close_same; eauto). subst s1. apply (Hop s); auto.
Qed.
Lemma rest_cov m s0 : wfb src -> good m -> 
  (tk first = LOpen Bracket -> m = Ok (None, s0) /\ slice src (Sp q (pos s0)) = B "[") ->
  forall f s', (let! (o, s) :=
        or_else (or_else (or_else (or_else (or_else
          m
          (fun s => parse_autolink src s first))
          (fun s => parse_symbol src s first))
          (fun s => parse_footnote_reference src s first))
          (fun s => iparse_container src s first))
          (fun s => parse_atom s first) in
      Ok (match o with
          | Some f => (f, s)
          | None => (FContinue, push s IStr)
          end)) = Ok (f, s') -> (A -> passed src i \/ acc s' i) /\ vws src s'.
Proof.
  intros Hw Hm Hbk f s' H.
  match type of H with context [or_else ?x (fun s => parse_atom s first)] => assert (HP : good x) end.
  { apply good_else; [|intros; apply container_cov; auto].
    assert (Hfn : forall s, Mid src P lo hi W q first s -> (A -> accm s i) -> (tk first = LOpen Bracket -> slice src (Sp q (pos s)) = B "[") -> good (parse_footnote_reference src s first)).
    { intros s HM Ha Hb. apply (good_op s); [apply footnote_ok; auto|]. intros o s1 E. assert (X : A -> match o with None => accm s1 i | Some _ => acc s1 i end) by (intros HA; exact (footnote_cov _ _ _ _ _ _ E (Ha HA))). pose proof (footnote_verb _ _ _ _ _ E) as Y.
      destruct o; [|exact X]. split; [auto|]. apply vws_none. rewrite Y. apply HM. }
    assert (Hd : tk first = LOpen Bracket \/ tk first <> LOpen Bracket) by (destruct (tk first) as [| | | | |[]|d|y|sq]; auto; right; discriminate).
    destruct Hd as [Hd|Hd].
    { destruct (Hbk Hd) as [-> Hsl]. destruct Hm as (o9 & s9 & E0 & Hm). injection E0 as <- <-. destruct Hm as [HM Ha]. cbn [or_else bind].
      unfold parse_autolink, parse_symbol. rewrite Hd. cbn [or_else bind]. apply Hfn; auto. }
    apply good_else; [|intros; apply Hfn; auto; intros; contradiction].
    apply good_else; [apply good_else; [exact Hm|]|].
    - intros s HM Ha. apply (good_op s); [apply autolink_ok; auto|]. intros o s1 E. pose proof (autolink_verb _ _ _ _ _ E) as Y.
      assert (Hle : ss (s_span s) <= pos s) by (rewrite (m_pos _ _ _ _ _ _ _ _ HM); pose proof (m_len _ _ _ _ _ _ _ _ HM); lia).
      assert (X : A -> match o with None => accm s1 i | Some _ => acc s1 i end) by (intros HA; exact (autolink_cov _ _ _ _ _ _ Hle E (Ha HA))). destruct o; [|exact X]. split; [auto|]. apply vws_none. rewrite Y. apply HM.
    - intros s HM Ha. apply (good_op s); [apply symbol_ok; auto|]. intros o s1 E. pose proof (symbol_verb _ _ _ _ _ E) as Y. assert (X : A -> match o with None => accm s1 i | Some _ => acc s1 i end) by (intros HA; exact (symbol_cov _ _ _ _ _ _ E (Ha HA))).
      destruct o; [|exact X]. split; [auto|]. apply vws_none. rewrite Y. apply HM. }
  destruct HP as (o & s1 & E & HP). rewrite E in H. unfold or_else in H. cbn [bind] in H. destruct o as [f0|].
  - destruct (okp _ _ _ _ H) as [-> ->]. exact HP.
  - destruct HP as [HM Ha]. apply bind_ok in H. destruct H as ([o s2] & Ea & H). assert (X : A -> match o with None => accm s2 i | Some _ => acc s2 i end) by (intros HA; exact (atom_cov _ _ _ _ _ _ _ _ _ _ _ HM Ea (Ha HA))). pose proof (atom_verb _ _ _ _ Ea) as Y.
    assert (Hv : s_verb s2 = None) by (rewrite Y; apply HM). destruct o as [f0|].
    + destruct (okp _ _ _ _ H) as [-> ->]. split; [auto|apply vws_none; auto].
    + destruct (okp _ _ _ _ H) as [-> ->]. split; [intros HA; right; apply acc_push; auto|apply vws_none; auto].
Qed.
End Step.

Lemma event_cov src P lo hi W s f s' i : wfb src -> Act src P lo hi W s -> vws src s -> parse_event src s = Ok (f, s') ->
  (acc s i -> passed src i \/ acc s' i) /\ vws src s'.
Proof.
  intros Hw HA Hvw H.
  assert (HL : LexI src P hi (s_in s)) by (destruct HA as [[X|[v X]]|[st X]]; apply X).
  unfold parse_event in H. change (s_in (s_set_in s ?i)) with i in H.
  destruct (in_eat_ok src P hi (in_reset_span (s_in s)) Hw (LexI_reset_span _ _ _ _ HL)) as (o & j & Eeat & HL' & (Q1 & Q2 & Q3) & Ho).
  rewrite Eeat in H. cbn [bind] in H. change (se (i_span (in_reset_span (s_in s)))) with (pos s) in Ho. change (ss (i_span (in_reset_span (s_in s)))) with (pos s) in Ho.
  change (i_line (in_reset_span (s_in s))) with (i_line (s_in s)) in *. change (i_ahead (in_reset_span (s_in s))) with (i_ahead (s_in s)) in *.
  change (i_complete (in_reset_span (s_in s))) with (i_complete (s_in s)) in *.
  set (q := pos s) in *.
  change (s_set_in (s_set_in s (in_reset_span (s_in s))) j) with (s_set_in s j) in H.
  destruct o as [first|].
  - destruct Ho as (O1 & O2 & O3 & O4 & O5 & O6).
    assert (Hp : pos (s_set_in s j) = q + tlen first) by (unfold pos, s_span; cbn; rewrite O1; reflexivity).
    assert (Ha' : acc s i -> accm (s_set_in s j) i).
    { intros Ha. eapply acq_up; [exact Ha|exact Q2|exact Q1|apply esub_refl|]. unfold s_span. cbn. rewrite O1. cbn. fold q. lia. }
    destruct HA as [[HR|[v HV]]|[st HW]].
    + assert (HMid : Mid src P lo hi W q first (s_set_in s j)).
      { destruct HR as [R1 R2 R3 R4 R5 R6]. constructor; auto; rewrite ?Hp; auto.
        - unfold s_span. cbn. rewrite O1. reflexivity.
        - unfold evz. rewrite (lstart_same s) by (cbn; auto). exact R4.
        - lia.
        - cbn [s_set_in s_in]. rewrite Q1. apply (li_low HL).
        - intros Ek. rewrite Ek in O5. left. apply O5. }
      eapply (rest_cov src P lo hi W q first i (acc s i) (or_else (parse_verbatim src (s_set_in s j) first) (fun s => parse_attributes src s first)) (s_set_in s j) Hw); [| |exact H].
      * apply good_else.
        -- apply (good_op _ _ _ _ _ _ _ _ _ (s_set_in s j)); [apply verb_open; auto|]. intros o s1 E. pose proof (verb_open_vws _ _ _ _ _ (m_verb _ _ _ _ _ _ _ _ HMid) E) as Y.
           assert (X : acc s i -> match o with None => s1 = s_set_in s j | Some _ => acc s1 i /\ vws src s1 end) by (intros Ha; exact (verb_open_cov _ _ _ _ _ _ _ _ _ _ _ HMid E (Ha' Ha))).
           destruct o; [split; [intros Ha; right; apply (X Ha)|exact Y]|subst s1; exact Ha'].
        -- intros s1 HM1 Ha1. apply (good_op _ _ _ _ _ _ _ _ _ s1); [apply attrs_ok; auto|]. intros o s2 E. pose proof (attrs_verb _ _ _ _ _ E) as Y.
           assert (X : acc s i -> match o with None => s2 = s1 | Some _ => (passed src i \/ acc s2 i) /\ s_verb s2 = None end) by (intros Ha; exact (attrs_cov _ _ _ _ _ _ _ _ _ _ _ Hw HM1 E (Ha1 Ha))).
           destruct o; [split; [intros Ha; apply (X Ha)|apply vws_none; rewrite Y; apply HM1]|intros Ha; rewrite (X Ha); auto].
      * intros Ek. split; [|rewrite Hp; rewrite Ek in O5; apply O5].
        unfold parse_verbatim. rewrite (m_verb _ _ _ _ _ _ _ _ HMid), Ek. cbn [or_else bind]. unfold parse_attributes. rewrite Ek, (m_attr _ _ _ _ _ _ _ _ HMid). reflexivity.
    + assert (HVM : VMid src P lo hi W q (s_set_in s j) v).
      { destruct HV as [V1 V2 V3 V4 V5]. constructor; auto; rewrite ?Hp; auto.
        - rewrite (lstart_same s) by (cbn; auto). exact V4.
        - lia. }
      assert (Htk : tk first = LSeq Backtick -> slice src (Sp q (pos (s_set_in s j))) = repeat "`"%char (tlen first)) by (intros Ek; rewrite Hp; rewrite Ek in O5; exact (seq_run _ _ _ _ O4 O5)).
      destruct (verb_in src P lo hi W q first (s_set_in s j) v Hw HVM Htk) as ([o s1] & Er & Hn & _).
      pose proof (verb_in_cov _ _ _ _ _ _ _ _ _ _ _ i Hw HVM Hvw Er) as (X1 & X2 & X3). rewrite Er in H.
      destruct o as [f0|]; [|congruence]. cbn [or_else bind] in H. destruct (okp _ _ _ _ H) as [-> ->]. split; [intros Ha; apply X2; apply Ha'; exact Ha|exact X3].
    + pose proof HW as [W1 W2 W3 W4 W5 W6 (l' & W7) W8 W9 W10].
      assert (Ef : first = Tok (LOpen Brace) 1).
      { unfold in_eat in Eeat. change (i_lex (in_reset_span (s_in s))) with (i_lex (s_in s)) in Eeat. rewrite W7 in Eeat. cbn [bind] in Eeat. injection Eeat as <- _. reflexivity. }
      subst first. cbn [tlen tk] in *.
      eapply (rest_cov src P lo hi W q (Tok (LOpen Brace) 1) i (acc s i) (or_else (parse_verbatim src (s_set_in s j) (Tok (LOpen Brace) 1)) (fun s => parse_attributes src s (Tok (LOpen Brace) 1))) (s_set_in s j) Hw); [| |exact H].
      * unfold parse_verbatim. change (s_verb (s_set_in s j)) with (s_verb s). rewrite W2. cbn [tk or_else bind].
        apply (good_op _ _ _ _ _ _ _ _ _ (s_set_in s j)).
        -- apply (attrs_resume src P lo hi W (s_set_in s j) st q); auto.
           ++ unfold evz. rewrite (lstart_same s) by (cbn; auto). exact W4.
           ++ apply O6. discriminate.
           ++ rewrite (lstart_same s) by (cbn; auto). exact W8.
           ++ cbn [s_set_in s_in]. rewrite Q1. apply (li_low HL).
           ++ cbn [s_set_in s_in]. rewrite Q2, Q1. exact W10.
        -- intros o s1 E.
           assert (Hbr : nth_error src q = Some "{"%char).
           { destruct O5 as [Ht1 _]. pose proof (f_equal (fun l => nth_error l 0) Ht1) as N. cbn beta in N. rewrite slice_nth in N by (cbn; lia). cbn in N. rewrite Nat.add_0_r in N. exact N. }
           pose proof (attrs_verb _ _ _ _ _ E) as Y.
           assert (X : acc s i -> match o with None => s1 = s_set_attr (s_set_in s j) None | Some _ => (passed src i \/ acc s1 i) /\ s_verb s1 = None end).
           { intros Ha. eapply (attrs_resume_cov src P lo hi W s (s_set_in s j) st q); eauto; split; [exact Q1|split; [exact Q2|exact Q3]]. }
           destruct o; [split; [intros Ha; apply (X Ha)|apply vws_none; rewrite Y; exact W2]|intros Ha; rewrite (X Ha); apply Ha'; exact Ha].
      * discriminate.
  - destruct Ho as (O1 & O2 & O3). destruct (okp _ _ _ _ H) as [_ ->]. split; [intros Ha; right|intros v k skip; apply (Hvw v k skip)].
    eapply acc_in; [exact Ha|exact Q2|exact Q1|unfold pos, s_span; cbn; rewrite O2; reflexivity|reflexivity].
Qed.
