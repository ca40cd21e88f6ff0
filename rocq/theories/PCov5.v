(** * PCov5: what the inline parser has read is in its events *)
From Verif Require Import Base Lex Attr Block Inline Doc SpecLex Lib SpecAttr SpecSrc PAttr PAttr3 PAttr4 PSafe PBlock2 PLex PBlock3 PBlock4 PInl1 PInl2 PInl3 PInl4 PInl5 PInl6 PInl7 PropsPunct PInl8 PInl9 PInl10 PMark SpecBlock SpecCover.
From Verif Require PCov1.
Local Open Scope nat_scope.

Notation inl := PCov1.inl.
Notation inn := PCov1.inn.
(** Attribute events are merged with the events that follow them: their ranges do not count. *)
Definition cnt (k : ikind) : bool := match k with IAttributes _ _ => false | _ => true end.
Definition ecov (E : list iev) (i : nat) : Prop := exists e, List.In e E /\ cnt (ik e) = true /\ inn i (isp e).
Lemma ecov_app E F i : ecov (E ++ F) i <-> ecov E i \/ ecov F i.
Proof.
  split.
  - intros (e & H & Hc & Hi). apply in_app_or in H. destruct H; [left|right]; exists e; auto.
  - intros [(e & H & Hc & Hi)|(e & H & Hc & Hi)]; exists e; (split; [apply in_or_app; auto|auto]).
Qed.
Lemma ecov_cons e E i : ecov (e :: E) i <-> (cnt (ik e) = true /\ inn i (isp e)) \/ ecov E i.
Proof.
  split.
  - intros (x & [<-|H] & Hc & Hi); [left; auto|right; exists x; auto].
  - intros [[Hc Hi]|(x & H & Hc & Hi)]; [exists e; split; [left; auto|auto]|exists x; split; [right; auto|auto]].
Qed.
Lemma ecov_nil i : ~ ecov [] i.
Proof. intros (e & [] & _). Qed.
Definition esub (E F : list iev) : Prop := forall i, ecov E i -> ecov F i.

(** Everything from [q] on, in the lines fed and not read, or in an event. *)
Definition acq (q : nat) (s : istate) (i : nat) : Prop :=
  inl i (i_ahead (s_in s)) \/ (q <= i /\ i < se (i_line (s_in s))) \/ ecov (s_events s) i.
Definition acc (s : istate) (i : nat) : Prop := acq (pos s) s i.
Definition accm (s : istate) (i : nat) : Prop := acq (ss (s_span s)) s i.

Lemma acq_up q q' s s' i : acq q s i -> i_ahead (s_in s') = i_ahead (s_in s) -> i_line (s_in s') = i_line (s_in s) ->
  esub (s_events s) (s_events s') -> (q <= i -> i < q' -> ecov (s_events s') i) -> acq q' s' i.
Proof.
  unfold acq. intros [H|[[H1 H2]|H]] -> -> He Hq; [auto| |auto]. destruct (Nat.lt_ge_cases i q'); auto.
Qed.
Lemma esub_refl E : esub E E.
Proof. intros i; auto. Qed.
Lemma esub_trans E F G : esub E F -> esub F G -> esub E G.
Proof. intros H1 H2 i Hi. auto. Qed.
Lemma esub_app E F : esub E (E ++ F).
Proof. intros i Hi. apply ecov_app. auto. Qed.
Lemma acc_push s k i : cnt k = true -> accm s i -> acc (push s k) i.
Proof.
  intros Hk H. eapply acq_up; [exact H|reflexivity|reflexivity|apply esub_app|]. intros H1 H2. apply ecov_app. right. apply ecov_cons. left.
  split; [exact Hk|]. split; [exact H1|exact H2].
Qed.
Lemma accm_in s s' i : accm s i -> i_ahead (s_in s') = i_ahead (s_in s) -> i_line (s_in s') = i_line (s_in s) -> ss (s_span s') = ss (s_span s) ->
  s_events s' = s_events s -> accm s' i.
Proof. intros H E1 E2 E3 E4. eapply acq_up; [exact H|auto|auto|rewrite E4; apply esub_refl|]. rewrite E3. lia. Qed.
Lemma acc_in s s' i : acc s i -> i_ahead (s_in s') = i_ahead (s_in s) -> i_line (s_in s') = i_line (s_in s) -> pos s' = pos s ->
  s_events s' = s_events s -> acc s' i.
Proof. intros H E1 E2 E3 E4. eapply acq_up; [exact H|auto|auto|rewrite E4; apply esub_refl|]. rewrite E3. lia. Qed.

(** ** Lexer operations *)
Lemma peek_same i t i' : in_peek i = (t, i') -> i_ahead i' = i_ahead i /\ i_line i' = i_line i /\ i_span i' = i_span i.
Proof. unfold in_peek. destruct (lex_peek _). intros H. injection H as <- <-. auto. Qed.
Lemma s_peek_same s t s' : s_peek s = (t, s') -> exists i, s' = s_set_in s i /\ i_ahead i = i_ahead (s_in s) /\ i_line i = i_line (s_in s) /\ i_span i = i_span (s_in s).
Proof. unfold s_peek. destruct (in_peek _) as [t0 i] eqn:E. intros H. injection H as <- <-. exists i. split; [auto|]. exact (peek_same _ _ _ E). Qed.
Lemma eat_same i t i' : in_eat i = Ok (t, i') -> i_ahead i' = i_ahead i /\ i_line i' = i_line i /\ ss (i_span i') = ss (i_span i) /\ se (i_span i) <= se (i_span i').
Proof.
  unfold in_eat. intros H. apply bind_ok in H. destruct H as ([t0 l] & _ & H). assert (E : t = t0 /\ i' = match t0 with Some t => in_set_span (in_set_lex i l) (Sp (ss (i_span (in_set_lex i l))) (se (i_span (in_set_lex i l)) + tlen t)) | None => in_set_lex i l end) by (split; congruence).
  destruct E as [-> ->]. destruct t0; cbn; repeat split; auto; lia.
Qed.
Lemma raw_same i o i' : ahead_raw_format i = Ok (o, i') -> i_ahead i' = i_ahead i /\ i_line i' = i_line i /\ ss (i_span i') = ss (i_span i).
Proof.
  unfold ahead_raw_format. destruct (in_peek i) as [t i1] eqn:Ep. destruct (peek_same _ _ _ Ep) as (P1 & P2 & P3).
  assert (Hn : Ok (@None span, i1) = Ok (o, i') -> i_ahead i' = i_ahead i /\ i_line i' = i_line i /\ ss (i_span i') = ss (i_span i)).
  { intros H. injection H as <- <-. rewrite P1, P2, P3. auto. }
  destruct (peek_is_open _ _); [|exact Hn]. intros H. apply bind_ok in H. destruct H as (ah & _ & H). destruct (scan_until _ _) as [len stop].
  destruct (_ && _)%bool; [|apply Hn; exact H]. apply bind_ok in H. destruct H as ([t2 i2] & E2 & H). apply bind_ok in H. destruct H as (_ & _ & H).
  apply bind_ok in H. destruct H as (l & _ & H). destruct (eat_same _ _ _ E2) as (Q1 & Q2 & Q3 & Q4).
  assert (E : i' = in_set_lex i2 l) by congruence. subst i'. cbn. rewrite Q1, Q2, Q3, P1, P2, P3. auto.
Qed.

(** ** Changes of events in place *)
Lemma ecov_upd E n e e' : nth_error E n = Some e -> (forall i, cnt (ik e) = true -> inn i (isp e) -> cnt (ik e') = true /\ inn i (isp e')) -> esub E (upd E n e').
Proof.
  intros Hn He i Hi. destruct (upd_split E n e' e Hn) as [E1 E2]. rewrite E2. rewrite E1 in Hi. apply ecov_app in Hi. apply ecov_app. destruct Hi as [Hi|Hi]; [auto|right].
  apply ecov_cons in Hi. apply ecov_cons. destruct Hi as [[X Y]|Hi]; [left; auto|auto].
Qed.
Lemma set_kind_cov E n k w E' : set_kind E n k w = Ok E' -> cnt k = true -> esub E E'.
Proof.
  unfold set_kind. intros H Hk. apply bind_ok in H. destruct H as (e & He & H). apply get_at_ok in He. assert (E0 : E' = upd E n (IE k (isp e))) by congruence.
  subst E'. eapply ecov_upd; [exact He|]. cbn. auto.
Qed.

(** ** Atoms *)
Lemma ellipses_cov i : forall n s s', ellipses n s = Ok s' -> accm s i -> accm s' i /\ pos s' = pos s.
Proof.
  induction n as [|n IH]; intros s s' H Ha; [discriminate|]. cbn [ellipses] in H. destruct (Nat.leb 3 _).
  - match type of H with ellipses n ?S = _ => destruct (IH S s' H) as [X Y] end; [|split; [exact X|exact Y]].
    eapply acq_up; [exact Ha|reflexivity|reflexivity|apply esub_app|]. cbn [s_set_span s_set_in s_span s_in in_set_span i_span ss push_sp s_set_events s_events].
    intros H1 H2. apply ecov_app. right. apply ecov_cons. left. split; [reflexivity|]. split; cbn [ss se isp]; auto.
  - assert (s' = s) by congruence. subst. auto.
Qed.
Lemma dashes_cov i a w : forall n s, accm s i -> accm (push_dashes n w a s) i /\ ss (s_span (push_dashes n w a s)) = ss (s_span s) + n * w /\ pos (push_dashes n w a s) = pos s.
Proof.
  induction n as [|n IH]; intros s Ha; [cbn; split; [auto|split; [lia|auto]]|]. cbn [push_dashes].
  match goal with |- accm (push_dashes n w a ?S) i /\ _ => destruct (IH S) as (X & Y & Z) end.
  - eapply acq_up; [exact Ha|reflexivity|reflexivity|apply esub_app|]. cbn [s_set_span s_set_in s_span s_in in_set_span i_span ss push_sp s_set_events s_events].
    intros H1 H2. apply ecov_app. right. apply ecov_cons. left. split; [reflexivity|]. split; cbn [ss se isp]; auto.
  - split; [exact X|]. split; [rewrite Y; cbn [s_set_span s_set_in s_span s_in in_set_span i_span ss]; lia|exact Z].
Qed.
Lemma accm_acc s i : ss (s_span s) = pos s -> accm s i -> acc s i.
Proof. unfold accm, acc. intros ->. auto. Qed.
Definition out (src : bytes) (o : option flow) (s : istate) (i : nat) : Prop := passed src i \/ match o with None => accm s i | Some _ => acc s i end.
Lemma atom_cov src P lo hi W q first s o s' i : Mid src P lo hi W q first s -> parse_atom s first = Ok (o, s') -> accm s i ->
  match o with None => accm s' i | Some _ => acc s' i end.
Proof.
  intros HM H Ha. unfold parse_atom in H.
  assert (Hp : forall k, cnt k = true -> Ok (Some FContinue, push s k) = Ok (o, s') -> match o with None => accm s' i | Some _ => acc s' i end).
  { intros k Hk E. injection E as <- <-. apply acc_push; auto. }
  assert (Hn : Ok (@None flow, s) = Ok (o, s') -> match o with None => accm s' i | Some _ => acc s' i end) by (intros E; injection E as <- <-; auto).
  destruct (tk first) as [| | | | |d|d|y|sq] eqn:Ek; try (eapply Hp; [|exact H]; reflexivity); try (apply Hn; exact H);
    [destruct d|destruct d|destruct y|destruct sq]; try (eapply Hp; [|exact H]; reflexivity); try (apply Hn; exact H).
  - destruct (Nat.leb_spec 2 (tlen first)) as [H2|]; [|apply Hn; exact H]. destruct (C21_dash_counts (tlen first) H2) as (m & n & X & Y & _). rewrite X in H. cbn [bind] in H.
    injection H as <- <-. destruct (dashes_cov i IEmDash 3 m s Ha) as (A1 & A2 & A3). destruct (dashes_cov i IEnDash 2 n _ A1) as (B1 & B2 & B3).
    apply accm_acc; [|exact B1]. rewrite B2, B3, A2, A3. pose proof HM as [M1 M2 M3 M4 M5 M6 M7 M8 M9 Mlow Mbrk M10]. destruct M10 as (T1 & _); [congruence|]. rewrite T1, M4. lia.
  - apply bind_ok in H. destruct H as (s1 & E1 & H). injection H as <- <-. apply (ellipses_cov i _ _ _ E1 Ha).
Qed.

(** ** Automatic links, symbols, footnote references *)
Lemma autolink_cov src s first o s' i : ss (s_span s) <= pos s -> parse_autolink src s first = Ok (o, s') -> accm s i -> match o with None => accm s' i | Some _ => acc s' i end.
Proof.
  intros Hpos H Ha. unfold parse_autolink in H.
  assert (Hn : Ok (@None flow, s) = Ok (o, s') -> match o with None => accm s' i | Some _ => acc s' i end) by (intros E; injection E as <- <-; auto).
  destruct (tk first) as [| | | | |d|d|y|sq]; try (apply Hn; exact H). destruct y; try (apply Hn; exact H).
  apply bind_ok in H. destruct H as (ah & _ & H). destruct (scan_until _ _) as [len stop]. destruct (_ && _)%bool; [|apply Hn; exact H].
  apply bind_ok in H. destruct H as (l & _ & H). apply bind_ok in H. destruct H as (url & _ & H).
  change (se (s_span (s_set_lex s l))) with (pos s) in H. destruct (okp _ _ _ _ H) as [-> ->].
  eapply acq_up; [exact Ha|reflexivity|reflexivity| |].
  - do 3 (eapply esub_trans; [|apply esub_app]). apply esub_refl.
  - intros H1 H2. unfold push, push_sp. cbn [s_set_span s_set_in s_span s_in in_set_span i_span ss s_set_events s_events s_set_lex in_set_lex].
    rewrite !ecov_app, !ecov_cons. cbn [ik isp cnt]. unfold PCov1.inn. cbn [ss se].
    unfold pos in H2 at 1. cbn [push push_sp s_set_span s_set_in s_span s_in in_set_span i_span se s_set_events] in H2. unfold pos, s_span in *. unfold s_span in H1. cbn in H1, H2.
    destruct (Nat.lt_ge_cases i (se (i_span (s_in s)))); [left; left; right; left; auto|].
    destruct (Nat.lt_ge_cases i (se (i_span (s_in s)) + len)); [left; right; left; auto|]. right. left. split; [auto|lia].
Qed.
Lemma symbol_cov src s first o s' i : parse_symbol src s first = Ok (o, s') -> accm s i -> match o with None => accm s' i | Some _ => acc s' i end.
Proof.
  intros H Ha. unfold parse_symbol in H.
  assert (Hn : Ok (@None flow, s) = Ok (o, s') -> match o with None => accm s' i | Some _ => acc s' i end) by (intros E; injection E as <- <-; auto).
  destruct (tk first) as [| | | | |d|d|y|sq]; try (apply Hn; exact H). destruct y; try (apply Hn; exact H).
  apply bind_ok in H. destruct H as (ah & _ & H). destruct (scan_until _ _) as [len stop]. destruct (_ && _)%bool; [|apply Hn; exact H].
  apply bind_ok in H. destruct H as (l & _ & H). apply bind_ok in H. destruct H as (url & _ & H). destruct (okp _ _ _ _ H) as [-> ->].
  apply acc_push; [reflexivity|]. eapply accm_in; [exact Ha|reflexivity|reflexivity|reflexivity|reflexivity].
Qed.
Lemma footnote_cov src s first o s' i : parse_footnote_reference src s first = Ok (o, s') -> accm s i -> match o with None => accm s' i | Some _ => acc s' i end.
Proof.
  intros H Ha. unfold parse_footnote_reference in H.
  assert (Hn : Ok (@None flow, s) = Ok (o, s') -> match o with None => accm s' i | Some _ => acc s' i end) by (intros E; injection E as <- <-; auto).
  destruct (tk first) as [| | | | |d|d|y|sq]; try (apply Hn; exact H). destruct d; try (apply Hn; exact H). clear Hn.
  destruct (s_peek s) as [t s1] eqn:Ep. destruct (s_peek_same _ _ _ Ep) as (i1 & -> & P1 & P2 & P3).
  assert (Ha1 : accm (s_set_in s i1) i) by (eapply accm_in; [exact Ha|exact P1|exact P2|unfold s_span; cbn; rewrite P3; reflexivity|reflexivity]).
  assert (Hn : Ok (@None flow, s_set_in s i1) = Ok (o, s') -> match o with None => accm s' i | Some _ => acc s' i end) by (intros E; destruct (okp _ _ _ _ E) as [-> ->]; auto).
  destruct t as [[k n]|]; [|apply Hn; exact H]. destruct k as [| | | | |d|d|y|sq]; try (apply Hn; exact H). destruct y; try (apply Hn; exact H). clear Hn.
  apply bind_ok in H. destruct H as ([t2 i2] & E2 & H). cbn [s_set_in s_in] in E2. destruct (eat_same _ _ _ E2) as (Q1 & Q2 & Q3 & Q4).
  apply bind_ok in H. destruct H as (_ & _ & H). apply bind_ok in H. destruct H as (ah & _ & H). destruct (scan_until _ _) as [len stop].
  assert (Ha2 : accm (s_set_in (s_set_in s i1) i2) i) by (eapply accm_in; [exact Ha1|exact Q1|exact Q2|exact Q3|reflexivity]).
  destruct (stopped_at stop "]").
  - apply bind_ok in H. destruct H as (l & _ & H). apply bind_ok in H. destruct H as (lab & _ & H). destruct (okp _ _ _ _ H) as [-> ->].
    apply acc_push; [reflexivity|]. eapply accm_in; [exact Ha2|reflexivity|reflexivity|reflexivity|reflexivity].
  - destruct (okp _ _ _ _ H) as [-> ->]. exact Ha2.
Qed.
Lemma open_cov src s first o s' i : try_open src s first = Ok (o, s') -> accm s i -> match o with None => accm s' i | Some _ => acc s' i end.
Proof.
  intros H Ha. unfold try_open in H.
  assert (Hn : Ok (@None flow, s) = Ok (o, s') -> match o with None => accm s' i | Some _ => acc s' i end) by (intros E; destruct (okp _ _ _ _ E) as [-> ->]; auto).
  destruct (opener_of (tk first)) as [op|]; [|apply Hn; exact H]. apply bind_ok in H. destruct H as (ah & _ & H).
  destruct (_ && _)%bool; [apply Hn; exact H|]. apply bind_ok in H. destruct H as (wsb & _ & H). destruct (_ && _ && _)%bool; [apply Hn; exact H|].
  destruct (okp _ _ _ _ H) as [-> ->]. apply acc_push; [destruct op; reflexivity|].
  eapply acq_up; [exact Ha|reflexivity|reflexivity|apply esub_app|unfold s_span; cbn; lia].
Qed.
