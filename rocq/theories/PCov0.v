(** * PCov0: what the operations on lines take away *)
From Verif Require Import Base Lex Attr Block Lib PSafe SpecAttr PAttr SpecBlock PBlock1 PBlock2 PLex PBlock3 PMark PBlock4 PTab0 PTable PTree6 Doc SpecCover.
Local Open Scope nat_scope.

(** Line prefixes made of white space and [>]. *)
Definition quote_char (c : ascii) : bool := is_ws c || beq c ">".
Definition clean (src : bytes) (x : nat) : Prop :=
  exists k, k <= x /\ line_start src k /\ forall j, k <= j -> j < x -> exists c, nth_error src j = Some c /\ quote_char c = true.
Lemma quote_margin c : quote_char c = true -> margin_char c = true.
Proof. unfold quote_char, margin_char. intros H. rewrite H. reflexivity. Qed.
(** From [a] to [b] there are only bytes in [p]. *)
Definition gap (src : bytes) (p : ascii -> bool) (a b : nat) : Prop := forall j, a <= j -> j < b -> exists c, nth_error src j = Some c /\ p c = true.
Lemma gap_sub src p a b a' b' : gap src p a b -> a <= a' -> b' <= b -> gap src p a' b'.
Proof. intros H H1 H2 j H3 H4. apply H; lia. Qed.
Lemma gap_join src p a b c : gap src p a b -> gap src p b c -> gap src p a c.
Proof. intros H1 H2 j H3 H4. destruct (Nat.lt_ge_cases j b); [apply H1|apply H2]; lia. Qed.
Lemma gap_impl src (p q : ascii -> bool) a b : (forall c, p c = true -> q c = true) -> gap src p a b -> gap src q a b.
Proof. intros H G j H1 H2. destruct (G j H1 H2) as (c & Hc & Hp). eauto. Qed.
Lemma gap_nil src p a b : b <= a -> gap src p a b.
Proof. intros H j H1 H2. lia. Qed.
Lemma clean_gap src x y : clean src x -> x <= y -> gap src quote_char x y -> clean src y.
Proof. intros (k & H1 & H2 & H3) Hy G. exists k. split; [lia|]. split; [auto|]. apply (gap_join src quote_char k x y); auto. Qed.
Lemma clean_margin src x y i : clean src x -> gap src margin_char x y -> x <= i -> i < y -> margin src i.
Proof.
  intros (k & H1 & H2 & H3) G Hx Hy. exists k. split; [lia|]. split; [auto|]. intros j J1 J2. destruct (Nat.lt_ge_cases j x) as [Hj|Hj].
  - destruct (H3 j J1 Hj) as (c & Hc & Hq). exists c. split; [auto|]. apply quote_margin; auto.
  - apply G; lia.
Qed.
Lemma gap_white src a b i : gap src is_ws a b -> a <= i -> i < b -> white src i.
Proof. intros G H1 H2. apply G; auto. Qed.

(** Prefixes and suffixes of a range as gaps. *)
Lemma gap_firstn src p sp n : span_ok src sp -> n <= se sp - ss sp -> forallb p (firstn n (slice src sp)) = true -> gap src p (ss sp) (ss sp + n).
Proof.
  intros Hs Hn H j H1 H2. pose proof (span_ok_len src sp Hs) as Hl.
  assert (E : nth_error (slice src sp) (j - ss sp) = nth_error src j) by (rewrite slice_nth by lia; f_equal; lia).
  destruct (nth_error (slice src sp) (j - ss sp)) as [c|] eqn:Ec; [|apply nth_error_None in Ec; lia]. exists c. split; [auto|].
  rewrite forallb_forall in H. apply H. apply (nth_error_In _ (j - ss sp)). rewrite nth_error_firstn by lia. exact Ec.
Qed.
Lemma gap_skipn src p sp n : span_ok src sp -> forallb p (skipn n (slice src sp)) = true -> gap src p (ss sp + n) (se sp).
Proof.
  intros Hs H j H1 H2. pose proof (span_ok_len src sp Hs) as Hl.
  assert (E : nth_error (slice src sp) (j - ss sp) = nth_error src j) by (rewrite slice_nth by lia; f_equal; lia).
  destruct (nth_error (slice src sp) (j - ss sp)) as [c|] eqn:Ec; [|apply nth_error_None in Ec; lia]. exists c. split; [auto|].
  rewrite forallb_forall in H. apply H. apply (nth_error_In _ (j - ss sp - n)). rewrite nth_error_skipn. replace (n + (j - ss sp - n)) with (j - ss sp) by lia. exact Ec.
Qed.
Lemma gap_slice src p a b : a <= b -> b <= length src -> forallb p (slice src (Sp a b)) = true -> gap src p a b.
Proof.
  intros Ha Hb H j H1 H2. assert (E : nth_error (slice src (Sp a b)) (j - a) = nth_error src j) by (rewrite slice_nth by (cbn; lia); cbn [ss]; f_equal; lia).
  destruct (nth_error src j) as [c|] eqn:Ec; [|apply nth_error_None in Ec; lia]. exists c. split; [auto|]. rewrite forallb_forall in H. apply H. eapply nth_error_In; eauto.
Qed.

(** ** Trimming *)
Lemma trim_start_gap src sp y : wfb src -> span_ok src sp -> sp_trim_start src sp = Ok y -> ss sp <= ss y /\ ss y <= se y /\ se y = se sp /\ gap src is_ws (ss sp) (ss y) /\ span_ok src y.
Proof.
  intros Hw Hs E. destruct (sp_trim_start_ok src sp Hw Hs) as [E' Hy]. rewrite E' in E. apply okp1 in E. subst y. cbn [ss se].
  pose proof (count_while_le is_ws (slice src sp)) as Hc. rewrite (span_ok_len src sp Hs) in Hc. assert (ss sp <= se sp) by apply Hs.
  split; [lia|]. split; [lia|]. split; [auto|]. split; [|exact Hy]. apply gap_firstn; auto. apply count_while_firstn.
Qed.
Lemma trim_end_gap src sp y : wfb src -> span_ok src sp -> sp_trim_end src sp = Ok y -> ss y = ss sp /\ ss y <= se y /\ se y <= se sp /\ gap src is_ws (se y) (se sp).
Proof.
  intros Hw Hs E. unfold sp_trim_end in E. rewrite span_ok_ssub in E by auto. cbn [bind] in E. apply okp1 in E. subst y. cbn [ss se].
  destruct (trim_end_spec is_ws (slice src sp)) as (t & Et & Ht & _). pose proof (trim_end_le is_ws (slice src sp)) as Hle. rewrite (span_ok_len src sp Hs) in Hle.
  assert (ss sp <= se sp) by apply Hs. split; [auto|]. split; [lia|]. split; [lia|]. apply gap_skipn; auto. rewrite Et at 2. rewrite skipn_app, skipn_all2, Nat.sub_diag by lia. exact Ht.
Qed.
Lemma unindent_gap src n sp y : span_ok src sp -> unindent src n sp = Ok y -> ss sp <= ss y /\ ss y <= se y /\ se y = se sp /\ gap src is_ws (ss sp) (ss y).
Proof.
  intros Hs E. unfold unindent in E. rewrite span_ok_bsub in E by auto. cbn [bind] in E. apply okp1 in E. subst y. cbn [ss se].
  pose proof (count_while_le ws_not_nl (slice src sp)) as Hc. rewrite (span_ok_len src sp Hs) in Hc. assert (ss sp <= se sp) by apply Hs.
  split; [lia|]. split; [lia|]. split; [auto|]. eapply gap_sub; [apply (gap_firstn src is_ws sp (count_while ws_not_nl (slice src sp))); auto| |].
  - eapply forallb_impl; [|apply count_while_firstn]. apply ws_not_nl_ws.
  - lia.
  - lia.
Qed.
Lemma heading_cont_gap src lv sp y : span_ok src sp -> heading_cont src lv sp = Ok y -> ss sp <= ss y /\ ss y <= se y /\ se y = se sp /\ gap src margin_char (ss sp) (ss y).
Proof.
  intros Hs. unfold heading_cont. rewrite span_ok_bsub by auto. cbn [bind]. pose proof (span_ok_len src sp Hs) as Hlen. assert (Hle : ss sp <= se sp) by apply Hs.
  set (l := slice src sp) in *. set (a := count_while is_ws l). set (l1 := skipn a l). set (h := count_while (fun c => beq c "#") l1).
  set (l2 := skipn h l1). set (w := count_while is_ws l2). destruct (Nat.ltb 0 w).
  2:{ intros E. apply okp1 in E. subst y. split; [auto|]. split; [auto|]. split; [auto|]. apply gap_nil. auto. }
  intros E. apply bind_ok in E. destruct E as (? & _ & E). apply okp1 in E. subst y. cbn [ss se]. unfold sp_len.
  pose proof (count_while_le is_ws l) as Q1. pose proof (count_while_le (fun c => beq c "#") l1) as Q2. pose proof (count_while_le is_ws l2) as Q3. fold a in Q1. fold h in Q2. fold w in Q3.
  assert (L1 : length l1 = length l - a) by apply skipn_length. assert (L2 : length l2 = length l1 - h) by apply skipn_length.
  assert (L3 : length (skipn w l2) = length l2 - w) by apply skipn_length. rewrite L3.
  split; [lia|]. split; [lia|]. split; [auto|]. replace (ss sp + (se sp - ss sp - (length l2 - w))) with (ss sp + (a + h + w)) by lia.
  apply gap_firstn; auto; [lia|]. fold l.
  assert (E : firstn (a + h + w) l = firstn a l ++ firstn h l1 ++ firstn w l2).
  { rewrite <- (firstn_skipn a l) at 1. fold l1. rewrite firstn_app, firstn_firstn, firstn_length. replace (Nat.min (a + h + w) a) with a by lia. apply f_equal.
    replace (a + h + w - Nat.min a (length l)) with (h + w) by lia. rewrite <- (firstn_skipn h l1) at 1. fold l2. rewrite firstn_app, firstn_firstn, firstn_length.
    replace (Nat.min (h + w) h) with h by lia. apply f_equal. f_equal. lia. }
  rewrite E, !forallb_app.
  rewrite (forallb_impl is_ws margin_char (firstn a l)), (forallb_impl (fun c => beq c "#") margin_char (firstn h l1)), (forallb_impl is_ws margin_char (firstn w l2)); auto.
  - intros c Hc. unfold margin_char. rewrite Hc. reflexivity.
  - apply count_while_firstn.
  - intros c Hc. unfold margin_char. rewrite Hc. rewrite !orb_true_r. reflexivity.
  - apply count_while_firstn.
  - intros c Hc. unfold margin_char. rewrite Hc. reflexivity.
  - apply count_while_firstn.
Qed.
Lemma cont_line_gap src k ol sp y : span_ok src sp -> cont_line src k ol sp = Ok y -> ss sp <= ss y /\ ss y <= se y /\ se y = se sp /\ gap src quote_char (ss sp) (ss y).
Proof.
  intros Hs. unfold cont_line. rewrite span_ok_ssub by auto. cbn [bind]. pose proof (span_ok_len src sp Hs) as Hlen. assert (Hle : ss sp <= se sp) by apply Hs.
  set (l := slice src sp) in *. intros E. apply bind_ok in E. destruct E as (skip & Ek & E). apply okp1 in E. subst y. cbn [ss se].
  pose proof (count_while_le (fun c => negb (beq c NL)) l) as Hn. set (nl := count_while (fun c => negb (beq c NL)) l) in *.
  split; [lia|]. split; [lia|]. split; [auto|].
  set (ws := match trim_m is_ws l with [] => 0 | _ :: _ => length l - length (trim_start_m is_ws l) end) in *.
  assert (Hws : ws <= count_while is_ws l) by (unfold ws; rewrite trim_start_len; pose proof (count_while_le is_ws l); destruct (trim_m is_ws l); lia).
  pose proof (count_while_le is_ws l) as Hcl.
  assert (Hws2 : forall x, x <= ws -> gap src quote_char (ss sp) (ss sp + x)).
  { intros x Hx. eapply gap_sub; [apply (gap_firstn src quote_char sp (count_while is_ws l)); auto; [lia|]| |lia]; [|lia].
    eapply forallb_impl; [|apply count_while_firstn]. intros c Hc. unfold quote_char. rewrite Hc. reflexivity. }
  destruct k; try discriminate Ek; try (apply okp1 in Ek; subst skip; apply Hws2; lia).
  assert (Ht : forall r, trim_m is_ws l = ">"%char :: r -> ws = count_while is_ws l /\ nth_error l ws = Some ">"%char /\
     (forall c r', r = c :: r' -> nth_error l (ws + 1) = Some c)).
  { intros r Hr. unfold ws. rewrite Hr. rewrite trim_start_len. assert (Hx : length l - (length l - count_while is_ws l) = count_while is_ws l) by lia. rewrite Hx. split; [auto|].
    destruct (trim_m_prefix l) as (u & Hu & _). rewrite Hr, trim_start_skipn in Hu. cbn [app] in Hu. destruct (skipn_cons_nth _ _ _ _ Hu) as [N1 N2]. split; [auto|].
    intros c r' ->. cbn [app] in N2. symmetry in N2. destruct (skipn_cons_nth _ _ _ _ N2) as [N3 _]. rewrite Nat.add_1_r. exact N3. }
  assert (Hq : forall r, trim_m is_ws l = ">"%char :: r -> gap src quote_char (ss sp) (ss sp + (ws + 1))).
  { intros r Hr. destruct (Ht r Hr) as (T1 & T2 & _). intros j J1 J2. destruct (Nat.eq_dec j (ss sp + ws)) as [->|Hj]; [|apply (Hws2 ws); lia].
    exists ">"%char. split; [|reflexivity]. rewrite <- T2. unfold l. rewrite slice_nth; [auto|]. assert (ws < length l) by (apply nth_error_Some; congruence). lia. }
  destruct (bytes_eqb (trim_m is_ws l) (B ">")) eqn:E1.
  - apply okp1 in Ek. subst skip. apply bytes_eqb_eq in E1. eapply gap_sub; [apply (Hq [] E1)| |]; lia.
  - clearbody ws. destruct (trim_m is_ws l) as [|x r] eqn:Et; cbn [starts_c andb skipn] in Ek; [apply okp1 in Ek; subst skip; apply gap_nil; lia|].
    destruct (beq x ">" && hd_is is_ws r)%bool eqn:E2; apply okp1 in Ek; subst skip; [|apply gap_nil; lia].
    apply andb_prop in E2. destruct E2 as [E2 E3]. apply beq_eq in E2. subst x. destruct (Ht r eq_refl) as (T1 & T2 & T3). destruct r as [|c r]; [discriminate|]. cbn in E3.
    specialize (T3 c r eq_refl). intros j J1 J2. destruct (Nat.eq_dec j (ss sp + (ws + 1))) as [->|Hj]; [|apply (Hq _ eq_refl); lia].
    exists c. split; [|unfold quote_char; rewrite E3; reflexivity]. rewrite <- T3. unfold l. rewrite slice_nth; [auto|]. assert (ws + 1 < length l) by (apply nth_error_Some; congruence). lia.
Qed.

(** ** Around the marker of a block *)
Lemma identify_around l k sp : identify l = Ok (k, sp) -> (forall i, S i < length l -> nth_error l i <> Some NL) ->
  forallb is_ws (firstn (ss sp) l) = true /\ match k with KAtom _ | KFenced _ _ _ _ _ _ => forallb is_ws (skipn (se sp) l) = true | _ => True end.
Proof.
  intros H Hone. revert H. unfold identify. set (n := count_while ws_not_nl l).
  assert (Hline : trim_start_m ws_not_nl l = skipn n l) by apply trim_start_skipn.
  assert (Hn : n <= length l) by apply count_while_le.
  assert (Hind : length l - length (trim_start_m ws_not_nl l) = n) by (rewrite trim_start_len; fold n; qlia).
  rewrite Hind, Hline. pose proof (skipn_length n l) as Hll.
  assert (Hf : forallb is_ws (firstn n l) = true) by (eapply forallb_impl; [|apply count_while_firstn]; apply ws_not_nl_ws).
  set (Q := forallb is_ws (firstn (ss sp) l) = true /\ match k with KAtom _ | KFenced _ _ _ _ _ _ => forallb is_ws (skipn (se sp) l) = true | _ => True end).
  assert (Hgen : forall k' e, Ok (k', Sp n e) = Ok (k, sp) -> match k' with KAtom _ | KFenced _ _ _ _ _ _ => forallb is_ws (skipn e l) = true | _ => True end -> Q).
  { intros k' e [-> ->]%okp He. split; [exact Hf|exact He]. }
  assert (Hpara : Ok (KParagraph, Sp n n) = Ok (k, sp) -> Q) by (intros H; eapply Hgen; [exact H|exact I]).
  assert (Hall : forall m, length l <= m -> forallb is_ws (skipn m l) = true) by (intros m Hm; rewrite skipn_all2 by lia; reflexivity).
  destruct (skipn n l) as [|first chars] eqn:El.
  { intros H. eapply Hgen; [exact H|]. apply Hall. cbn in Hll. qlia. }
  cbn [length] in Hll.
  destruct (beq first NL) eqn:E1.
  { intros H. eapply Hgen; [exact H|]. apply Hall. apply beq_eq in E1. subst first. destruct (skipn_cons_nth _ _ _ _ El) as [N1 _].
    destruct (Nat.lt_ge_cases (S n) (length l)) as [X|X]; [exfalso; apply (Hone n X); exact N1|qlia]. }
  destruct (beq first "#"). { destruct (hd_none_or _ _); [|exact Hpara]. intros H. eapply Hgen; [exact H|exact I]. }
  destruct (beq first ">"). { destruct (hd_none_or _ _); [|exact Hpara]. intros H. eapply Hgen; [exact H|exact I]. }
  destruct (beq first "{").
  { intros H. apply bind_ok in H. destruct H as (v & _ & H). destruct (Nat.eqb v _); [|exact (Hpara H)]. eapply Hgen; [exact H|]. apply Hall. cbn [length]. qlia. }
  destruct (beq first "|"). { destruct (_ && _)%bool; [|exact Hpara]. intros H. eapply Hgen; [exact H|exact I]. }
  destruct (beq first "[").
  { destruct (position _ _) as [m|]; [|exact Hpara]. destruct (starts_c _ _); [|exact Hpara]. intros [-> ->]%okp. split; [reflexivity|exact I]. }
  destruct ((beq first "-" || beq first "*") && is_thematic_break chars)%bool.
  { intros H. eapply Hgen; [exact H|]. rewrite <- (skipn_skipn (length (trim_end_m is_ws (first :: chars))) n l), El.
    destruct (trim_end_spec is_ws (first :: chars)) as (t & Et & Ht & _). rewrite Et at 2. rewrite skipn_app, skipn_all, Nat.sub_diag. exact Ht. }
  destruct (beq first "-" || beq first "*" || beq first "+")%bool.
  { destruct (hd_none_or _ _); [|exact Hpara]. match goal with |- context [if ?b then _ else _] => destruct b end; intros H; (eapply Hgen; [exact H|exact I]). }
  destruct (beq first ":" && hd_none_or is_ws chars)%bool. { intros H. eapply Hgen; [exact H|exact I]. }
  destruct (beq first "`" || beq first ":" || beq first "~")%bool.
  { match goal with |- context [if (?a && ?b)%bool then _ else _] => destruct (a && b)%bool end; [|exact Hpara]. intros H. eapply Hgen; [exact H|]. apply Hall. cbn [length]. qlia. }
  intros H. apply bind_ok in H. destruct H as (o & _ & H). destruct o as [[[num style] len]|]; [|exact (Hpara H)]. eapply Hgen; [exact H|exact I].
Qed.
