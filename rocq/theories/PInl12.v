(** * PInl12: feeding, draining and resetting the inline parser *)
From Verif Require Import Base Lex Attr Block Inline Doc SpecLex Lib SpecAttr PAttr PAttr3 PAttr4 PSafe PBlock2 PLex PBlock3 PBlock4 PInl1 PInl2 PInl3 PInl4 PInl5 PInl6 PInl7 PInl8 PInl9 PInl10 PInl11.
Local Open Scope nat_scope.

(** ** Fuel *)
Lemma runs_wsum src nc al s E s' : runs src nc al s E s' -> wsum E + e_lo s <= 2 * length E + e_lo s'.
Proof.
  induction 1 as [s|s e s1 E s2 H1 H2 IH]; cbn [wsum length]; [lia|].
  assert (iwt e + e_lo s <= 2 + e_lo s1); [|lia].
  inversion H1; subst; unfold iwt, sp_len; cbn; try (destruct b; lia); match goal with H : span_ok _ _ |- _ => destruct H as (? & _) end; lia.
Qed.
Lemma bal_wsum src nc al a E b : bal src nc al a E b -> wsum E + a <= 2 * length E + b.
Proof. intros (m & H1 & H2). apply runs_wsum in H2. cbn in H2. lia. Qed.
Definition W0 (src : bytes) (s : istate) : nat := wsum (s_events s) + 1 + 4 * (length src - pos s).
Lemma Run_pos src P hi W est s : Run src P hi W est s -> pos s <= length src.
Proof.
  intros [(lo & _ & H)|H]; [eapply Act_pos; eauto|]. destruct (li_span (em_lex _ _ _ _ _ _ H)) as (X1 & X2 & _). cbn in X1, X2. change (se (i_span (s_in s))) with (pos s) in X1. lia.
Qed.
Lemma Run_fuel src P hi W est s : Run src P hi W est s -> W0 src s < next_fuel src s.
Proof.
  intros HR. pose proof (Run_pos _ _ _ _ _ _ HR) as Hp. unfold W0, next_fuel.
  assert (Hb : wsum (s_events s) <= 2 * length (s_events s) + pos s); [|lia].
  destruct HR as [(lo & _ & [[H|[v H]]|[st H]])|H].
  - destruct H as [_ _ _ R4 _ _]. apply zip_bal, bal_wsum in R4. lia.
  - destruct H as [_ _ _ (A & a & ph & ty & sp & Z & Ev & J1 & J2 & J3 & J4 & J5 & J6 & J7 & Jo & J8 & J9 & J10) _]. rewrite Ev, wsum_app, app_length. cbn [wsum length].
    apply zip_bal, bal_wsum in J2. apply bal_wsum in J9. destruct J6 as (J6 & _). unfold iwt. cbn [ik]. lia.
  - destruct H as [_ _ _ R4 _ _ _ _ _ _]. apply zip_bal, bal_wsum in R4. lia.
  - destruct H as [_ _ _ (m & R4 & R5) _ _]. apply runs_wsum in R4. cbn in R4. lia.
Qed.
Lemma Run_tight src P hi W est s : Run src P hi W est s -> Run src P hi (Nat.min W (W0 src s)) est s.
Proof.
  unfold W0. intros [(lo & E & [[[R1 R2 R3 R4 R5 R6]|[v [V1 V2 V3 V4 V5]]]|[st [W1 W2 W3 W4 W5 W6 W7 W8 W9 W10]]])|[E1 E2 E3 E4 E5 E6]].
  - left. exists lo. split; [auto|]. left. left. constructor; auto; lia.
  - left. exists lo. split; [auto|]. left. right. exists v. constructor; auto; lia.
  - left. exists lo. split; [auto|]. right. exists st. constructor; auto; lia.
  - right. constructor; auto; lia.
Qed.
Lemma inline_next_ok src P hi W est s : wfb src -> Run src P hi W est s ->
  exists r, inline_next src s = Ok r /\ NextP src P hi W est s r.
Proof.
  intros Hw HR. unfold inline_next. pose proof (Run_fuel _ _ _ _ _ _ HR) as Hf.
  destruct (next_ok src P hi Hw (next_fuel src s) (fill_fuel src s) (Nat.min W (W0 src s)) est s (Run_tight _ _ _ _ _ _ HR)) as ([o s'] & Er & H1 & H2 & H3); [lia|unfold fill_fuel; lia|].
  exists (o, s'). split; [auto|]. split; [auto|]. split; [auto|]. destruct o as [e|].
  - destruct H3 as (lo1 & est' & W' & A1 & A2 & A3 & A4). exists lo1, est', W'. repeat (split; [auto; lia|]). auto.
  - destruct H3 as (lo & A1 & A2 & A3 & A4). exists lo. repeat (split; [auto|]). destruct A4 as [A4|(A4 & A5 & A6)].
    + left. eapply Wait_mono; eauto. lia.
    + right. split; [auto|]. split; [eapply Emt_mono; eauto; lia|auto].
Qed.

(** ** Feeding *)
Record Idle (s : istate) : Prop := mkIdle {
  id_ev : s_events s = [];
  id_verb : s_verb s = None;
  id_attr : s_attr s = None;
  id_wf : lex_wf (i_lex (s_in s));
  id_rest : lx_rest (i_lex (s_in s)) = [];
  id_ahead : i_ahead (s_in s) = []
}.
Record Fresh (s : istate) : Prop := mkFresh {
  fr_idle : Idle s;
  fr_op : s_openers s = [];
  fr_compl : i_complete (s_in s) = false
}.
Lemma Idle_new : Idle i_new.
Proof. constructor; try reflexivity. apply lex_wf_new. Qed.
Lemma reset_ok s : Idle s -> exists s', i_reset s = Ok s' /\ Fresh s'.
Proof.
  intros [I1 I2 I3 I4 I5 I6]. unfold i_reset. rewrite I1, I2, I3. cbn [is_nil is_none assert bind]. eexists. split; [reflexivity|].
  constructor; [constructor|reflexivity|reflexivity]; try reflexivity. apply lex_wf_new.
Qed.
Lemma Emt_Idle src P hi W est s : Emt src P hi W est s -> s_events s = [] -> Idle s.
Proof.
  intros [E1 E2 E3 E4 E5 E6] He. constructor; auto; try apply E1; (destruct E6 as [E6|E6]; [apply E6|]);
    unfold must_buffer in E6; rewrite He in E6; discriminate.
Qed.
(** Nothing comes from an idle parser. *)
Lemma Idle_next src s : Idle s -> exists s', inline_next src s = Ok (None, s') /\ Idle s' /\ (Fresh s -> Fresh s').
Proof.
  intros [I1 I2 I3 I4 I5 I6]. unfold inline_next, next_fuel, fill_fuel. generalize (S (2 * length (s_events s) + 4 * S (length src))) (S (S (length src + length (i_ahead (s_in s))))).
  intros n nf. cbn [i_next fill].
  replace (must_buffer s) with true by (unfold must_buffer; rewrite I1; reflexivity). unfold parse_event. change (s_in (s_set_in s ?i)) with i.
  unfold in_eat. change (i_lex (in_reset_span (s_in s))) with (i_lex (s_in s)). destruct (lex_next_ok _ I4) as (o & l' & -> & Hs & Hv & Hwf & Ho). cbn [bind].
  destruct o as [t|].
  { destruct Ho as ((T1 & T2 & _) & _). rewrite I5 in T2. cbn in T2. lia. }
  destruct Ho as (R1 & R2 & R3 & R4).
  change (s_set_in (s_set_in s (in_reset_span (s_in s))) ?x) with (s_set_in s x).
  set (i := in_set_lex (in_reset_span (s_in s)) l').
  assert (HI : Idle (s_set_in s i)).
  { constructor; auto. }
  assert (HF : Fresh s -> Fresh (s_set_in s i)).
  { intros [_ F1 F2]. constructor; auto. }
  destruct (in_last (s_in (s_set_in s i))); cbn beta iota; cbn [bind].
  - cbn [bind]. unfold close_verbatim. change (s_verb (s_set_in s i)) with (s_verb s). rewrite I2. cbn [bind]. change (s_events (s_set_in s i)) with (s_events s). rewrite I1. eexists. split; [reflexivity|split; [exact HI|exact HF]].
  - change (i_ahead (s_in (s_set_in s i))) with (i_ahead (s_in s)). rewrite I6. cbn [bind]. eexists. split; [reflexivity|split; [exact HI|exact HF]].
Qed.

Definition fed (src : bytes) (lo : nat) (L : list span) (hi : nat) : Prop := Forall (span_ok src) L /\ chain lo L hi /\ eolsx src L.
Lemma fresh_feed src lo x P hi s : Fresh s -> fed src lo (x :: P) hi ->
  exists s', i_feed_line src s x (is_nil P) = Ok s' /\ Act src P lo hi (4 * length src) s' /\ ext s s' /\ pos s' = ss x.
Proof.
  intros [[I1 I2 I3 I4 I5 I6] F1 F2] (H1 & H2 & H3). inversion H1 as [|? ? Hx HP]; subst. destruct H2 as (C1 & C2 & C3).
  unfold i_feed_line, in_feed_line. rewrite F2. cbn [negb assert bind]. change (i_lex (in_set_complete (s_in s) (is_nil P))) with (i_lex (s_in s)).
  rewrite (lex_ahead_ok _ I4), I5. cbn [bind]. change (i_ahead (in_set_complete (s_in s) (is_nil P))) with (i_ahead (s_in s)). rewrite I6.
  unfold set_current_line. rewrite span_ok_bsub by auto. cbn [bind]. eexists. split; [reflexivity|].
  split; [|split; [apply ext_same; reflexivity|reflexivity]]. left. left. 
  set (i := In _ _ _ _ _). assert (Hp : pos (s_set_in s i) = ss x) by reflexivity.
  constructor; auto.
  - constructor; cbn [s_set_in s_in i i_span i_lex i_line i_ahead i_complete ss se in_set_complete]; rewrite ?I6; cbn [app]; rewrite ?span_eta; auto using lex_wf_new.
  - unfold evz. cbn [s_set_in s_events s_openers s_cow s_attrs]. rewrite I1, F1, Hp. constructor. apply bal_nil. auto.
  - cbn [s_set_in s_events]. rewrite I1. exact I.
  - cbn [s_set_in s_events]. rewrite I1, Hp. cbn. lia.
Qed.

Lemma LexI_feed src x P hi i : LexI src (x :: P) hi i ->
  LexI src P hi (in_set_ahead (in_set_complete i (is_nil P)) (i_ahead i ++ [x])).
Proof.
  intros [L1 L2 L3 L4 L5 L6 L7 L8]. constructor; cbn [in_set_ahead in_set_complete i_span i_lex i_line i_ahead i_complete]; auto; rewrite <- app_assoc; auto.
Qed.
Lemma wait_feed src lo x P hi W s : wfb src -> Wait src (x :: P) lo hi W s ->
  exists s', i_feed_line src s x (is_nil P) = Ok s' /\ Act src P lo hi W s' /\ ext s s'.
Proof.
  intros Hw [_ HW]. unfold i_feed_line, in_feed_line.
  assert (HL : LexI src (x :: P) hi (s_in s)) by (destruct HW as [([H|[v H]] & _)|[st H]]; apply H).
  rewrite (li_compl HL). cbn [is_nil negb assert bind]. change (i_lex (in_set_complete (s_in s) (is_nil P))) with (i_lex (s_in s)).
  rewrite (lex_ahead_ok _ (li_wf HL)). cbn [bind]. change (i_ahead (in_set_complete (s_in s) (is_nil P))) with (i_ahead (s_in s)).
  destruct HW as [(HB & Hr & Ha)|[st HW]].
  - rewrite Hr, Ha.
    destruct (set_current_ok src P hi _ x [] (LexI_feed _ _ _ _ _ HL)) as (i & E & HL' & J1 & J2 & J3 & J4).
    { cbn [in_set_ahead i_ahead]. rewrite Ha. reflexivity. }
    assert (E' : set_current_line src (in_set_complete (s_in s) (is_nil P)) x = Ok i).
    { rewrite <- E. unfold set_current_line. cbn [in_set_ahead in_set_complete i_complete i_ahead]. rewrite Ha. reflexivity. }
    rewrite E'. cbn [bind]. eexists. split; [reflexivity|]. split; [|apply ext_same; reflexivity]. left.
    assert (Hpos : pos s <= ss x).
    { change (i_line (in_set_ahead (in_set_complete (s_in s) (is_nil P)) (i_ahead (s_in s) ++ [x]))) with (i_line (s_in s)) in J4.
      destruct (li_span HL) as (X & _). cbn in X. change (se (i_span (s_in s))) with (pos s) in X. lia. }
    assert (Hp : pos (s_set_in s i) = ss x) by (unfold pos, s_span; cbn; rewrite J2; reflexivity).
    assert (Il : i_line i = x).
    { unfold set_current_line in E'. destruct (bsub src x _); cbn [bind] in E'; inversion E'. reflexivity. }
    assert (Hnl : lstart (s_set_in s i) = 0 \/ exists e, pos s <= e /\ e <= lstart (s_set_in s i) /\ 0 < e /\ nth_error src (e - 1) = Some NL).
    { assert (Hx := next_line src P hi _ x [] (LexI_feed _ _ _ _ _ HL)). cbn [in_set_ahead i_ahead] in Hx. rewrite Ha in Hx. specialize (Hx eq_refl). cbv zeta in Hx.
      unfold lstart. cbn [s_set_in s_in]. rewrite Il. destruct Hx as [Hx|(e & X1 & X2)]; [auto|right; exists e; split; [|auto]].
      destruct (li_span HL) as (X & _). cbn [ss se] in X. change (se (i_span (s_in s))) with (pos s) in X.
      change (i_line (in_set_ahead (in_set_complete (s_in s) (is_nil P)) ([] ++ [x]))) with (i_line (s_in s)) in X1. lia. }
    destruct HB as [[R1 R2 R3 R4 R5 R6]|[v [V1 V2 V3 (A & a & ph & ty & sp & Z & Ev & K1 & K2 & K3 & K4 & K5 & K6 & K7 & Ko & K8 & K9 & K10) V5]]]; [left|right; exists v]; constructor; auto; rewrite ?Hp; auto.
    + unfold evz. cbn [s_set_in s_openers s_events s_cow s_attrs]. eapply zip_weaken; [eapply zip_line; [exact R4|auto]|auto].
    + change (s_events (s_set_in s i)) with (s_events s). lia.
    + exists A, a, ph, ty, sp, Z. split; [auto|]. split; [auto|]. split.
      { cbn [s_set_in s_openers s_cow s_attrs]. eapply zip_line; [exact K2|]. right. destruct Hnl as [Hnl|(e & N1 & N2)]; [auto|right; exists e; split; [|auto]].
        apply bal_le in K9. destruct K6 as [K6 _]. lia. }
      do 7 (split; [auto|]). split; [eapply bal_weaken; [exact K9|auto|lia]|auto].
    + change (s_events (s_set_in s i)) with (s_events s). lia.
  - destruct HW as [W1 W2 W3 W4 W5 W6 (l' & W7) W8 W9 (ah & l & W10)].
    destruct (lx_rest (i_lex (s_in s))) as [|c r] eqn:Er.
    { exfalso. destruct (lex_next_ok _ (li_wf HL)) as (o & l2 & E2 & _ & _ & _ & Ho). rewrite W7 in E2. injection E2 as <- <-.
      destruct Ho as ((T1 & T2 & _) & _). rewrite Er in T2. cbn in T2. lia. }
    eexists. split; [reflexivity|]. split; [|apply ext_same; reflexivity]. right. exists st.
    set (i := in_set_ahead _ _). assert (Hp : pos (s_set_in s i) = pos s) by reflexivity.
    constructor; auto.
    + apply (LexI_feed _ _ _ _ _ HL).
    + exists l'. exact W7.
    + discriminate.
    + destruct W10 as (W10 & W11). exists ah, x. cbn [s_set_in s_in i in_set_ahead i_ahead]. rewrite W10. split; [reflexivity|]. rewrite Hp. exact W11.
Qed.
