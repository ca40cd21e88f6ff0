(** * PInl6: tokens, attributes after an element, verbatim *)
From Verif Require Import Base Lex Attr Block Inline Doc SpecLex Lib SpecAttr SpecSrc PAttr PAttr3 PAttr4 PSafe PBlock2 PLex PBlock3 PBlock4 PInl1 PInl2 PInl3 PInl4 PInl5.
Local Open Scope nat_scope.

Lemma ext_same s s' : s_cow s' = s_cow s -> s_attrs s' = s_attrs s -> ext s s'.
Proof. intros H1 H2. split; exists []; rewrite app_nil_r; auto. Qed.

Lemma lstart_same s s' : i_line (s_in s') = i_line (s_in s) -> lstart s' = lstart s.
Proof. unfold lstart. intros ->. reflexivity. Qed.

(** Outcome of the attempts to read attributes after an element that ended at [q]. *)
Definition Fin (src : bytes) (P : list span) (lo hi W q : nat) (s0 : istate) (r : option flow * istate) : Prop :=
  let (o, s) := r in
  ext s0 s /\ length (i_ahead (s_in s)) <= length (i_ahead (s_in s0)) /\
  match o with
  | Some FContinue => Rdy src P lo hi W s /\ q <= pos s
  | Some FMore => exists st, Wat src P lo hi W s st false
  | _ => False
  end.

Lemma s_peek_ok src P lo hi W s : wfb src -> Rdy src P lo hi W s ->
  exists t i, s_peek s = (t, s_set_in s i) /\ Rdy src P lo hi W (s_set_in s i) /\ pos (s_set_in s i) = pos s /\ same_in (s_in s) i /\
    lx_next (i_lex i) = t /\ i_span i = i_span (s_in s) /\
    match t with None => True | Some t => tok_ok (lx_rest (i_lex i)) t end.
Proof.
  intros Hw [R1 R2 R3 R4 R5 R6]. unfold s_peek. destruct (in_peek_ok src P hi _ Hw R1) as (o & i' & -> & HL & Hsame & Hsp & Hn & Ho & Hr).
  exists o, i'. split; [reflexivity|]. assert (Hp : pos (s_set_in s i') = pos s) by (unfold pos, s_span; cbn; rewrite Hsp; reflexivity).
  split; [constructor; auto; unfold evz; rewrite Hp; auto|].
  { rewrite (lstart_same s (s_set_in s i')) by apply Hsame. exact R4. }
  split; [auto|]. split; [auto|]. split; [auto|]. split; [auto|]. rewrite Hr. exact Ho.
Qed.
Lemma peek_open_inv t : peek_is_open t Brace = true -> exists n, t = Some (Tok (LOpen Brace) n).
Proof. destruct t as [[k n]|]; [|discriminate]. destruct k as [| | | | |d|d|y|q]; try discriminate. destruct d; try discriminate. eauto. Qed.

Lemma ahead_cont src P lo hi W s ty : wfb src -> Rdy src P lo hi W s ->
  elem_at src (s_cow s) (s_attrs s) (lstart s) lo (s_openers s) (s_events s) (pos s) ty ->
  exists r, (let (t, s) := s_peek s in
             if peek_is_open t Brace then or_continue (ahead_attributes src s ty false) else Ok (Some FContinue, s)) = Ok r /\
    Fin src P lo hi W (pos s) s r.
Proof.
  intros Hw HR Hel. destruct (s_peek_ok _ _ _ _ _ _ Hw HR) as (t & i & -> & HR' & Hp & (Q1 & Q2 & Q3) & Hn & Hsp & Ht).
  destruct (peek_is_open t Brace) eqn:Et.
  2: { eexists. split; [reflexivity|]. cbn beta iota. split; [apply ext_same; reflexivity|]. split; [cbn; rewrite Q2; auto|]. split; [auto|]. rewrite Hp. auto. }
  apply peek_open_inv in Et. destruct Et as [n ->]. destruct Ht as (T1 & T2 & T3 & T4). cbn [tk tlen kind_text open_text] in *. destruct T4 as [T4 _].
  pose proof (f_equal (@length _) T4) as T5. rewrite firstn_length, Nat.min_l in T5 by auto. change (length (B "{")) with 1 in T5. subst n.
  pose proof HR' as HR2. destruct HR2 as [R1 R2 R3 R4 R5 R6]. rewrite Hp in *.
  unfold or_continue, ahead_attributes. change (s_span (s_set_in s i)) with (i_span i). rewrite Hsp, usub_yes by lia. cbn [bind].
  rewrite Nat.sub_0_r. change (se (i_span (s_in s))) with (pos s) in *.
  pose proof (LexI_len _ _ _ _ R1) as Hlen. change (s_in (s_set_in s i)) with i in *. rewrite Hsp in Hlen. change (se (i_span (s_in s))) with (pos s) in Hlen.
  assert (Hsl : span_ok src (Sp (pos s) (se (i_line i)))) by (pose proof (li_span R1) as X; rewrite Hsp in X; exact X).
  assert (Hbr : nth_error src (pos s) = Some "{"%char).
  { assert (X : nth_error (lx_rest (i_lex i)) 0 = Some "{"%char).
    { destruct (lx_rest (i_lex i)) as [|c r]; [cbn in T2; lia|]. cbn in T4. injection T4 as ->. reflexivity. }
    destruct (rest_boundary src P hi i 0 "{"%char Hw R1 X eq_refl) as (_ & Y & _). rewrite Hsp, Nat.add_0_r in Y. exact Y. }
  destruct (resume_ok src P lo hi W (s_set_in s i) (AS ty (pos s) 0 AStart) false true (pos s)) as (r & Er & Hr); auto.
  - change (pos (s_set_in s i)) with (se (i_span i)). rewrite Hsp. unfold pos, s_span. lia.
  - change (s_in (s_set_in s i)) with i. lia.
  - pose proof (li_low R1) as X. rewrite Hsp in X. exact X.
  - rewrite (lstart_same s (s_set_in s i)) by exact Q1. exact Hel.
  - change (s_in (s_set_in s i)) with i. unfold lex_next. rewrite Hn. eauto.
  - rewrite Er. cbn [bind]. destruct r as [o s']. eexists. split; [reflexivity|].
    destruct Hr as (E1 & E2 & E3). cbn beta iota. change (s_in (s_set_in s i)) with i in *. rewrite Q2 in E2. destruct o as [[]|]; try contradiction; unfold Fin.
    + split; [exact E1|]. split; [exact E2|]. destruct E3. split; [auto|lia].
    + split; [exact E1|]. split; [exact E2|]. auto.
    + subst s'. split; [apply ext_same; reflexivity|]. split; [exact E2|]. split; [exact HR'|rewrite Hp; lia].
Qed.

(** Pushing events after a token. *)
Lemma Mid_push src P lo hi W q first s F : Mid src P lo hi W q first s ->
  bal src (s_cow s) (s_attrs s) q F (pos s) -> lastok src (s_events s ++ F) -> wsum F <= 4 * (pos s - q) ->
  Rdy src P lo hi W (s_set_events s (s_events s ++ F)).
Proof.
  intros [M1 M2 M3 M4 M5 M6 M7 M8 M9 Mlow Mbrk M10] Hb Hl Hwt. constructor; auto.
  - unfold evz. cbn. change (pos (s_set_events _ _)) with (pos s). eapply zip_app; eauto.
  - change (s_events (s_set_events s (s_events s ++ F))) with (s_events s ++ F). change (pos (s_set_events _ _)) with (pos s). rewrite wsum_app. destruct M9 as (_ & M9 & _). cbn in M9. lia.
Qed.
Lemma Mid_str src P lo hi W q first s : Mid src P lo hi W q first s -> Rdy src P lo hi W (push s IStr).
Proof.
  intros HM. pose proof HM as [M1 M2 M3 M4 M5 M6 M7 M8 M9 Mlow Mbrk M10]. unfold push, push_sp.
  assert (E : s_span s = Sp q (pos s)) by (unfold pos; rewrite <- M4; symmetry; apply span_eta). rewrite E.
  eapply Mid_push; eauto.
  - apply bal_str; cbn; auto.
  - apply lastok_snoc. intros _. left. cbn. auto.
  - cbn. unfold sp_len. cbn. lia.
Qed.
Lemma Mid_atom src P lo hi W q first s a : Mid src P lo hi W q first s -> spelled src (atom_event a) (slice src (Sp q (pos s))) -> Rdy src P lo hi W (push s (IAtom a)).
Proof.
  intros HM Hsa. pose proof HM as [M1 M2 M3 M4 M5 M6 M7 M8 M9 Mlow Mbrk M10]. unfold push, push_sp.
  assert (E : s_span s = Sp q (pos s)) by (unfold pos; rewrite <- M4; symmetry; apply span_eta). rewrite E.
  eapply Mid_push; eauto.
  - apply bal_atom; auto.
  - apply lastok_snoc. discriminate.
  - cbn. lia.
Qed.
Lemma Mid_span src P lo hi W q first s : Mid src P lo hi W q first s -> s_span s = Sp q (pos s).
Proof. intros HM. unfold pos. rewrite <- (m_pos _ _ _ _ _ _ _ _ HM). symmetry. apply span_eta. Qed.

(** ** Verbatim *)
Lemma byte_is_ok src i c w : i < length src -> byte_is src i c w = Ok (match nth_error src i with Some d => beq d c | None => false end).
Proof.
  intros H. unfold byte_is. destruct (nth_error src i) as [d|] eqn:E; [|apply nth_error_None in E; lia]. rewrite (get_at_yes _ _ _ d) by auto. reflexivity.
Qed.
Lemma not_escaped_ok src i k w : i <= length src -> 1 <= k -> exists b, not_escaped src i k w = Ok b.
Proof.
  intros H Hk. unfold not_escaped. destruct (Nat.leb_spec k i); [|eauto]. rewrite byte_is_ok by lia. cbn [bind]. eauto.
Qed.
Lemma verb_type_ok src s : lastok src (s_events s) -> Forall (fun e => span_ok src (isp e)) (s_events s) ->
  exists ty d, verb_type src s = Ok (ty, d) /\ plain_verb ty = true /\
  (d = 0 /\ ty = CVerbatim \/ exists E a b, s_events s = E ++ [IE IStr (Sp a b)] /\ b = ss (s_span s) /\ a + d <= b /\ b <= length src /\
     nth_error src (b - d) = Some "$"%char /\ nth_error src (b - 1) = Some "$"%char /\ (d = 1 /\ ty = CInlineMath \/ d = 2 /\ ty = CDisplayMath)).
Proof.
  intros Hl Hs. unfold verb_type. unfold lastok in Hl. destruct (rev_case (s_events s)) as [E|(E & e & Ev)].
  { rewrite E. cbn. do 2 eexists. split; [reflexivity|]. auto. }
  rewrite Ev in *. rewrite last_opt_app in *. destruct e as [k sp].
  assert (Hsp : span_ok src sp) by (apply Forall_app in Hs; destruct Hs as [_ Hs]; inv Hs; auto).
  destruct Hsp as (S1 & S2 & S3 & S4).
  destruct k; try (do 2 eexists; split; [reflexivity|]; cbn; auto; fail).
  destruct (Nat.eqb_spec (se sp) (ss (s_span s))) as [Ee|]; [|do 2 eexists; split; [reflexivity|]; cbn; auto].
  unfold sp_len. assert (Hpos : 1 <= se sp) by (destruct Hl as [|[]]; lia).
  rewrite usub_yes by lia. cbn [bind]. replace (ss sp + (se sp - ss sp) - 1) with (se sp - 1) by lia.
  rewrite byte_is_ok by lia. cbn [bind]. destruct (nth_error src (se sp - 1)) as [c|] eqn:Ec; [|do 2 eexists; split; [reflexivity|]; cbn; auto].
  destruct (beq c "$") eqn:Eb; [|do 2 eexists; split; [reflexivity|]; cbn; auto]. apply beq_eq in Eb. subst c.
  assert (Hlt : ss sp < se sp).
  { destruct Hl as [|[H1 H2]]; [auto|]. destruct (Nat.eq_dec (ss sp) (se sp)) as [X|X]; [|lia]. rewrite X, Ec in H2. discriminate. }
  destruct (not_escaped_ok src (se sp) 2 "inline.rs:382") as [b1 ->]; [lia|lia|]. cbn [bind].
  destruct b1; [|do 2 eexists; split; [reflexivity|]; cbn; auto].
  assert (H1 : exists E0 a b, E ++ [IE IStr sp] = E0 ++ [IE IStr (Sp a b)] /\ b = ss (s_span s) /\ a + 1 <= b /\ b <= length src /\ nth_error src (b - 1) = Some "$"%char /\ nth_error src (b - 1) = Some "$"%char /\ (1 = 1 /\ CInlineMath = CInlineMath \/ 1 = 2 /\ CInlineMath = CDisplayMath)).
  { exists E, (ss sp), (se sp). rewrite span_eta. repeat split; auto; lia. }
  destruct (Nat.ltb_spec 1 (se sp - ss sp)).
  - rewrite usub_yes by lia. cbn [bind]. replace (ss sp + (se sp - ss sp) - 2) with (se sp - 2) by lia. rewrite byte_is_ok by lia. cbn [bind].
    destruct (nth_error src (se sp - 2)) as [c|] eqn:Ec2; [|cbn [bind]; do 2 eexists; split; [reflexivity|]; auto].
    destruct (beq c "$") eqn:Eb; [|cbn [bind]; do 2 eexists; split; [reflexivity|]; auto]. apply beq_eq in Eb. subst c.
    destruct (not_escaped_ok src (se sp) 3 "inline.rs:389") as [b2 ->]; [lia|lia|]. cbn [bind].
    destruct b2; do 2 eexists; (split; [reflexivity|]); auto. split; [auto|]. right.
    exists E, (ss sp), (se sp). rewrite span_eta. repeat split; auto; lia.
  - cbn [bind]. do 2 eexists. split; [reflexivity|]. auto.
Qed.
Lemma LexI_verb src P hi i b : LexI src P hi i -> LexI src P hi (in_set_lex i (lex_set_verb (i_lex i) b)).
Proof. intros [H1 H2 H3 H4 H5 H6 H7 H8]. constructor; auto. Qed.

Lemma seq_ticks t r : kind_text (LSeq Backtick) t r -> ticks t.
Proof.
  intros [H1 H2]. split; [exact H1|]. rewrite forallb_forall in H2. apply Forall_forall. intros c Hc. specialize (H2 c Hc). apply beq_eq in H2. exact H2.
Qed.
Lemma seq_run src q n r : span_ok src (Sp q (q + n)) -> kind_text (LSeq Backtick) (slice src (Sp q (q + n))) r -> slice src (Sp q (q + n)) = repeat "`"%char n.
Proof.
  intros Hs H. apply seq_ticks in H. destruct H as [_ H]. pose proof (slice_length src (Sp q (q + n)) ltac:(apply Hs) ltac:(apply Hs)) as Hl. cbn [ss se] in Hl.
  replace (q + n - q) with n in Hl by lia. revert H Hl. generalize (slice src (Sp q (q + n))). clear Hs. intros t H <-. induction t as [|c t IH]; [reflexivity|]. inv H. cbn. f_equal. auto.
Qed.
Lemma slice_two src b c d : 2 <= b -> nth_error src (b - 2) = Some c -> nth_error src (b - 1) = Some d -> slice src (Sp (b - 2) b) = [c; d].
Proof.
  intros H H1 H2. replace (Sp (b - 2) b) with (Sp (b - 2) (S (b - 1))) by (f_equal; lia). rewrite (slice_snoc src _ _ d) by (auto; lia).
  replace (Sp (b - 2) (b - 1)) with (Sp (b - 2) (S (b - 2))) by (f_equal; lia). rewrite (slice_snoc src _ _ c) by auto. rewrite slice_nil. reflexivity.
Qed.
Lemma slice_one src b c : nth_error src b = Some c -> slice src (Sp b (S b)) = [c].
Proof. intros H. rewrite (slice_snoc src _ _ c) by auto. rewrite slice_nil. reflexivity. Qed.
Lemma verb_open src P lo hi W q first s : wfb src -> Mid src P lo hi W q first s ->
  exists r, parse_verbatim src s first = Ok r /\ Post src P lo hi W q first s r.
Proof.
  intros Hw HM. pose proof HM as [M1 M2 M3 M4 M5 M6 M7 M8 M9 Mlow Mbrk M10]. unfold parse_verbatim. rewrite M2.
  assert (Hnone : exists r, Ok (None, s) = Ok r /\ Post src P lo hi W q first s r).
  { eexists. split; [reflexivity|]. cbn. auto using ext_refl. }
  destruct (tk first) as [| | | | |d|d|y|[| |]] eqn:Ek; auto. destruct (Nat.ltb (tlen first) 256); auto.
  destruct (verb_type_ok src s M6) as (ty & d & -> & Hty & Hd). { eapply bal_spans, zip_bal, M5. }
  cbn [bind]. eexists. split; [reflexivity|]. pose proof (Mid_span _ _ _ _ _ _ _ _ HM) as Esp.
  assert (Hticks : ticks (slice src (Sp q (pos s)))) by (destruct (M10 ltac:(congruence)) as (_ & X & _); exact (seq_ticks _ _ X)).
  assert (Hrun : slice src (Sp q (pos s)) = repeat "`"%char (tlen first)) by (destruct (M10 ltac:(congruence)) as (X1 & X & _); rewrite X1 in *; exact (seq_run _ _ _ _ M9 X)).
  assert (Hlen1 : 1 <= tlen first) by (destruct (M10 ltac:(congruence)) as (X1 & _); clear - X1 M8; lia).
  match goal with |- context [push_sp ?S IPlaceholder _] => set (s1 := S) end.
  assert (Hs1 : exists A bd, s1 = s_set_span (s_set_events s A) (Sp bd (pos s)) /\ bd <= q /\ boundary src bd = true /\
     zip src (s_cow s) (s_attrs s) (lstart s) lo (s_openers s) A bd /\ wsum A <= wsum (s_events s) /\
     vfence (s_cow s) ty (slice src (Sp bd (pos s))) (tlen first)).
  { destruct Hd as [[-> ->]|(E & a & b & Ev & Eb & Ha & Hbl & Hdol & Hdol1 & Hdd)].
    - exists (s_events s), q. unfold s1. split; [|split; [auto|]; split; [apply M9|]; split; [exact M5|]; split; [auto|split; [exact Hticks|split; [exact Hlen1|exists []; split; [constructor|exact Hrun]]]]].
      destruct s as [[lx c l ah sp] o e v at0 cw al]; unfold s_span, pos in Esp; cbn in Esp. rewrite Esp. reflexivity.
    - destruct d as [|d]; [exfalso; clear - Hdd; destruct Hdd as [[X _]|[X _]]; discriminate X|].
      + unfold s1. rewrite Ev, last_opt_app, butlast_app. cbn [isp ik ss se].
        assert (Hbd : boundary src (b - S d) = true) by (eapply wfb_ascii_at; eauto).
        exists (E ++ [IE IStr (Sp a (b - S d))]), (b - S d). split; [reflexivity|]. rewrite Esp in Eb. cbn in Eb. subst b. split; [lia|]. split; [auto|].
        unfold evz in M5. rewrite Ev in M5. split; [eapply zip_shrink; eauto; lia|].
        split; [rewrite !wsum_app; cbn; unfold sp_len; cbn; lia|].
        rewrite <- (slice_app src (q - S d) q (pos s)) by lia.
        assert (Hpre : forall t, slice src (Sp (q - S d) q) = t -> opens_with (pub (s_cow s) ty) (t ++ slice src (Sp q (pos s))) -> Forall (fun c => c = "$"%char) t ->
          vfence (s_cow s) ty (slice src (Sp (q - S d) q) ++ slice src (Sp q (pos s))) (tlen first)).
        { intros t -> Ho Ht. split; [exact Ho|]. split; [exact Hlen1|]. exists t. rewrite Hrun. auto. }
        destruct Hdd as [[X ->]|[X ->]]; injection X as ->; [apply (Hpre (B "$"))|apply (Hpre (B "$$"))]; try (eexists; split; [reflexivity|exact Hticks]); try (repeat constructor; fail).
        * replace (Sp (q - 1) q) with (Sp (q - 1) (S (q - 1))) by (f_equal; lia). apply slice_one. exact Hdol.
        * apply slice_two; [lia|exact Hdol|exact Hdol1]. }
  destruct Hs1 as (A & bd & E1 & H1 & H2 & H3 & H4 & Hopen). clearbody s1. subst s1.
  cbn beta iota. split; [apply ext_same; reflexivity|]. split; [cbn; auto|]. split; [|cbn; auto]. right. eexists. constructor.
  - apply (LexI_verb src P hi (in_set_span (s_in s) (Sp bd (pos s)))). apply LexI_start. exact M1.
  - reflexivity.
  - reflexivity.
  - destruct M9 as (N1 & N2 & N3 & N4). cbn in N1, N2, N3, N4.
    exists A, bd, bd, ty, (Sp bd (pos s)), []. cbn. rewrite <- app_assoc. split; [reflexivity|]. split; [rewrite app_length; cbn; lia|]. split; [exact H3|].
    split; [auto|]. split; [repeat split; cbn; auto; lia|]. split; [auto|]. split; [repeat split; cbn; auto; lia|].
    split; [auto|]. split; [exact Hopen|]. split; [constructor|]. split; [apply bal_nil; auto|]. intros ? ? X. discriminate.
  - destruct M9 as (N1 & N2 & N3 & N4). cbn in N1, N2, N3, N4. cbn [s_events s_set_events push push_sp s_set_verb s_set_attr s_set_lex s_set_in s_set_span].
    change (pos _) with (pos s). rewrite !wsum_app. cbn [wsum iwt ik]. lia.
Qed.
