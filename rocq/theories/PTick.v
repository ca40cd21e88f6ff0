(** * PTick: runs of backticks as the lexer of a table row sees them *)
From Verif Require Import Base Lex Lib PSafe SpecLex PLex PTab0.
Local Open Scope nat_scope.

Definition notick (src : bytes) (c e : nat) : Prop := forall j, c <= j -> j < e -> nth_error src j <> Some "`"%char.
Definition tokt (src : bytes) (v : bool) (t : token) (c e : nat) : Prop :=
  (tk t = LSeq Backtick -> nth_error src e <> Some "`"%char) /\
  (v = true -> tk t <> LSeq Backtick -> notick src c e).
Definition tinv (l : lexer) : Prop :=
  (lx_verb l = true -> lx_esc l = false) /\
  match lx_next l with Some t => tokt (lx_src l) (lx_verb l) t (lx_c l) (lx_pos l) | None => True end.
Lemma tinv_new s : tinv (lex_new s).
Proof. split; [discriminate|exact I]. Qed.
Lemma kind_notick k t a : kind_text k t a -> k <> LText -> k <> LSeq Backtick -> ~ List.In "`"%char t.
Proof.
  intros H H1 H2 Hin. destruct k as [| | | | |d|d|sy|q]; cbn in H; try contradiction.
  - subst. destruct Hin as [X|[]]; discriminate.
  - subst. destruct Hin as [X|[]]; discriminate.
  - destruct H as (b & -> & H). apply in_app_iff in Hin. destruct Hin as [X|[X|[]]]; [|discriminate]. rewrite forallb_forall in H. specialize (H _ X). discriminate.
  - destruct H as [-> _]. destruct Hin as [X|[]]; discriminate.
  - destruct H as [-> _]. destruct d; cbn in Hin; repeat (destruct Hin as [Hin|Hin]; [discriminate|]); exact Hin.
  - subst. destruct d; cbn in Hin; repeat (destruct Hin as [Hin|Hin]; [discriminate|]); exact Hin.
  - subst. destruct sy; cbn in Hin; repeat (destruct Hin as [Hin|Hin]; [discriminate|]); exact Hin.
  - destruct H as [_ H]. rewrite forallb_forall in H. specialize (H _ Hin). destruct q; try discriminate. congruence.
Qed.
Lemma special_tick v c r : beq c "`" = false -> tk (fst (special_token v c r)) <> LSeq Backtick.
Proof.
  intros Hc. unfold special_token. rewrite Hc. unfold maybe_close. repeat match goal with |- context [if ?b then _ else _] => destruct b end; cbn; try discriminate.
  destruct r; [discriminate|]. destruct (open_brace _); discriminate.
Qed.
Lemma special_e v c r : v = true -> snd (special_token v c r) = false.
Proof.
  intros ->. unfold special_token. repeat match goal with |- context [if ?b then _ else _] => destruct b end; cbn; try reflexivity.
  destruct r; [reflexivity|]. destruct (open_brace _); reflexivity.
Qed.
Lemma scan_tick v esc r t e : (v = true -> esc = false) -> (esc = true -> esc_ok r) -> scan v esc r = (Some t, e) ->
  (tk t = LSeq Backtick -> nth_error r (tlen t) <> Some "`"%char /\ e = false) /\
  (v = true -> e = false /\ (tk t <> LSeq Backtick -> forall j, j < tlen t -> nth_error r j <> Some "`"%char)).
Proof.
  intros Hv He E. pose proof (scan_ok v esc r He) as Hok. rewrite E in Hok. destruct Hok as [(T1 & T2 & _ & T4) _].
  assert (Hk : tk t <> LText -> tk t <> LSeq Backtick -> forall j, j < tlen t -> nth_error r j <> Some "`"%char).
  { intros H1 H2 j Hj X. apply (kind_notick _ _ _ T4 H1 H2). rewrite <- (nth_error_firstn (tlen t)) in X by auto. exact (nth_error_In _ _ X). }
  unfold scan in E. destruct r as [|c r]; [discriminate|]. destruct esc.
  { apply sp_inj in E. destruct E as [<- <-]. split; [|intros X; specialize (Hv X); discriminate].
    unfold escaped_token. repeat match goal with |- context [if ?b then _ else _] => destruct b end; cbn; discriminate. }
  destruct (Nat.ltb 0 _) eqn:Eb.
  { apply sp_inj in E. destruct E as [<- <-]. split; [discriminate|]. intros _. split; [reflexivity|]. intros _ j Hj X. cbn [tlen] in Hj.
    assert (Hf : forallb (fun c0 => negb (is_special c0)) (firstn (count_while (fun c0 => negb (is_special c0)) (c :: r)) (c :: r)) = true) by (apply forallb_firstn_count; apply le_n).
    rewrite forallb_forall in Hf. rewrite <- (nth_error_firstn (count_while (fun c0 => negb (is_special c0)) (c :: r))) in X by auto. apply nth_error_In in X. specialize (Hf _ X). discriminate Hf. }
  assert (Hsp : is_special c = true).
  { apply Nat.ltb_ge in Eb. cbn in Eb. destruct (is_special c); [auto|]. cbn in Eb. lia. }
  destruct (special_token v c r) as [t1 e1] eqn:Et. apply sp_inj in E. destruct E as [-> ->].
  pose proof (special_text v c r Hsp) as Htx. pose proof (special_tick v c r) as Htk. pose proof (special_e v c r) as Hse. rewrite Et in Htx, Htk, Hse. cbn [fst snd] in *.
  destruct (beq c "`") eqn:Ec.
  - apply beq_eq in Ec. subst c. cbn in Et. injection Et as <- <-. cbn [tk tlen]. split; [|intros _; split; [reflexivity|congruence]].
    intros _. split; [|reflexivity]. cbn [nth_error]. intros X. pose proof (count_while_nth _ _ _ X). discriminate.
  - split; [intros X; exfalso; apply Htk; auto|]. intros Hv1. split; [auto|]. intros H1 j Hj X. destruct (tk t) eqn:Ek; try (eapply Hk; eauto; rewrite ?Ek; discriminate).
    + destruct (Htx eq_refl) as [Hl _]. rewrite Hl in Hj. assert (j = 0) as -> by lia. cbn in X. injection X as ->. discriminate Ec.
Qed.
Lemma lex_token_tick l t l' : lex_wf l -> lx_next l = None -> tinv l -> lex_token l = (Some t, l') ->
  tokt (lx_src l) (lx_verb l) t (lx_pos l) (lx_pos l') /\ tinv l' /\ (tk t = LSeq Backtick -> lx_esc l' = false).
Proof.
  intros Hw Hn [He _] E. unfold lex_token in E. destruct (scan (lx_verb l) (lx_esc l) (skipn (lx_pos l) (lx_src l))) as [[t0|] e] eqn:Es; [|discriminate].
  apply sp_inj in E. destruct E as [-> <-]. cbn [lx_pos lx_esc lx_src lx_next lx_verb tlen].
  destruct (scan_tick _ _ _ _ _ He (proj1 (proj2 (proj2 Hw))) Es) as [S1 S2]. split; [split|split].
  - intros X. destruct (S1 X) as [Y _]. rewrite nth_error_skipn in Y. exact Y.
  - intros X1 X2 j J1 J2. destruct (S2 X1) as [_ Y]. specialize (Y X2 (j - lx_pos l) ltac:(lia)). rewrite nth_error_skipn in Y. replace (lx_pos l + (j - lx_pos l)) with j in Y by lia. exact Y.
  - split; cbn [lx_verb lx_esc lx_next]; [intros X; apply (S2 X)|rewrite Hn; exact I].
  - intros X. apply (S1 X).
Qed.
Lemma text_run_tick f : forall l len t l' c, lex_wf l -> lx_next l = None -> tinv l -> (lx_verb l = true -> notick (lx_src l) c (lx_pos l)) ->
  text_run f l len = Ok (t, l') -> tk t = LText /\ (lx_verb l = true -> notick (lx_src l) c (lx_c l')) /\ tinv l'.
Proof.
  induction f as [|f IH]; intros l len t l' c Hw Hn Hb Hq E; [discriminate|]. cbn [text_run] in E.
  destruct (lex_token_ok l Hw Hn) as (o & l1 & E1 & Hs & Hv & Hn1 & Hw1 & Ho). pose proof (fun t0 E' => lex_token_tick l t0 l1 Hw Hn Hb E') as H. rewrite E1 in *.
  destruct o as [[k n]|].
  - destruct (H _ eq_refl) as ((H1 & H1') & H2 & _). destruct Ho as (Ht & Hp & _). cbn [tlen] in Hp.
    assert (Hdone : k <> LText -> (lx_verb l = true -> notick (lx_src l) c (lx_c (lex_set_next l1 (Some (Tok k n))))) /\ tinv (lex_set_next l1 (Some (Tok k n)))).
    { intros _. assert (Hlc : lx_c (lex_set_next l1 (Some (Tok k n))) = lx_pos l) by (unfold lx_c, pend; cbn; rewrite Hp; lia). split.
      - rewrite Hlc. exact Hq.
      - destruct H2 as [H2 _]. split; [exact H2|]. cbn [lx_next lex_set_next]. rewrite Hlc. cbn [lx_src lx_pos lx_verb lex_set_next]. rewrite Hs, Hv. split; [exact H1|exact H1']. }
    destruct k; try (injection E as <- <-; split; [reflexivity|]; apply Hdone; discriminate).
    rewrite <- Hs in *. rewrite <- Hv in *. eapply (IH l1); eauto. intros X j J1 J2. destruct (Nat.lt_ge_cases j (lx_pos l)) as [Y|Y]; [apply Hq; auto|apply H1'; auto; discriminate].
  - injection E as <- <-. destruct Ho as (_ & Hp & Hes). split; [reflexivity|]. split; [unfold lx_c, pend; cbn; rewrite Hp, Nat.sub_0_r; exact Hq|]. split; [intros _; exact Hes|exact I].
Qed.
Lemma lex_next_tick l t l' : lex_wf l -> tinv l -> lex_next l = Ok (Some t, l') ->
  tokt (lx_src l) (lx_verb l) t (lx_c l) (lx_c l') /\ tinv l' /\ (tk t = LSeq Backtick -> lx_esc l' = false /\ lx_next l' = None).
Proof.
  intros Hw Hb E. unfold lex_next in E. destruct (lx_next l) as [t0|] eqn:En.
  - injection E as -> <-. destruct Hb as [H1 H2]. rewrite En in H2. assert (Hc : lx_c (lex_set_next l None) = lx_pos l) by (unfold lx_c, pend; cbn; lia). rewrite Hc. split; [exact H2|]. split; [split; [exact H1|exact I]|].
    intros Hk. split; [|reflexivity]. cbn [lx_esc lex_set_next]. destruct Hw as (_ & _ & _ & Hw). rewrite En in Hw. destruct (lx_esc l) eqn:Ee; [|reflexivity]. destruct Hw as [_ Hw]. rewrite (Hw eq_refl) in Hk. discriminate.
  - unfold next_token in E. destruct (lex_token_ok l Hw En) as (o1 & l1 & E1 & Hs & Hv & Hn1 & Hw1 & Ho). pose proof (fun t0 E' => lex_token_tick l t0 l1 Hw En Hb E') as H. rewrite E1 in *.
    assert (Hc : lx_c l1 = lx_pos l1) by (unfold lx_c, pend; rewrite Hn1; lia). assert (Hc0 : lx_c l = lx_pos l) by (unfold lx_c, pend; rewrite En; lia).
    destruct o1 as [[k n]|]; [|discriminate]. destruct (H _ eq_refl) as (H1 & H2 & H3).
    destruct k; try (injection E as <- <-; rewrite Hc, Hc0; auto; fail).
    destruct (text_run _ l1 n) as [[t2 l2]| |] eqn:Er; cbn [bind] in E; try discriminate. injection E as -> <-. rewrite Hc0. destruct H1 as [_ H1].
    destruct (text_run_tick _ _ _ _ _ (lx_pos l) Hw1 Hn1 H2 ltac:(rewrite Hs, Hv; intros X; apply H1; [exact X|discriminate]) Er) as (A0 & A1 & A2). rewrite Hs, Hv in A1.
    split; [split; [rewrite A0; discriminate|auto]|]. split; [auto|]. rewrite A0. discriminate.
Qed.
