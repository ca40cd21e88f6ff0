(** * PTab0: only an escaped or quoted bar is not a cell delimiter *)
From Verif Require Import Base Lex Lib PSafe SpecLex PLex.
Local Open Scope nat_scope.

(** The byte before [e] is not a bar, or the bar is escaped. *)
Definition nobar (src : bytes) (e : nat) : Prop :=
  nth_error src (e - 1) <> Some "|"%char \/ (2 <= e /\ nth_error src (e - 2) = Some BSL).
Definition tbar (src : bytes) (t : token) (e : nat) : Prop := tk t = LSym Pipe \/ nobar src e.
Definition lbar (l : lexer) : Prop :=
  (lx_esc l = true -> exists p, lx_pos l = S p /\ nth_error (lx_src l) p = Some BSL) /\
  match lx_next l with Some t => tbar (lx_src l) t (lx_pos l) | None => True end.
Lemma lbar_new s : lbar (lex_new s).
Proof. split; [discriminate|exact I]. Qed.
Lemma lbar_verb l v : lbar l -> lbar (lex_set_verb l v).
Proof. intros H. exact H. Qed.
Lemma last_nth (r : bytes) n u c : firstn n r = u ++ [c] -> n <= length r -> nth_error r (n - 1) = Some c.
Proof.
  intros E Hn. assert (L : length (firstn n r) = n) by (rewrite firstn_length; lia). rewrite E in L. rewrite app_length in L. cbn in L.
  rewrite <- (firstn_skipn n r), E, <- app_assoc, nth_error_app2 by lia. replace (n - 1 - length u) with 0 by lia. reflexivity.
Qed.
Lemma kind_last k t a : kind_text k t a -> k <> LText -> k <> LSym Pipe -> t <> [] -> exists u c, t = u ++ [c] /\ c <> "|"%char.
Proof.
  intros H H1 H2 H3. destruct k as [| | | | |d|d|sy|q]; cbn in H; try contradiction.
  - subst. exists [], NL. split; [reflexivity|discriminate].
  - subst. exists [], SP. split; [reflexivity|discriminate].
  - destruct H as (b & -> & _). exists b, NL. split; [reflexivity|discriminate].
  - destruct H as [-> _]. exists [], BSL. split; [reflexivity|discriminate].
  - destruct H as [-> _]. destruct d; cbn; match goal with |- exists u c, [?x] = _ /\ _ => exists [], x | |- exists u c, [?x; ?y] = _ /\ _ => exists [x], y end; (split; [reflexivity|discriminate]).
  - subst. destruct d; cbn; match goal with |- exists u c, [?x] = _ /\ _ => exists [], x | |- exists u c, [?x; ?y] = _ /\ _ => exists [x], y end; (split; [reflexivity|discriminate]).
  - subst. destruct sy; try congruence; cbn; match goal with |- exists u c, [?x] = _ /\ _ => exists [], x | |- exists u c, [?x; ?y] = _ /\ _ => exists [x], y end; (split; [reflexivity|discriminate]).
  - destruct H as [_ H]. destruct (rev_case t) as [->|(u & c & ->)]; [congruence|]. exists u, c. split; [auto|]. rewrite forallb_app in H. apply andb_prop in H. destruct H as [_ H]. cbn in H. rewrite andb_true_r in H. apply beq_eq in H. subst. destruct q; discriminate.
Qed.
Lemma special_text v c r : is_special c = true -> tk (fst (special_token v c r)) = LText -> tlen (fst (special_token v c r)) = 1 /\ c <> "|"%char.
Proof.
  unfold special_token. revert v. revert r.
  intros r v Hs Ht. split.
  - revert Ht. repeat match goal with |- context [if ?b then _ else _] => destruct b end; cbn; try discriminate; auto.
    all: unfold maybe_close; repeat match goal with |- context [if ?b then _ else _] => destruct b end; cbn; try discriminate; auto.
    all: try (destruct r; [discriminate|]); try (destruct (open_brace _); discriminate).
  - intros ->. cbn in Ht. discriminate.
Qed.
Lemma special_esc v c r : snd (special_token v c r) = true -> c = BSL /\ tlen (fst (special_token v c r)) = 1.
Proof.
  unfold special_token. destruct (beq c NL); [discriminate|]. destruct (beq c BSL) eqn:E.
  - apply beq_eq in E. destruct (hd_is _ r); cbn; auto.
  - repeat match goal with |- context [if ?b then _ else _] => destruct b end; cbn; try discriminate.
    destruct r; [discriminate|]. destruct (open_brace _); discriminate.
Qed.
Lemma sp_inj {A B} (a a' : A) (b b' : B) : (Some a, b) = (Some a', b') -> a = a' /\ b = b'.
Proof. intros H. inversion H. auto. Qed.
Lemma lex_token_bar l : lex_wf l -> lx_next l = None -> lbar l ->
  match lex_token l with
  | (Some t, l') => tbar (lx_src l) t (lx_pos l') /\ lbar l'
  | (None, l') => lbar l'
  end.
Proof.
  intros Hw Hn [He _]. pose proof (lex_token_ok l Hw Hn) as (o & l' & E & Hs & _ & Hn' & _ & Ho).
  assert (Hc : lx_c l = lx_pos l) by (unfold lx_c, pend; rewrite Hn; lia).
  rewrite E. destruct o as [t|].
  2:{ split; [intros X; destruct Ho as (_ & _ & Ho); congruence|rewrite Hn'; exact I]. }
  destruct Ho as ((T1 & T2 & _ & T4) & Hp & _). unfold lx_rest in T2, T4. rewrite Hc in T2, T4.
  unfold lex_token in E. set (r := skipn (lx_pos l) (lx_src l)) in *.
  assert (Hnth : forall k, nth_error r k = nth_error (lx_src l) (lx_pos l + k)) by (intros k; unfold r; apply nth_error_skipn).
  destruct (scan (lx_verb l) (lx_esc l) r) as [[t0|] e] eqn:Es; [|discriminate]. assert (t0 = t) as -> by congruence. injection E as E. subst l'. cbn [lx_pos lx_esc lx_src lx_next] in *.
  assert (Hnt : tk t <> LText -> tbar (lx_src l) t (lx_pos l + tlen t)).
  { intros Hk. destruct t as [k n]. cbn [tk tlen] in *. destruct (match k with LSym Pipe => true | _ => false end) eqn:Ek.
    - left. destruct k as [| | | | | | |sy|]; try discriminate. destruct sy; try discriminate. reflexivity.
    - right. left. destruct (kind_last _ _ _ T4 Hk) as (u & c & Eu & Hb).
      + intros ->. discriminate.
      + intros X. assert (length (firstn n r) = n) by (rewrite firstn_length; lia). rewrite X in H. cbn in H. lia.
      + apply last_nth in Eu; [|auto]. rewrite Hnth in Eu. replace (lx_pos l + n - 1) with (lx_pos l + (n - 1)) by lia. congruence. }
  unfold scan in Es. destruct r as [|c r'] eqn:Er; [discriminate|]. destruct (lx_esc l) eqn:Ee.
  - apply sp_inj in Es; destruct Es as [<- <-]. split; [|split; [discriminate|cbn [lx_next]; rewrite Hn; exact I]].
    destruct (He eq_refl) as (p & P1 & P2).
    destruct (tk (escaped_token c r')) eqn:Ek; try (apply Hnt; congruence).
    right. right. assert (tlen (escaped_token c r') = 1) as ->.
    { revert Ek. unfold escaped_token. destruct (beq c NL); [discriminate|]. destruct (_ && _); [discriminate|]. destruct (beq c SP); [discriminate|reflexivity]. }
    split; [lia|]. rewrite P1. replace (S p + 1 - 2) with p by lia. exact P2.
  - destruct (Nat.ltb 0 _) eqn:Eb.
    + apply sp_inj in Es; destruct Es as [<- <-]. split; [|split; [discriminate|cbn [lx_next]; rewrite Hn; exact I]]. right. left. cbn [tlen] in *.
      set (n := count_while (fun c0 => negb (is_special c0)) (c :: r')) in *. apply Nat.ltb_lt in Eb.
      assert (Ei : lx_pos l + n - 1 = lx_pos l + (n - 1)) by lia. rewrite Ei, <- Hnth.
      assert (Hf : forallb (fun c0 => negb (is_special c0)) (firstn n (c :: r')) = true) by (apply forallb_firstn_count; apply le_n).
      intros X. destruct n as [|n0] eqn:En0; [lia|]. replace (S n0 - 1) with n0 in X by lia.
      pose proof (forallb_last _ _ _ _ Hf X) as Y. discriminate Y.
    + assert (Hsp : is_special c = true).
      { apply Nat.ltb_ge in Eb. cbn in Eb. destruct (is_special c); [auto|]. cbn in Eb. lia. }
      destruct (special_token (lx_verb l) c r') as [t1 e1] eqn:Et. apply sp_inj in Es; destruct Es as [<- <-]. split.
      * destruct (tk t1) eqn:Ek; try (apply Hnt; congruence). right. left.
        pose proof (special_text (lx_verb l) c r' Hsp) as X. rewrite Et in X. cbn [fst] in X. destruct (X Ek) as [X1 X2]. rewrite X1.
        replace (lx_pos l + 1 - 1) with (lx_pos l + 0) by lia. rewrite <- Hnth. cbn. congruence.
      * split; [|cbn [lx_next]; rewrite Hn; exact I]. cbn [lx_esc lx_pos lx_src]. intros X. pose proof (special_esc (lx_verb l) c r') as Y. rewrite Et in Y. cbn [fst snd] in Y.
        destruct (Y X) as [Y1 Y2]. exists (lx_pos l). rewrite Y2. split; [lia|]. rewrite <- (Nat.add_0_r (lx_pos l)), <- Hnth. cbn. congruence.
Qed.
Lemma text_run_bar f : forall l len t l', lex_wf l -> lx_next l = None -> lbar l -> nobar (lx_src l) (lx_pos l) ->
  text_run f l len = Ok (t, l') -> nobar (lx_src l) (lx_c l') /\ lbar l'.
Proof.
  induction f as [|f IH]; intros l len t l' Hw Hn Hb Hq E; [discriminate|]. cbn [text_run] in E.
  pose proof (lex_token_bar l Hw Hn Hb) as H. destruct (lex_token_ok l Hw Hn) as (o & l1 & E1 & Hs & _ & Hn1 & Hw1 & Ho). rewrite E1 in *.
  destruct o as [[k n]|].
  - destruct H as [H1 H2]. destruct Ho as (Ht & Hp & _). cbn [tlen] in Hp.
    assert (Hdone : nobar (lx_src l) (lx_c (lex_set_next l1 (Some (Tok k n)))) /\ lbar (lex_set_next l1 (Some (Tok k n)))).
    { split.
      - unfold lx_c, pend. cbn. rewrite Hp. replace (lx_pos l + n - n) with (lx_pos l) by lia. exact Hq.
      - destruct H2 as [H2 _]. split; [exact H2|]. cbn [lx_next lex_set_next lx_src lx_pos]. rewrite Hs. exact H1. }
    destruct k; try (injection E as <- <-; exact Hdone).
    rewrite <- Hs in *. eapply (IH l1); eauto. destruct H1 as [H1|H1]; [discriminate|exact H1].
  - injection E as <- <-. destruct Ho as (_ & Hp & _). split; [unfold lx_c, pend; cbn; rewrite Hp, Nat.sub_0_r; exact Hq|]. destruct H as [H _]. split; [exact H|exact I].
Qed.
Lemma lex_next_bar l o l' : lex_wf l -> lbar l -> lex_next l = Ok (o, l') ->
  lbar l' /\ match o with Some t => tbar (lx_src l) t (lx_c l') | None => True end.
Proof.
  intros Hw Hb E. unfold lex_next in E. destruct (lx_next l) as [t|] eqn:En.
  - injection E as <- <-. destruct Hb as [H1 H2]. rewrite En in H2. split; [split; [exact H1|exact I]|]. unfold lx_c, pend. cbn. rewrite Nat.sub_0_r. exact H2.
  - unfold next_token in E. pose proof (lex_token_bar l Hw En Hb) as H. destruct (lex_token_ok l Hw En) as (o1 & l1 & E1 & Hs & _ & Hn1 & Hw1 & Ho). rewrite E1 in *.
    assert (Hc : lx_c l1 = lx_pos l1) by (unfold lx_c, pend; rewrite Hn1; lia).
    destruct o1 as [[k n]|]; [|injection E as <- <-; auto]. destruct H as [H1 H2].
    destruct k; try (injection E as <- <-; rewrite Hc; auto; fail).
    destruct (text_run _ l1 n) as [[t2 l2]| |] eqn:Er; cbn [bind] in E; try discriminate. injection E as <- <-.
    destruct (text_run_bar _ _ _ _ _ Hw1 Hn1 H2 ltac:(rewrite Hs; destruct H1 as [H1|H1]; [discriminate|exact H1]) Er) as [A1 A2]. rewrite Hs in A1. split; [auto|right; exact A1].
Qed.
