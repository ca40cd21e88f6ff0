(** * PIds: heading ids and reference resolution *)
From Coq Require Import Permutation Sorted.
From Verif Require Import Base Lex Attr Block Inline Doc Lib PSafe SpecBlock.
Local Open Scope nat_scope.

(** ** Decimal numbers *)
Lemma code_digit d : (d < 10)%N -> (code (ascii_of_N (48 + d)) - 48 = d)%N.
Proof. intros H. unfold code. rewrite N_ascii_embedding by lia. lia. Qed.
Lemma dec_fuel_value : forall f n acc, (n < 2 ^ N.of_nat f)%N -> dec_value (dec_fuel f n acc) 0 = dec_value acc n \/ f = 0.
Proof.
  induction f as [|f IH]; intros n acc H; [auto|]. left. cbn [dec_fuel].
  pose proof (N.div_mod' n 10) as D. pose proof (N.mod_lt n 10 ltac:(lia)) as M.
  destruct (N.eqb (n / 10) 0) eqn:E.
  - apply N.eqb_eq in E. cbn [dec_value]. rewrite code_digit by auto. f_equal. lia.
  - apply N.eqb_neq in E. rewrite Nat2N.inj_succ, N.pow_succ_r' in H. destruct (IH (n / 10)%N (ascii_of_N (48 + n mod 10) :: acc)) as [->|Hf]; [apply N.div_lt_upper_bound; [lia|]; generalize dependent (2 ^ N.of_nat f)%N; clear; intros; lia| |].
    + cbn [dec_value]. rewrite code_digit by auto. f_equal. lia.
    + subst f. change (2 ^ N.of_nat 0)%N with 1%N in H. revert D M E H; generalize (n / 10)%N (n mod 10)%N; intros; lia.
Qed.
Lemma dec_value_dec n : dec_value (dec n) 0 = n.
Proof.
  unfold dec. destruct (dec_fuel_value (S (N.to_nat (N.log2 n))) n []) as [->|H]; [|reflexivity|discriminate].
  rewrite Nat2N.inj_succ, N2Nat.id. destruct (N.eq_dec n 0) as [->|Hn]; [reflexivity|]. apply N.log2_spec. lia.
Qed.
Lemma dec_inj a b : dec a = dec b -> a = b.
Proof. intros H. rewrite <- (dec_value_dec a), <- (dec_value_dec b), H. auto. Qed.
Lemma dec_nonempty n : dec n <> [].
Proof. intros H. pose proof (dec_value_dec n) as D. rewrite H in D. cbn in D. subst n. discriminate H. Qed.

(** ** Unique ids *)
Lemma mem_id_in id used : mem_id id used = true <-> List.In id used.
Proof.
  unfold mem_id. rewrite existsb_exists. split.
  - intros (x & Hx & E). apply bytes_eqb_eq in E. subst. auto.
  - intros H. exists id. split; [auto|apply bytes_eqb_refl].
Qed.
Lemma number_id_ok f : forall used base num,
  (exists j, j < f /\ ~ List.In (base ++ dec (num + N.of_nat j)) used) ->
  exists id k, number_id f used base num = Ok id /\ id = base ++ dec k /\ ~ List.In id used.
Proof.
  induction f as [|f IH]; intros used base num (j & Hj & Hn); [lia|]. cbn [number_id].
  destruct (mem_id (base ++ dec num) used) eqn:E.
  - apply IH. destruct j as [|j].
    + exfalso. apply Hn. rewrite N.add_0_r. apply mem_id_in. auto.
    + exists j. split; [lia|]. replace (num + 1 + N.of_nat j)%N with (num + N.of_nat (S j))%N by lia. auto.
  - exists (base ++ dec num), num. split; [auto|]. split; [auto|]. intros H. apply mem_id_in in H. congruence.
Qed.
(** Among [length used + 1] different candidates one is unused. *)
Lemma fresh used (g : nat -> bytes) : (forall i j, g i = g j -> i = j) -> exists j, j < S (length used) /\ ~ List.In (g j) used.
Proof.
  intros Hg. destruct (existsb (fun j => negb (mem_id (g j) used)) (List.seq 0 (S (length used)))) eqn:E.
  - apply existsb_exists in E. destruct E as (j & Hj & E). apply in_seq in Hj. exists j. split; [lia|].
    intros H. apply mem_id_in in H. rewrite H in E. discriminate.
  - exfalso. assert (Hinc : incl (map g (List.seq 0 (S (length used)))) used).
    { intros x Hx. apply in_map_iff in Hx. destruct Hx as (j & <- & Hj). apply mem_id_in.
      destruct (mem_id (g j) used) eqn:M; [auto|]. exfalso. assert (existsb (fun j => negb (mem_id (g j) used)) (List.seq 0 (S (length used))) = true).
      { apply existsb_exists. exists j. rewrite M. auto. } congruence. }
    assert (Hnd : NoDup (map g (List.seq 0 (S (length used))))).
    { clear - Hg. generalize 0. generalize (S (length used)). induction n as [|n IH]; intros k; cbn; constructor; auto.
      intros H. apply in_map_iff in H. destruct H as (j & Hj & H). apply Hg in Hj. apply in_seq in H. lia. }
    pose proof (NoDup_incl_length Hnd Hinc) as HL. rewrite map_length, seq_length in HL. lia.
Qed.
Theorem unique_id_ok used id : exists id', unique_id used id = Ok id' /\ ~ List.In id' used /\ id' <> [].
Proof.
  unfold unique_id. set (t := trim_end_m _ id). destruct (mem_id t used || is_nil t) eqn:E.
  - set (b := match t with [] => _ | _ => _ end).
    destruct (number_id_ok (S (length used)) used (b ++ B "-") 1) as (x & k & E1 & E2 & E3).
    { apply (fresh used (fun j => (b ++ B "-") ++ dec (1 + N.of_nat j))). intros i j H. apply app_inv_head, dec_inj in H. lia. }
    exists x. split; [auto|]. split; [auto|]. subst x. destruct b; discriminate.
  - apply orb_false_elim in E. destruct E as [E1 E2]. exists t. split; [auto|]. split; [intros H; apply mem_id_in in H; congruence|].
    intros ->. discriminate.
Qed.

(** ** The order of byte strings *)
Lemma bytes_cmp_eq a : forall b, bytes_cmp a b = Eq <-> a = b.
Proof.
  induction a as [|x a IH]; intros [|y b]; cbn; try (split; congruence).
  destruct (N.compare_spec (code x) (code y)) as [H|H|H].
  - rewrite IH. split; [|congruence]. intros ->. f_equal. apply (f_equal ascii_of_N) in H. unfold code in H. rewrite !ascii_N_embedding in H. auto.
  - split; [discriminate|]. intros E. injection E as -> ->. lia.
  - split; [discriminate|]. intros E. injection E as -> ->. lia.
Qed.
Lemma bytes_cmp_antisym a : forall b, bytes_cmp b a = CompOpp (bytes_cmp a b).
Proof.
  induction a as [|x a IH]; intros [|y b]; cbn; auto. rewrite N.compare_antisym. destruct (N.compare (code x) (code y)); cbn; auto.
Qed.
Lemma bytes_cmp_trans a : forall b c, bytes_cmp a b <> Gt -> bytes_cmp b c <> Gt -> bytes_cmp a c <> Gt.
Proof.
  induction a as [|x a IH]; intros [|y b] [|z c]; cbn; try congruence.
  destruct (N.compare_spec (code x) (code y)); destruct (N.compare_spec (code y) (code z)); destruct (N.compare_spec (code x) (code z)); try congruence; try lia; eauto.
Qed.
Definition ble (a b : bytes) : Prop := bytes_cmp a b <> Gt.

(** ** Sorting *)
Lemma insert_sorted_perm heads i l : Permutation (insert_sorted heads i l) (i :: l).
Proof.
  induction l as [|j l IH]; cbn; [auto|]. destruct (bytes_cmp _ _); auto.
  eapply perm_trans; [apply perm_skip, IH|apply perm_swap].
Qed.
Lemma sort_heads_perm heads : Permutation (sort_heads heads) (List.seq 0 (length heads)).
Proof.
  unfold sort_heads. induction (List.seq 0 (length heads)) as [|i l IH]; cbn; [auto|].
  eapply perm_trans; [apply insert_sorted_perm|]. auto.
Qed.
Definition hle heads i j := ble (head_text heads i) (head_text heads j).
Lemma insert_sorted_sorted heads i l : StronglySorted (hle heads) l -> StronglySorted (hle heads) (insert_sorted heads i l).
Proof.
  induction 1 as [|j l Hs IH Hf]; cbn; [repeat constructor|]. destruct (bytes_cmp (head_text heads i) (head_text heads j)) eqn:E.
  1,2: constructor; [constructor; auto|]; constructor; [unfold hle, ble; congruence|];
       eapply Forall_impl; [|exact Hf]; intros k Hk; eapply bytes_cmp_trans; [|exact Hk]; congruence.
  constructor; [exact IH|]. eapply Permutation_Forall; [apply Permutation_sym, insert_sorted_perm|]. constructor; [|auto].
  unfold hle, ble. rewrite bytes_cmp_antisym, E. discriminate.
Qed.
Lemma sort_heads_sorted heads : StronglySorted (hle heads) (sort_heads heads).
Proof. unfold sort_heads. induction (List.seq 0 (length heads)); cbn; [constructor|]. apply insert_sorted_sorted. auto. Qed.

(** ** Binary search *)
(** [cmp] is monotone: first the smaller elements, then the equal, then the greater. *)
Definition mono (cmp : nat -> comparison) (len : nat) : Prop :=
  (forall i j, i <= j < len -> cmp j <> Gt -> cmp i <> Gt) /\ (forall i j, i <= j < len -> cmp i = Eq -> cmp j <> Datatypes.Lt).
Lemma bs_loop_ok cmp len : mono cmp len -> forall f size base, size <= f -> 1 <= size -> base + size <= len ->
  (forall i, i < len -> base + size <= i -> cmp i = Gt) -> (base = 0 \/ cmp base <> Gt) ->
  (forall i, i < base -> cmp i = Eq -> cmp base = Eq) ->
  forall i, i < len -> cmp i = Eq -> cmp (bs_loop f cmp size base) = Eq.
Proof.
  intros [M1 M2]. induction f as [|f IH]; intros size base Hf H1 Hb Hhi Hlo Heq i Hi Ei; [lia|].
  cbn [bs_loop]. destruct (Nat.ltb 1 size) eqn:E.
  - apply Nat.ltb_lt in E. pose proof (Nat.div_mod size 2 ltac:(lia)) as D. pose proof (Nat.mod_upper_bound size 2 ltac:(lia)) as D'.
    set (half := size / 2) in *. assert (1 <= half) by lia. assert (half < size) by lia.
    destruct (cmp (base + half)) eqn:Ec.
    + eapply IH; eauto; try lia; [intros k Hk Hk2; apply Hhi; lia|right; congruence].
    + eapply IH; eauto; try lia; [intros k Hk Hk2; apply Hhi; lia|right; congruence|].
      intros k Hk Ek. exfalso. apply (M2 k (base + half)); auto; lia.
    + eapply IH; eauto; try lia. intros k Hk Hk2. destruct (cmp k) eqn:Ek; auto; exfalso; apply (M1 (base + half) k); auto; try lia; congruence.
  - apply Nat.ltb_ge in E. assert (size = 1) by lia. subst size.
    destruct (Nat.lt_trichotomy i base) as [H|[->|H]]; [eauto|auto|]. rewrite Hhi in Ei by lia. discriminate.
Qed.
Lemma bs_loop_lt cmp : forall f size base, 1 <= size -> bs_loop f cmp size base < base + size.
Proof.
  induction f as [|f IH]; intros size base H; cbn [bs_loop]; [lia|]. destruct (Nat.ltb 1 size) eqn:E; [|lia].
  apply Nat.ltb_lt in E. pose proof (Nat.div_mod size 2 ltac:(lia)) as D. pose proof (Nat.mod_upper_bound size 2 ltac:(lia)) as D'.
  set (half := size / 2) in *. destruct (cmp (base + half)).
  - specialize (IH (size - half) (base + half)). lia.
  - specialize (IH (size - half) (base + half)). lia.
  - specialize (IH (size - half) base). lia.
Qed.
Theorem binary_search_ok cmp len : mono cmp len ->
  match binary_search cmp len with
  | Some i => i < len /\ cmp i = Eq
  | None => forall i, i < len -> cmp i <> Eq
  end.
Proof.
  intros M. unfold binary_search. destruct len as [|len]; [intros; lia|].
  pose proof (bs_loop_lt cmp (S len) (S len) 0 ltac:(lia)) as Hlt.
  destruct (cmp (bs_loop (S len) cmp (S len) 0)) eqn:E; [split; [lia|auto]| |];
  intros i Hi Ei; assert (X : cmp (bs_loop (S len) cmp (S len) 0) = Eq) by (eapply (bs_loop_ok cmp (S len) M); eauto; intros; lia); congruence.
Qed.

(** ** Headings by text *)
Lemma nth_sorted {A} (R : A -> A -> Prop) l : StronglySorted R l -> forall i j x y, i < j -> nth_error l i = Some x -> nth_error l j = Some y -> R x y.
Proof.
  induction 1 as [|a l Hs IH Hf]; intros i j x y Hij Hi Hj; [destruct i; discriminate|].
  destruct j as [|j]; [lia|]. cbn in Hj. destruct i as [|i]; cbn in Hi.
  - injection Hi as <-. rewrite Forall_forall in Hf. apply Hf. eapply nth_error_In; eauto.
  - apply (IH i j); auto; lia.
Qed.
Lemma by_tag_ok heads defs tag :
  match heading_id_by_tag (PP defs heads (sort_heads heads)) tag with
  | Some id => exists h, List.In h heads /\ h_text h = tag /\ id = heading_id h
  | None => forall h, List.In h heads -> h_text h <> tag
  end.
Proof.
  unfold heading_id_by_tag. cbn [pp_heads pp_lex].
  set (cmp := fun i => _). pose proof (sort_heads_sorted heads) as Hs. pose proof (sort_heads_perm heads) as Hp.
  assert (Hin : forall j, List.In j (sort_heads heads) <-> j < length heads).
  { intros j. split; intros H; [apply (Permutation_in _ Hp) in H; apply in_seq in H; lia|].
    apply (Permutation_in _ (Permutation_sym Hp)). apply in_seq. lia. }
  assert (Hn : forall i, i < length (sort_heads heads) -> exists j, nth_error (sort_heads heads) i = Some j /\ j < length heads).
  { intros i Hi. destruct (nth_error (sort_heads heads) i) as [j|] eqn:E; [|apply nth_error_None in E; lia]. exists j. split; [auto|].
    apply Hin. eapply nth_error_In; eauto. }
  assert (M : mono cmp (length (sort_heads heads))).
  { split; intros i j Hij H; destruct (Nat.eq_dec i j) as [->|Hne]; [auto| |congruence|];
    destruct (Hn i) as (x & Ex & _); try lia; destruct (Hn j) as (y & Ey & _); try lia;
    pose proof (nth_sorted _ _ Hs i j x y ltac:(lia) Ex Ey) as Hle; unfold cmp in *; rewrite Ex in *; rewrite Ey in *.
    - eapply bytes_cmp_trans; eauto.
    - apply bytes_cmp_eq in H. unfold hle, ble in Hle. rewrite H in Hle. rewrite bytes_cmp_antisym.
      intros E. apply Hle. destruct (bytes_cmp tag (head_text heads y)); cbn in E; auto; discriminate. }
  pose proof (binary_search_ok cmp _ M) as H. destruct (binary_search cmp _) as [i|].
  - destruct H as [Hi E]. destruct (Hn i Hi) as (j & Ej & Hj). rewrite Ej. unfold cmp in E. rewrite Ej in E. apply bytes_cmp_eq in E.
    unfold head_text in E. destruct (nth_error heads j) as [h|] eqn:Eh; [|apply nth_error_None in Eh; lia]. cbn [option_map].
    exists h. split; [eapply nth_error_In; eauto|auto].
  - intros h Hh E. apply In_nth_error in Hh. destruct Hh as [j Hj].
    assert (j < length heads) by (apply nth_error_Some; congruence). apply Hin, In_nth_error in H0. destruct H0 as [i Hi].
    apply (H i); [apply nth_error_Some; congruence|]. unfold cmp. rewrite Hi. apply bytes_cmp_eq. unfold head_text. rewrite Hj. auto.
Qed.
