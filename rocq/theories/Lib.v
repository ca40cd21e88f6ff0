(** * Lib: general lemmas and tactics used by the proofs (no modelling here) *)
From Verif Require Import Base.
From Coq Require Import ZifyBool Permutation.
Local Open Scope nat_scope.

(** ** The error monad *)
Lemma bind_ok {A C} (r : res A) (f : A -> res C) c :
  bind r f = Ok c -> exists a, r = Ok a /\ f a = Ok c.
Proof. destruct r; simpl; intros; try discriminate; eauto. Qed.

Lemma assert_ok b w u : assert b w = Ok u -> b = true.
Proof. unfold assert; destruct b; congruence. Qed.
Lemma unwrap_ok {A} (o : option A) w a : unwrap o w = Ok a -> o = Some a.
Proof. destruct o; simpl; congruence. Qed.
Lemma usub_ok a b w n : usub a b w = Ok n -> b <= a /\ n = a - b.
Proof. unfold usub. destruct (Nat.leb_spec b a); intros H1; inversion H1; auto. Qed.
Lemma usub_yes a b w : b <= a -> usub a b w = Ok (a - b).
Proof. unfold usub. destruct (Nat.leb_spec b a); intros; auto; lia. Qed.
Lemma get_at_ok {A} (l : list A) i w x : get_at l i w = Ok x -> nth_error l i = Some x.
Proof. apply unwrap_ok. Qed.
Lemma set_at_ok {A} (l l' : list A) i x w : set_at l i x w = Ok l' -> i < length l /\ l' = upd l i x.
Proof. unfold set_at. destruct (Nat.ltb_spec i (length l)); intros H1; inversion H1; auto. Qed.
Lemma insert_at_ok {A} (l l' : list A) i x w :
  insert_at l i x w = Ok l' -> i <= length l /\ l' = firstn i l ++ x :: skipn i l.
Proof. unfold insert_at. destruct (Nat.leb_spec i (length l)); intros H1; inversion H1; auto. Qed.
Lemma bsub_ok src sp w b :
  bsub src sp w = Ok b -> ss sp <= se sp /\ se sp <= length src /\ b = slice src sp.
Proof.
  unfold bsub. destruct (Nat.leb_spec (ss sp) (se sp)), (Nat.leb_spec (se sp) (length src)); simpl;
    intros E; inversion E; auto.
Qed.
Lemma ssub_ok src sp w b :
  ssub src sp w = Ok b ->
  ss sp <= se sp /\ se sp <= length src /\ boundary src (ss sp) = true /\ boundary src (se sp) = true
  /\ b = slice src sp.
Proof.
  unfold ssub. destruct (Nat.leb_spec (ss sp) (se sp)), (Nat.leb_spec (se sp) (length src)); simpl;
    try discriminate.
  destruct (boundary src (ss sp)), (boundary src (se sp)); simpl; intros E; inversion E; auto.
Qed.
Lemma bsub_yes src sp w : ss sp <= se sp -> se sp <= length src -> bsub src sp w = Ok (slice src sp).
Proof.
  intros; unfold bsub. destruct (Nat.leb_spec (ss sp) (se sp)), (Nat.leb_spec (se sp) (length src));
    simpl; auto; lia.
Qed.
Lemma ssub_yes src sp w :
  ss sp <= se sp -> se sp <= length src -> boundary src (ss sp) = true -> boundary src (se sp) = true ->
  ssub src sp w = Ok (slice src sp).
Proof.
  intros ? ? H1 H2; unfold ssub. rewrite H1, H2.
  destruct (Nat.leb_spec (ss sp) (se sp)), (Nat.leb_spec (se sp) (length src)); simpl; auto; lia.
Qed.

(** Invert all monadic equations [_ = Ok _] in the context. *)
Ltac inv H := inversion H; subst; clear H.
Ltac mstep :=
  match goal with
  | H : Ok _ = Ok _ |- _ => injection H as H; subst
  | H : Ok _ = Ok _ |- _ => injection H as H
  | H : Panic _ = Ok _ |- _ => discriminate H
  | H : Fuel = Ok _ |- _ => discriminate H
  | H : bind _ _ = Ok _ |- _ =>
      apply bind_ok in H; let a := fresh "v" in let E := fresh "E" in destruct H as (a & E & H); cbv beta in H
  | H : (let (_, _) := ?p in _) = Ok _ |- _ => destruct p eqn:?
  | H : assert _ _ = Ok _ |- _ => apply assert_ok in H
  | H : unwrap _ _ = Ok _ |- _ => apply unwrap_ok in H
  | H : usub _ _ _ = Ok _ |- _ => apply usub_ok in H; destruct H
  | H : get_at _ _ _ = Ok _ |- _ => apply get_at_ok in H
  | H : set_at _ _ _ _ = Ok _ |- _ => apply set_at_ok in H; destruct H
  | H : insert_at _ _ _ _ = Ok _ |- _ => apply insert_at_ok in H; destruct H
  | H : bsub _ _ _ = Ok _ |- _ => apply bsub_ok in H; destruct H as (? & ? & ?)
  | H : ssub _ _ _ = Ok _ |- _ => apply ssub_ok in H; destruct H as (? & ? & ? & ? & ?)
  end.
Ltac msteps := repeat mstep.

(** ** Bytes *)
Lemma beq_eq a b : beq a b = true <-> a = b.
Proof. apply Ascii.eqb_eq. Qed.
Lemma beq_neq a b : beq a b = false <-> a <> b.
Proof. apply Ascii.eqb_neq. Qed.
Lemma beq_refl a : beq a a = true.
Proof. apply Ascii.eqb_refl. Qed.
Lemma bytes_eqb_eq a b : bytes_eqb a b = true <-> a = b.
Proof.
  revert b; induction a as [|x a IH]; intros [|y b]; simpl; split; intros H; try congruence.
  - apply andb_prop in H. destruct H as [H1 H2]. apply beq_eq in H1. apply IH in H2. congruence.
  - inv H. rewrite beq_refl. simpl. apply IH; reflexivity.
Qed.
Lemma bytes_eqb_refl a : bytes_eqb a a = true.
Proof. apply bytes_eqb_eq; reflexivity. Qed.
Lemma bytes_eqb_neq a b : bytes_eqb a b = false <-> a <> b.
Proof.
  split; intros H.
  - intros ->. rewrite bytes_eqb_refl in H. discriminate.
  - destruct (bytes_eqb a b) eqn:E; auto. apply bytes_eqb_eq in E. contradiction.
Qed.
Lemma bytes_eq_dec (a b : bytes) : {a = b} + {a <> b}.
Proof. apply list_eq_dec, ascii_dec. Qed.

(** Prove a statement about one byte by looking at all 256. *)
Ltac all_bytes c := destruct c as [[] [] [] [] [] [] [] []]; vm_compute; try reflexivity; try congruence; try intuition congruence.

(** Turn boolean hypotheses on bytes into equations. *)
Ltac beqs :=
  repeat match goal with
  | H : beq _ _ = true |- _ => apply beq_eq in H
  | H : beq _ _ = false |- _ => apply beq_neq in H
  | H : bytes_eqb _ _ = true |- _ => apply bytes_eqb_eq in H
  | H : bytes_eqb _ _ = false |- _ => apply bytes_eqb_neq in H
  | H : _ && _ = true |- _ => apply andb_prop in H; destruct H
  | H : _ || _ = false |- _ => apply orb_false_elim in H; destruct H
  | H : negb _ = true |- _ => apply negb_true_iff in H
  | H : negb _ = false |- _ => apply negb_false_iff in H
  end.

(** ** Lists *)
Lemma count_while_le {A} f (l : list A) : count_while f l <= length l.
Proof. induction l; simpl; auto. destruct (f a); lia. Qed.
Lemma count_while_firstn {A} f (l : list A) : forallb f (firstn (count_while f l) l) = true.
Proof. induction l; simpl; auto. destruct (f a) eqn:E; simpl; rewrite ?E; auto. Qed.
Lemma count_while_nth {A} f (l : list A) x : nth_error l (count_while f l) = Some x -> f x = false.
Proof. induction l; simpl; try discriminate. destruct (f a) eqn:E; simpl; auto. congruence. Qed.
Lemma count_while_lt {A} f (l : list A) i : i < count_while f l -> exists x, nth_error l i = Some x /\ f x = true.
Proof.
  revert i; induction l; simpl; intros i H; [lia|]. destruct (f a) eqn:E; [|lia].
  destruct i; simpl; eauto. apply IHl. lia.
Qed.
Lemma count_while_skipn {A} f (l : list A) :
  match skipn (count_while f l) l with x :: _ => f x = false | [] => True end.
Proof. induction l; simpl; auto. destruct (f a) eqn:E; simpl; auto. Qed.
Lemma count_while_app {A} f (l l' : list A) :
  forallb f l = true -> count_while f (l ++ l') = length l + count_while f l'.
Proof. induction l; simpl; auto. intros H; apply andb_prop in H. destruct H as [-> H]. rewrite IHl; auto. Qed.
Lemma count_while_stop {A} f (l l' : list A) x :
  forallb f l = true -> f x = false -> count_while f (l ++ x :: l') = length l.
Proof. intros. rewrite count_while_app by auto. simpl. rewrite H0. lia. Qed.
Lemma count_while_all {A} f (l : list A) : forallb f l = true -> count_while f l = length l.
Proof. induction l; simpl; auto. intros H; apply andb_prop in H. destruct H as [-> H]. auto. Qed.

Lemma upd_length {A} (l : list A) i x : length (upd l i x) = length l.
Proof. revert i; induction l; intros [|i]; simpl; auto. Qed.
Lemma upd_nth_eq {A} (l : list A) i x : i < length l -> nth_error (upd l i x) i = Some x.
Proof. revert i; induction l; intros [|i]; simpl; intros; auto; try lia. apply IHl; lia. Qed.
Lemma upd_nth_neq {A} (l : list A) i j x : i <> j -> nth_error (upd l i x) j = nth_error l j.
Proof. revert i j; induction l; intros [|i] [|j]; simpl; intros; auto; try lia. Qed.
Lemma upd_app_l {A} (l l' : list A) i x : i < length l -> upd (l ++ l') i x = upd l i x ++ l'.
Proof. revert i; induction l; intros [|i]; simpl; intros; auto; try lia. f_equal; apply IHl; lia. Qed.
Lemma upd_app_r {A} (l l' : list A) i x : upd (l ++ l') (length l + i) x = l ++ upd l' i x.
Proof. induction l; simpl; auto. f_equal; auto. Qed.
Lemma upd_split {A} (l : list A) i x y :
  nth_error l i = Some y -> l = firstn i l ++ y :: skipn (S i) l /\ upd l i x = firstn i l ++ x :: skipn (S i) l.
Proof.
  revert i; induction l; intros [|i]; simpl; intros H; try discriminate.
  - inv H. auto.
  - apply IHl in H. destruct H as [H1 H2]. split; f_equal; auto.
Qed.
Lemma last_opt_app {A} (l : list A) x : last_opt (l ++ [x]) = Some x.
Proof. unfold last_opt. rewrite app_length; simpl. rewrite nth_error_app2; [|lia]. replace (_ - _ - _) with 0 by lia. reflexivity. Qed.
Lemma butlast_app {A} (l : list A) x : butlast (l ++ [x]) = l.
Proof.
  unfold butlast. rewrite app_length; simpl. replace (length l + 1 - 1) with (length l) by lia.
  rewrite firstn_app, firstn_all, Nat.sub_diag, firstn_O, app_nil_r. reflexivity.
Qed.
Lemma last_opt_some {A} (l : list A) x : last_opt l = Some x <-> exists l', l = l' ++ [x].
Proof.
  split.
  - destruct l as [|a l] using rev_ind; [discriminate|]. rewrite last_opt_app. intros H; inv H. eauto.
  - intros [l' ->]. apply last_opt_app.
Qed.
Lemma last_opt_none {A} (l : list A) : last_opt l = None <-> l = [].
Proof.
  split.
  - destruct l as [|a l] using rev_ind; auto. rewrite last_opt_app. discriminate.
  - intros ->. reflexivity.
Qed.

Lemma rev_case {A} (l : list A) : l = [] \/ exists l' x, l = l' ++ [x].
Proof. destruct l using rev_ind; eauto. Qed.

Lemma skipn_skipn {A} n m (l : list A) : skipn n (skipn m l) = skipn (m + n) l.
Proof. revert l; induction m; intros l; simpl; auto. destruct l; simpl; auto. destruct n; auto. Qed.
Lemma firstn_skipn_comm {A} n m (l : list A) : firstn n (skipn m l) = skipn m (firstn (m + n) l).
Proof. revert l; induction m; intros l; simpl; auto. destruct l; simpl; auto. destruct n; auto. Qed.
Lemma nth_error_skipn {A} n (l : list A) i : nth_error (skipn n l) i = nth_error l (n + i).
Proof. revert l; induction n; intros l; simpl; auto. destruct l; simpl; auto. destruct i; auto. Qed.
Lemma nth_error_firstn {A} n (l : list A) i : i < n -> nth_error (firstn n l) i = nth_error l i.
Proof. revert l i; induction n; intros l i H; [lia|]. destruct l; simpl; auto. destruct i; simpl; auto. apply IHn; lia. Qed.
Lemma skipn_nil_iff {A} n (l : list A) : skipn n l = [] <-> length l <= n.
Proof. revert n; induction l; intros [|n]; simpl; split; intros; auto; try discriminate; try lia. apply IHl in H; lia. apply IHl; lia. Qed.
Lemma skipn_cons_nth {A} n (l : list A) x r : skipn n l = x :: r -> nth_error l n = Some x /\ r = skipn (S n) l.
Proof. revert n; induction l; intros [|n]; simpl; intros H; try discriminate. inv H; auto. apply IHl in H. auto. Qed.
Lemma nth_skipn_cons {A} n (l : list A) x : nth_error l n = Some x -> skipn n l = x :: skipn (S n) l.
Proof. revert n; induction l; intros [|n]; simpl; intros H; try discriminate. inv H; auto. apply IHl in H. auto. Qed.

(** ** Slices *)
Lemma slice_length src sp : ss sp <= se sp -> se sp <= length src -> length (slice src sp) = se sp - ss sp.
Proof. intros; unfold slice. rewrite firstn_length, skipn_length. lia. Qed.
Lemma slice_nth src sp i : i < se sp - ss sp -> nth_error (slice src sp) i = nth_error src (ss sp + i).
Proof. intros. unfold slice. rewrite nth_error_firstn by auto. apply nth_error_skipn. Qed.
Lemma slice_app src a b c : a <= b -> b <= c -> slice src (Sp a b) ++ slice src (Sp b c) = slice src (Sp a c).
Proof.
  intros; unfold slice; simpl. rewrite <- (firstn_skipn (b - a) (skipn a src)) at 2.
  rewrite firstn_app, firstn_firstn, firstn_length.
  replace (Nat.min (c - a) (b - a)) with (b - a) by lia. f_equal.
  rewrite skipn_skipn. replace (a + (b - a)) with b by lia.
  destruct (Nat.leb_spec (length (skipn a src)) (b - a)) as [L|L].
  { rewrite skipn_length in L. rewrite (proj2 (skipn_nil_iff b src)) by lia.
    rewrite !firstn_nil. reflexivity. }
  rewrite Nat.min_l by lia. f_equal. lia.
Qed.
Lemma slice_full src : slice src (Sp 0 (length src)) = src.
Proof. unfold slice; simpl. rewrite Nat.sub_0_r. apply firstn_all. Qed.

(** ** Trimming *)
Lemma trim_start_skipn f s : trim_start_m f s = skipn (count_while f s) s.
Proof. induction s; simpl; auto. destruct (f a); auto. Qed.
Lemma trim_start_len f s : length (trim_start_m f s) = length s - count_while f s.
Proof. rewrite trim_start_skipn. apply skipn_length. Qed.
Lemma trim_end_spec f s :
  exists t, s = trim_end_m f s ++ t /\ forallb f t = true
            /\ match last_opt (trim_end_m f s) with Some x => f x = false | None => True end.
Proof.
  induction s as [|c s (t & H1 & H2 & H3)].
  { exists []. simpl. auto. }
  simpl. destruct (trim_end_m f s) as [|d u] eqn:E.
    + simpl in H1. subst t. destruct (f c) eqn:Ec.
      * exists (c :: s). simpl. rewrite Ec, H2. auto.
      * exists s. simpl. auto.
    + exists t. split; [simpl; rewrite H1; reflexivity|]. split; auto.
      change (last_opt (c :: d :: u)) with (nth_error (c :: d :: u) (S (length u))).
      change (last_opt (d :: u)) with (nth_error (d :: u) (length u - 0)) in H3.
      rewrite Nat.sub_0_r in H3. simpl in *. exact H3.
Qed.
Lemma trim_end_le f s : length (trim_end_m f s) <= length s.
Proof. destruct (trim_end_spec f s) as (t & H & _). rewrite H at 2. rewrite app_length. lia. Qed.
Lemma trim_end_prefix f s : trim_end_m f s = firstn (length (trim_end_m f s)) s.
Proof.
  destruct (trim_end_spec f s) as (t & H & _). rewrite H at 3.
  rewrite firstn_app, firstn_all, Nat.sub_diag, firstn_O, app_nil_r. reflexivity.
Qed.
