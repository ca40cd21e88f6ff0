(** * PSafe: reasoning about results *)
From Verif Require Import Base Lib.
Local Open Scope nat_scope.

(** [safe L P r]: [r] is a value satisfying [P], or a panic allowed by [L]; it does not run out of fuel. *)
Definition safe {A} (L : string -> Prop) (P : A -> Prop) (r : res A) : Prop :=
  match r with Ok a => P a | Panic w => L w | Fuel => False end.
Definition nolimit : string -> Prop := fun _ => False.

Lemma safe_ok {A} L (P : A -> Prop) a : P a -> safe L P (Ok a).
Proof. auto. Qed.
Lemma safe_bind {A C} L (P : A -> Prop) (Q : C -> Prop) r f :
  safe L P r -> (forall a, P a -> safe L Q (f a)) -> safe L Q (bind r f).
Proof. destruct r; cbn; auto. Qed.
(** Remember the equation of the intermediate result. *)
Lemma safe_bind_eq {A C} L (P : A -> Prop) (Q : C -> Prop) r f :
  safe L P r -> (forall a, r = Ok a -> P a -> safe L Q (f a)) -> safe L Q (bind r f).
Proof. destruct r; cbn; auto. Qed.
Lemma safe_mono {A} (L L' : string -> Prop) (P Q : A -> Prop) r :
  safe L P r -> (forall w, L w -> L' w) -> (forall a, P a -> Q a) -> safe L' Q r.
Proof. destruct r; cbn; auto. Qed.
Lemma safe_weaken {A} L (P Q : A -> Prop) r : safe L P r -> (forall a, P a -> Q a) -> safe L Q r.
Proof. destruct r; cbn; auto. Qed.
Lemma safe_no {A} L (P : A -> Prop) r : safe nolimit P r -> safe L P r.
Proof. intros H. eapply safe_mono; eauto. intros w []. Qed.
Lemma safe_ex {A} (P : A -> Prop) r : safe nolimit P r <-> exists a, r = Ok a /\ P a.
Proof.
  split.
  - destruct r; cbn; intros H; try contradiction. eauto.
  - intros (a & -> & H). exact H.
Qed.
Lemma safe_eq {A} L (P : A -> Prop) r a : r = Ok a -> P a -> safe L P r.
Proof. intros -> H. exact H. Qed.
Lemma safe_conj {A} L (P Q : A -> Prop) r : safe L P r -> safe L Q r -> safe L (fun a => P a /\ Q a) r.
Proof. destruct r; cbn; auto. Qed.
Lemma safe_here {A} L (P : A -> Prop) r a : safe L P r -> r = Ok a -> P a.
Proof. intros H ->. exact H. Qed.

Lemma safe_assert L (P : unit -> Prop) b w : b = true -> P tt -> safe L P (assert b w).
Proof. intros -> H. exact H. Qed.
Lemma safe_unwrap {A} L (P : A -> Prop) o w a : o = Some a -> P a -> safe L P (unwrap o w).
Proof. intros -> H. exact H. Qed.
Lemma safe_usub L (P : nat -> Prop) a b w : b <= a -> P (a - b) -> safe L P (usub a b w).
Proof. intros H HP. rewrite usub_yes by auto. exact HP. Qed.
Lemma safe_get_at {A} L (P : A -> Prop) l i w a : nth_error l i = Some a -> P a -> safe L P (get_at l i w).
Proof. unfold get_at. apply safe_unwrap. Qed.
Lemma get_at_yes {A} (l : list A) i w a : nth_error l i = Some a -> get_at l i w = Ok a.
Proof. unfold get_at. intros ->. reflexivity. Qed.
Lemma set_at_yes {A} (l : list A) i x w : i < length l -> set_at l i x w = Ok (upd l i x).
Proof. unfold set_at. intros H. apply Nat.ltb_lt in H. rewrite H. reflexivity. Qed.
Lemma insert_at_yes {A} (l : list A) i x w : i <= length l -> insert_at l i x w = Ok (firstn i l ++ x :: skipn i l).
Proof. unfold insert_at. intros H. apply Nat.leb_le in H. rewrite H. reflexivity. Qed.
Lemma get_at_some {A} (l : list A) i w : i < length l -> exists a, nth_error l i = Some a /\ get_at l i w = Ok a.
Proof.
  intros H. destruct (nth_error l i) eqn:E; [|apply nth_error_None in E; lia].
  eexists. split; [reflexivity|]. apply get_at_yes. auto.
Qed.

(** [lia] with only the numeric hypotheses. *)
Ltac qlia :=
  repeat match goal with
  | H : ?T |- _ =>
      lazymatch T with
      | @eq nat _ _ => fail | (_ <= _)%nat => fail | (_ < _)%nat => fail | nat => fail
      | ~ (@eq nat _ _) => fail | (_ \/ _) => fail
      | (_ /\ _) => destruct H
      | _ => clear H
      end
  end; lia.
