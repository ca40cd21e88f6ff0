(** * PAttr5: queries, display, printing and reparsing of attributes *)
From Verif Require Import Base Attr Lib SpecAttr PAttr PAttr2 PAttr3.
Local Open Scope nat_scope.
Local Open Scope char_scope.

(** ** Queries *)
Definition has (key : bytes) (e : attr_elem) : bool :=
  match elem_key e with
  | Some k => if list_eq_dec ascii_dec k key then true else false
  | None => false
  end.
Lemma akey_elem e : akey (fst e) = elem_key e.
Proof. destruct e as [[] v]; reflexivity. Qed.
Lemma akey_is_has key e : akey_is key (fst e) = has key e.
Proof.
  unfold akey_is, has. rewrite akey_elem. destruct (elem_key e) as [k|]; auto.
  destruct (list_eq_dec ascii_dec k key) as [->|n]; [apply bytes_eqb_refl|].
  apply bytes_eqb_neq; auto.
Qed.
Lemma has_iff key e : has key e = true <-> elem_key e = Some key.
Proof.
  unfold has. destruct (elem_key e) as [k|]; [|split; discriminate].
  destruct (list_eq_dec ascii_dec k key); split; congruence.
Qed.
Lemma values_of_has a key : values_of a key = map snd (filter (has key) a).
Proof. reflexivity. Qed.
Lemma contains_key_spec a key :
  contains_key a key = true <-> exists e, In e a /\ elem_key e = Some key.
Proof.
  unfold contains_key. rewrite existsb_exists. split; intros (e & H1 & H2); exists e; split; auto.
  - rewrite akey_is_has in H2. apply has_iff; auto.
  - rewrite akey_is_has. apply has_iff; auto.
Qed.
Lemma values_of_nil a key : values_of a key = [] <-> contains_key a key = false.
Proof.
  rewrite values_of_has. unfold contains_key. induction a as [|e a IH]; [simpl; tauto|].
  simpl. rewrite akey_is_has. destruct (has key e); simpl; [split; discriminate|]. exact IH.
Qed.
Lemma find_rev_last {A} (f : A -> bool) l : find f (rev l) = match filter f l with [] => None | x :: t => Some (last t x) end.
Proof.
  induction l as [|x l IH] using rev_ind; [reflexivity|].
  rewrite rev_app_distr, filter_app. simpl. destruct (f x).
  - destruct (filter f l) as [|y t]; simpl; [reflexivity|]. rewrite last_last. reflexivity.
  - rewrite app_nil_r. exact IH.
Qed.
Lemma last_map {A C} (f : A -> C) l d : last (map f l) (f d) = f (last l d).
Proof. induction l as [|x l IH]; auto. simpl. destruct l; simpl in *; auto. Qed.
Lemma last_default {A} (l : list A) d d' : l <> [] -> last l d = last l d'.
Proof. induction l as [|x l IH]; [congruence|]. intros _. destruct l; auto. apply IH. discriminate. Qed.
Lemma rfind_key_spec a key :
  rfind_key a key = match values_of a key with [] => None | vs => Some (last vs []) end.
Proof.
  unfold rfind_key. rewrite values_of_has.
  assert (E : find (fun e => akey_is key (fst e)) (rev a) = find (has key) (rev a)).
  { induction (rev a) as [|x l IH]; auto. simpl. rewrite akey_is_has, IH. reflexivity. }
  rewrite E, find_rev_last. destruct (filter (has key) a) as [|x t]; [reflexivity|].
  cbn [map]. unfold option_map. f_equal. symmetry. etransitivity; [|apply (last_map snd t x)].
  destruct t as [|p t]; [reflexivity|]. cbn [map].
  change (last (snd x :: snd p :: map snd t) []) with (last (snd p :: map snd t) []).
  apply last_default. discriminate.
Qed.
Lemma fold_class a : forall v,
  fold_left (fun v e => if akey_is (B "class") (fst e) then extend v (snd e) else v) a v
  = join_sp (v :: values_of a (B "class")).
Proof.
  intros v. rewrite <- extend_join, values_of_has. revert v.
  induction a as [|e a IH]; intros v; [reflexivity|].
  cbn [fold_left filter]. rewrite akey_is_has. destruct (has (B "class") e); cbn [map fold_left]; apply IH.
Qed.

Theorem get_value_spec a key :
  get_value a key =
  (if list_eq_dec ascii_dec key (B "class")
   then match join_sp (values_of a key) with [] => None | v => Some v end
   else match values_of a key with [] => None | vs => Some (last vs []) end).
Proof.
  unfold get_value. destruct (list_eq_dec ascii_dec key (B "class")) as [->|n].
  - rewrite bytes_eqb_refl, fold_class. reflexivity.
  - apply bytes_eqb_neq in n. rewrite n. apply rfind_key_spec.
Qed.

(** [unique_pairs] *)
Definition fresh_keys (before rest : attrs) : list bytes :=
  filter (fun k => negb (contains_key before k)) (keys_of rest).
Lemma contains_key_app a b k : contains_key (a ++ b) k = contains_key a k || contains_key b k.
Proof. apply existsb_app. Qed.
Lemma values_of_app a b k : values_of (a ++ b) k = values_of a k ++ values_of b k.
Proof. rewrite !values_of_has, filter_app, map_app. reflexivity. Qed.
Lemma filter_filter {A} (f g : A -> bool) l : filter f (filter g l) = filter (fun x => f x && g x) l.
Proof. induction l as [|x l IH]; auto. simpl. destruct (g x); simpl; destruct (f x); simpl; rewrite ?IH; auto. Qed.
Lemma filter_ext_in' {A} (f g : A -> bool) l : (forall x, f x = g x) -> filter f l = filter g l.
Proof. intros H. induction l; auto. simpl. rewrite H, IHl. reflexivity. Qed.

Lemma combined_cons k v vs : vs <> [] ->
  combined k (v :: vs) = if list_eq_dec ascii_dec k (B "class") then join_sp (v :: vs) else last vs [].
Proof. intros. unfold combined. destruct vs; [congruence|]. reflexivity. Qed.

Lemma pairs_loop_spec rest : forall before,
  pairs_loop before rest = map (fun k => (k, combined k (values_of rest k))) (fresh_keys before rest).
Proof.
  unfold fresh_keys. induction rest as [|[kd v] rest IH]; intros before; [reflexivity|].
  cbn [pairs_loop keys_of]. rewrite IH. rewrite <- (akey_elem (kd, v)). cbn [fst].
  destruct (akey kd) as [key|] eqn:Ek.
  2:{ rewrite (filter_ext_in' _ (fun k => negb (contains_key before k))).
      - apply map_ext. intros k. f_equal. rewrite (values_of_has (_ :: _)). cbn [filter].
        unfold has at 1. rewrite <- akey_elem. cbn [fst]. rewrite Ek. reflexivity.
      - intros k. rewrite contains_key_app. simpl. unfold akey_is. rewrite Ek. simpl. rewrite orb_false_r. reflexivity. }
  fold (contains_key before key).
  assert (Hval : forall k, k <> key -> values_of ((kd, v) :: rest) k = values_of rest k).
  { intros k Hk. rewrite !values_of_has. cbn [filter]. unfold has at 1. rewrite <- akey_elem. cbn [fst]. rewrite Ek.
    destruct (list_eq_dec ascii_dec key k); [congruence|reflexivity]. }
  assert (Hkey : values_of ((kd, v) :: rest) key = v :: values_of rest key).
  { rewrite !values_of_has. cbn [filter]. unfold has at 1. rewrite <- akey_elem. cbn [fst]. rewrite Ek.
    destruct (list_eq_dec ascii_dec key key); [reflexivity|congruence]. }
  assert (Htail :
    map (fun k => (k, combined k (values_of rest k)))
        (filter (fun k => negb (contains_key (before ++ [(kd, v)]) k)) (keys_of rest))
    = map (fun k => (k, combined k (values_of ((kd, v) :: rest) k)))
        (filter (fun k => negb (contains_key before k))
           (filter (fun k' => if list_eq_dec ascii_dec key k' then false else true) (keys_of rest)))).
  { rewrite filter_filter.
    rewrite (filter_ext_in' (fun k => negb (contains_key (before ++ [(kd, v)]) k))
               (fun x => negb (contains_key before x) && (if list_eq_dec ascii_dec key x then false else true))).
    - apply map_ext_in. intros k Hk. apply filter_In in Hk. destruct Hk as [_ Hk].
      apply andb_prop in Hk. destruct Hk as [_ Hk].
      destruct (list_eq_dec ascii_dec key k); [discriminate|]. rewrite Hval by auto. reflexivity.
    - intros k. rewrite contains_key_app. simpl. unfold akey_is. rewrite Ek.
      destruct (list_eq_dec ascii_dec key k) as [->|n].
      + rewrite bytes_eqb_refl. simpl. rewrite orb_true_r, andb_false_r. reflexivity.
      + apply bytes_eqb_neq in n. rewrite n. simpl. rewrite orb_false_r, andb_true_r. reflexivity. }
  unfold contains_key in *. cbn [filter].
  destruct (existsb (fun e => akey_is key (fst e)) before) eqn:Eb; cbn [negb map]; [exact Htail|].
  refine (eq_trans _ (f_equal2 (@cons _) (f_equal (fun x => (key, combined key x)) (eq_sym Hkey)) Htail)).
  cbv beta. clear IH Hval Hkey Htail. set (T := map _ _). unfold combined.
  destruct (list_eq_dec ascii_dec key (B "class")) as [->|n].
  - rewrite bytes_eqb_refl. rewrite fold_class. reflexivity.
  - apply bytes_eqb_neq in n. rewrite n. rewrite rfind_key_spec.
    destruct (values_of rest key) as [|w ws]; reflexivity.
Qed.
Theorem unique_pairs_spec a :
  unique_pairs a = map (fun k => (k, combined k (values_of a k))) (keys_of a).
Proof.
  unfold unique_pairs. rewrite pairs_loop_spec. unfold fresh_keys. f_equal.
  induction (keys_of a); simpl; auto. f_equal; auto.
Qed.
Theorem keys_of_spec a : NoDup (keys_of a) /\ forall k, In k (keys_of a) <-> contains_key a k = true.
Proof.
  induction a as [|e a [IH1 IH2]]; [split; [constructor|]; simpl; split; [tauto|discriminate]|].
  cbn [keys_of]. unfold contains_key in *. cbn [existsb].
  assert (HI : forall k0 k (l : list bytes), In k (filter (fun k' => if list_eq_dec ascii_dec k0 k' then false else true) l)
               <-> In k l /\ k <> k0).
  { intros k0 k l. rewrite filter_In. destruct (list_eq_dec ascii_dec k0 k); split; intros [? ?]; split; auto; congruence. }
  destruct (elem_key e) as [k0|] eqn:Ek.
  - split.
    + constructor; [rewrite HI; tauto|]. apply NoDup_filter; auto.
    + intros k. simpl. rewrite HI, akey_is_has. unfold has. rewrite Ek.
      destruct (list_eq_dec ascii_dec k0 k) as [->|n]; simpl; [tauto|]. rewrite IH2. split; [tauto|].
      intros ?. destruct (list_eq_dec ascii_dec k k0); [congruence|auto].
  - split; auto. intros k. rewrite akey_is_has. unfold has. rewrite Ek. simpl. apply IH2.
Qed.

(** ** Display *)
Lemma part_scan_spec rest : forall acc,
  match part_scan acc rest with
  | Some (p, r) => exists q, p = rev acc ++ q /\ unescape rest = q ++ unescape r /\ length r < length rest
  | None => unescape rest = rest
  end.
Proof.
  induction rest as [|c rest IH]; intros acc; [reflexivity|].
  cbn [part_scan].
  assert (Hrec : (beq c BSL = false \/ hd_is is_punct rest = false) ->
    match part_scan (c :: acc) rest with
    | Some (p, r) => exists q, p = rev acc ++ q /\ unescape (c :: rest) = q ++ unescape r /\ length r < length (c :: rest)
    | None => unescape (c :: rest) = c :: rest
    end).
  { intros Hc. assert (Hu : unescape (c :: rest) = c :: unescape rest).
    { cbn [unescape]. destruct rest as [|d r]; auto. simpl in Hc. destruct Hc as [-> | ->]; auto. rewrite andb_false_r; auto. }
    specialize (IH (c :: acc)). destruct (part_scan (c :: acc) rest) as [[p r]|].
    - destruct IH as (q & H1 & H2 & H3). exists (c :: q). rewrite Hu, H2. split; [|split; simpl; auto].
      rewrite H1. simpl. rewrite <- app_assoc. reflexivity.
    - rewrite Hu, IH. reflexivity. }
  destruct (beq c BSL) eqn:Ec; [|apply Hrec; auto].
  destruct rest as [|d rest]; [apply Hrec; auto|].
  destruct (beq d BSL) eqn:Ed.
  - beqs; subst. exists [BSL]. cbn [rev]. split; auto. split; [reflexivity|simpl; lia].
  - destruct (is_punct d) eqn:Ep.
    + exists []. rewrite app_nil_r. split; auto. split; [|simpl; lia].
      simpl app. cbn [unescape]. rewrite Ec, Ep. cbn [andb].
      destruct rest; [reflexivity|]. rewrite Ed. reflexivity.
    + apply Hrec. right. exact Ep.
Qed.
Lemma parts_fuel_spec n : forall s, length s < n -> concat (parts_fuel n s) = unescape s.
Proof.
  induction n as [|n IH]; intros s Hn; [lia|]. cbn [parts_fuel]. unfold part_next.
  pose proof (part_scan_spec s []) as H. destruct (part_scan [] s) as [[p r]|].
  - destruct H as (q & H1 & H2 & H3). simpl in H1. subst p. cbn [concat]. rewrite IH by lia. auto.
  - destruct s as [|c s]; [reflexivity|]. cbn [concat]. rewrite IH by (simpl in *; lia).
    rewrite H. cbn [unescape]. apply app_nil_r.
Qed.
Theorem display_unescape raw : value_display raw = unescape raw.
Proof. apply parts_fuel_spec. lia. Qed.

(** ** Printing and reparsing *)
Lemma wfb_app x y : wfb x -> wfb y -> wfb (x ++ y).
Proof.
  intros [X1 X2] [Y1 Y2]. split.
  - destruct x; [exact Y1|exact X1].
  - intros i c Hi Hc. destruct (Nat.ltb_spec i (length x)) as [L|L].
    + rewrite nth_error_app1 in Hi by auto. specialize (X2 i c Hi Hc).
      destruct (Nat.eq_dec (S i) (length x)) as [E|].
      * rewrite E. unfold boundary in *. rewrite nth_error_app2, Nat.sub_diag by lia.
        destruct (nth_error y 0) eqn:Ey; auto. rewrite app_length. destruct y; [|discriminate]. simpl.
        apply Nat.eqb_eq. lia.
      * rewrite boundary_app by lia. exact X2.
    + rewrite nth_error_app2 in Hi by auto. specialize (Y2 _ c Hi Hc).
      unfold boundary in *. rewrite nth_error_app2 by lia. replace (S i - length x) with (S (i - length x)) by lia.
      destruct (nth_error y (S (i - length x))); auto. rewrite app_length.
      apply Nat.eqb_eq in Y2. apply Nat.eqb_eq. lia.
Qed.
Lemma wfb_nil : wfb [].
Proof. split; [reflexivity|]. intros [|i]; discriminate. Qed.
Lemma wfb_cons_ascii c s : ascii7 c = true -> wfb s -> wfb (c :: s).
Proof.
  intros Hc Hs. change (c :: s) with ([c] ++ s). apply wfb_app; auto.
  split.
  - unfold boundary; simpl. revert Hc. all_bytes c.
  - intros [|[|i]]; simpl; try discriminate. intros d _ _. reflexivity.
Qed.
Lemma wfb_ascii s : forallb ascii7 s = true -> wfb s.
Proof.
  induction s as [|c s IH]; intros H; [apply wfb_nil|]. simpl in H. apply andb_prop in H. destruct H.
  apply wfb_cons_ascii; auto.
Qed.
Lemma wfb_tail c s : ascii7 c = true -> wfb (c :: s) -> wfb s.
Proof.
  intros Hc [H1 H2]. split; [exact (H2 0 c eq_refl Hc)|]. intros i d Hi Hd. exact (H2 (S i) d Hi Hd).
Qed.
Lemma wfb_tails x s : forallb ascii7 x = true -> wfb (x ++ s) -> wfb s.
Proof.
  induction x as [|c x IH]; intros H Hw; auto. simpl in H. apply andb_prop in H. destruct H.
  apply IH; auto. eapply wfb_tail; eauto.
Qed.
(** the forall part alone, kept by dropping any prefix *)
Lemma wfb_mid x c s : ascii7 c = true -> wfb (x ++ c :: s) -> wfb s.
Proof.
  intros Hc [H1 H2].
  assert (Hb : forall i, boundary (x ++ c :: s) (S (length x + i)) = boundary s i).
  { intros i. unfold boundary. rewrite nth_error_app2 by lia. replace (S (length x + i) - length x) with (S i) by lia.
    cbn [nth_error]. destruct (nth_error s i); auto. rewrite app_length; cbn [length]. destruct (Nat.eqb_spec i (length s)).
    - apply Nat.eqb_eq. lia.
    - apply Nat.eqb_neq. lia. }
  split.
  - rewrite <- Hb. rewrite Nat.add_0_r. apply (H2 (length x) c); auto.
    rewrite nth_error_app2, Nat.sub_diag by lia. reflexivity.
  - intros i d Hi Hd. rewrite <- Hb. replace (length x + S i) with (S (length x + i)) by lia.
    apply (H2 (S (length x + i)) d); auto. rewrite nth_error_app2 by lia.
    replace (S (length x + i) - length x) with (S i) by lia. exact Hi.
Qed.
Lemma name_ascii c : name_char c -> ascii7 c = true.
Proof. intros H. apply name_char_is in H. revert H. all_bytes c. Qed.
Lemma gname_ascii n : gname n -> forallb ascii7 n = true.
Proof. intros [_ H]. apply forallb_forall. rewrite Forall_forall in H. auto using name_ascii. Qed.

Lemma wfb_join_nl ls : wfb (join_nl ls) -> Forall wfb ls.
Proof.
  induction ls as [|l ls IH]; intros H; [constructor|]. destruct ls as [|l' ls].
  - constructor; auto.
  - change (join_nl (l :: l' :: ls)) with (l ++ NL :: join_nl (l' :: ls)) in H. constructor.
    + eapply wfb_prefix; eauto.
    + apply IH. eapply wfb_mid; [|exact H]. reflexivity.
Qed.
Lemma wfb_join_sp ls : Forall wfb ls -> wfb (join_sp ls).
Proof.
  induction 1 as [|l ls H1 H2 IH]; [apply wfb_nil|]. simpl. destruct l as [|c l]; auto.
  destruct (join_sp ls) as [|d r]; auto. apply (wfb_app (c :: l)); auto. apply wfb_cons_ascii; auto.
Qed.
Lemma wfb_gquoted q v : gquoted q v -> wfb q -> wfb v.
Proof.
  intros H Hw. destruct H.
  - auto.
  - apply wfb_join_sp. constructor; [eapply wfb_prefix; eauto|]. apply wfb_join_nl.
    eapply wfb_mid; [|exact Hw]. reflexivity.
  - apply wfb_join_sp, wfb_join_nl. change (q ++ BSL :: NL :: join_nl ls) with (q ++ [BSL] ++ NL :: join_nl ls) in Hw.
    rewrite app_assoc in Hw. eapply wfb_mid; [|exact Hw]. reflexivity.
Qed.
Lemma wfb_iff_cons c s : wfb (c :: s) <-> is_cont c = false /\ (ascii7 c = true -> boundary s 0 = true)
   /\ (forall i d, nth_error s i = Some d -> ascii7 d = true -> boundary s (S i) = true).
Proof.
  split.
  - intros [H1 H2]. split; [|split].
    + unfold boundary in H1. simpl in H1. apply negb_true_iff in H1. exact H1.
    + intros Hc. exact (H2 0 c eq_refl Hc).
    + intros i d Hi Hd. exact (H2 (S i) d Hi Hd).
  - intros (H1 & H2 & H3). split.
    + unfold boundary; simpl. rewrite H1. reflexivity.
    + intros [|i] d Hi Hd; simpl in Hi.
      * injection Hi as <-. rewrite boundary_cons. auto.
      * rewrite boundary_cons. eauto.
Qed.
Definition wfi (s : bytes) : Prop := forall i d, nth_error s i = Some d -> ascii7 d = true -> boundary s (S i) = true.
Lemma collapse_wfi s : wfi s -> wfi (collapse s) /\ (boundary s 0 = true -> boundary (collapse s) 0 = true).
Proof.
  induction s as [|c s IH]; intros H; [auto|].
  assert (Hs : wfi s) by (intros i d Hi Hd; exact (H (S i) d Hi Hd)).
  destruct (IH Hs) as [I1 I2]. cbn [collapse].
  destruct (beq c NL && starts_c s NL) eqn:E.
  - split; auto. intros _. apply I2. exact (H 0 c eq_refl ltac:(beqs; subst; reflexivity)).
  - split.
    + intros [|i] d Hi Hd; simpl in Hi; rewrite boundary_cons.
      * injection Hi as <-. apply I2. exact (H 0 c eq_refl Hd).
      * eapply I1; eauto.
    + intros Hb. exact Hb.
Qed.
Lemma collapse_wfb s : wfb s -> wfb (collapse s).
Proof. intros [H1 H2]. apply collapse_wfi in H2. destruct H2. split; auto. Qed.

Definition ewfb (e : attr_elem) : Prop := wfb (snd e) /\ match fst e with KPair k => wfb k | _ => True end.
Lemma gitems_wfb s a : gitems s a -> wfb s -> Forall ewfb a.
Proof.
  induction 1; intros Hw; try (constructor; [split; cbn [fst snd]; auto|]).
  - constructor.
  - apply IHgitems. apply wfb_tail in Hw; auto. revert H; all_bytes c.
  - apply wfb_ascii, gname_ascii; auto.
  - apply IHgitems. apply wfb_tail in Hw; [|reflexivity]. apply wfb_tails in Hw; auto using gname_ascii.
  - apply wfb_ascii, gname_ascii; auto.
  - apply IHgitems. apply wfb_tail in Hw; [|reflexivity]. apply wfb_tails in Hw; auto using gname_ascii.
  - apply wfb_ascii, gname_ascii; auto.
  - apply wfb_ascii, gname_ascii; auto.
  - apply IHgitems. apply wfb_tails in Hw; auto using gname_ascii. apply wfb_tail in Hw; [|reflexivity].
    apply wfb_tails in Hw; auto using gname_ascii.
  - eapply wfb_gquoted; eauto. apply wfb_tails in Hw; auto using gname_ascii. apply wfb_tail in Hw; [|reflexivity].
    apply wfb_tail in Hw; [|reflexivity]. eapply wfb_prefix; eauto.
  - apply wfb_ascii, gname_ascii; auto.
  - apply IHgitems. apply wfb_tails in Hw; auto using gname_ascii. apply wfb_tail in Hw; [|reflexivity].
    apply wfb_tail in Hw; [|reflexivity]. eapply wfb_mid; [|exact Hw]. reflexivity.
  - apply collapse_wfb. apply wfb_tail in Hw; [|reflexivity]. eapply wfb_prefix; eauto.
  - apply IHgitems. apply wfb_tail in Hw; [|reflexivity]. eapply wfb_mid; [|exact Hw]. reflexivity.
  - apply collapse_wfb. apply wfb_tail in Hw; [|reflexivity]. eapply wfb_prefix; eauto.
  - constructor.
Qed.

(** The elements a grammatical attribute list consists of. *)
Definition gelem (e : attr_elem) : Prop :=
  match fst e with
  | KClass | KId => gname (snd e)
  | KPair k => gname k
  | KComment => gcomment (snd e) /\ collapse (snd e) = snd e
  end.
Lemma collapse_in c s : In c (collapse s) -> In c s.
Proof.
  induction s as [|d s IH]; auto. cbn [collapse]. destruct (beq d NL && starts_c s NL); simpl; intuition.
Qed.
Lemma collapse_starts s : starts_c (collapse s) NL = starts_c s NL.
Proof.
  induction s as [|d s IH]; auto. cbn [collapse]. destruct (beq d NL && starts_c s NL) eqn:E; auto.
  apply andb_prop in E. destruct E as [E1 E2]. rewrite IH, E2. simpl. auto.
Qed.
Lemma collapse_idem s : collapse (collapse s) = collapse s.
Proof.
  induction s as [|d s IH]; auto. cbn [collapse]. destruct (beq d NL && starts_c s NL) eqn:E; auto.
  cbn [collapse]. rewrite collapse_starts, E, IH. reflexivity.
Qed.
Lemma gcomment_collapse c : gcomment c -> gcomment (collapse c).
Proof. intros [H1 H2]; split; intros H; apply collapse_in in H; auto. Qed.
Lemma gitems_gelem s a : gitems s a -> Forall gelem a.
Proof.
  induction 1; try (constructor; [unfold gelem; cbn [fst snd]|]); auto;
    split; auto using gcomment_collapse, collapse_idem.
Qed.
Lemma gsets_both s a : gsets s a -> wfb s -> Forall gelem a /\ Forall ewfb a.
Proof.
  induction 1; intros Hw.
  - apply wfb_tail in Hw; [|reflexivity]. split; [eapply gitems_gelem|eapply gitems_wfb]; eauto.
  - apply wfb_tail in Hw; [|reflexivity]. pose proof (wfb_prefix _ _ Hw) as Hp.
    assert (Hs : wfb s').
    { destruct (gsets_open _ _ H0) as [u ->].
      apply wfb_cons_ascii; [reflexivity|]. eapply wfb_mid; [|exact Hw]. reflexivity. }
    destruct (IHgsets Hs). split; apply Forall_app; split; auto; [eapply gitems_gelem|eapply gitems_wfb]; eauto.
Qed.

(** Values: quoted text, possibly ending in a stray backslash. *)
Definition qmaybe (v : bytes) : Prop := qtext v \/ exists q, v = q ++ [BSL] /\ qtext q.
Lemma qtext_app a b : qtext a -> qtext b -> qtext (a ++ b).
Proof. induction 1; intros; simpl; auto. - constructor; auto. - apply qt_esc; auto. Qed.
Lemma qmaybe_snoc v c : qmaybe v -> c <> DQ -> c <> NL -> qmaybe (v ++ [c]).
Proof.
  intros [H|(q & -> & H)] H1 H2.
  - destruct (ascii_dec c BSL) as [->|H3].
    + right. eauto.
    + left. apply qtext_app; auto. repeat constructor; auto.
  - left. rewrite <- app_assoc. apply qtext_app; auto. apply qt_esc; auto. constructor.
Qed.
Lemma qmaybe_app l : forall v, qmaybe v -> qline l -> qmaybe (v ++ l).
Proof.
  induction l as [|c l IH]; intros v Hv [H1 H2]; [rewrite app_nil_r; auto|].
  change (c :: l) with ([c] ++ l). rewrite app_assoc. apply IH.
  - apply qmaybe_snoc; auto; intros ->; [apply H1|apply H2]; left; auto.
  - split; intros Hi; [apply H1|apply H2]; right; auto.
Qed.
Lemma qmaybe_extend v l : qmaybe v -> qline l -> qmaybe (extend v l).
Proof.
  intros Hv Hl. destruct l as [|c l]; [exact Hv|]. unfold extend, extend_raw.
  destruct v as [|d v].
  - apply qmaybe_app; auto.
  - apply qmaybe_app; auto. apply qmaybe_snoc; auto; discriminate.
Qed.
Lemma qmaybe_join ls : forall v, qmaybe v -> Forall qline ls -> qmaybe (join_sp (v :: ls)).
Proof.
  intros v Hv Hl. rewrite <- extend_join. revert v Hv.
  induction Hl; intros v Hv; simpl; auto. apply IHHl. apply qmaybe_extend; auto.
Qed.
Lemma gquoted_qmaybe q v : gquoted q v -> qmaybe v.
Proof.
  destruct 1.
  - left; auto.
  - apply qmaybe_join; auto. left; auto.
  - change (join_sp ls) with (join_sp ([] :: ls)). apply qmaybe_join; auto. left; constructor.
Qed.
Lemma gitems_qmaybe s a : gitems s a -> forall k v, In (KPair k, v) a -> qmaybe v.
Proof.
  induction 1; intros k' v' Hi;
    [destruct Hi|eauto| | | | | |]; (destruct Hi as [Hi|Hi]; [try discriminate Hi|eauto]); try (destruct Hi; fail).
  - injection Hi as <- <-. left. destruct H0 as [_ Hn]. clear -Hn.
    induction Hn; constructor; auto; apply name_char_is in H; revert H; all_bytes x.
  - injection Hi as <- <-. eapply gquoted_qmaybe; eauto.
Qed.
Lemma gsets_qmaybe s a : gsets s a -> forall k v, In (KPair k, v) a -> qmaybe v.
Proof.
  induction 1; intros k' v' Hi; [eapply gitems_qmaybe; eauto|].
  apply in_app_iff in Hi. destruct Hi; [eapply gitems_qmaybe; eauto|eauto].
Qed.

Lemma trailing_snoc v : trailing_bsl (v ++ [BSL]) = S (trailing_bsl v).
Proof.
  induction v as [|c v IH]; [reflexivity|]. cbn [app trailing_bsl].
  change (c :: v ++ [BSL]) with ((c :: v) ++ [BSL]). rewrite forallb_app. simpl (forallb _ [BSL]). rewrite andb_true_r.
  destruct (forallb (beq BSL) (c :: v)) eqn:E.
  - rewrite app_length. simpl. lia.
  - exact IH.
Qed.
Lemma qtext_even q : qtext q -> Nat.even (trailing_bsl q) = true.
Proof.
  induction 1; [reflexivity| |].
  - cbn [trailing_bsl]. cbn [forallb]. destruct (beq BSL c) eqn:E; [beqs; congruence|]. exact IHqtext.
  - cbn [trailing_bsl forallb]. rewrite beq_refl. cbn [andb].
    destruct (forallb (beq BSL) s) eqn:E.
    + assert (Hs : trailing_bsl s = length s).
      { destruct s; auto. cbn [trailing_bsl]. rewrite E. reflexivity. }
      rewrite andb_true_r. destruct (beq BSL c); [simpl; rewrite <- Hs; auto|]. exact IHqtext.
    + rewrite andb_false_r. exact IHqtext.
Qed.
Lemma qmaybe_even v : qmaybe v -> Nat.even (trailing_bsl v) = true -> qtext v.
Proof.
  intros [H|(q & -> & H)]; auto. intros He. exfalso. rewrite trailing_snoc in He.
  apply qtext_even in H. rewrite Nat.even_succ, <- Nat.negb_even, H in He. discriminate.
Qed.

(** Printing. *)
Lemma debug_elems_gsep a : gsep (debug_elems false a ++ B "}").
Proof. destruct a; simpl; auto. Qed.
Lemma debug_gitems a : Forall gelem a -> (forall k v, In (KPair k, v) a -> qtext v) ->
  forall first, gitems (debug_elems first a ++ B "}") a.
Proof.
  induction 1 as [|e a He Ha IH]; intros Hq first; [constructor|].
  assert (Hq' : forall k v, In (KPair k, v) a -> qtext v) by (intros; eapply Hq; right; eauto).
  assert (G : gitems (debug_elem e ++ debug_elems false a ++ B "}") (e :: a)).
  { specialize (IH Hq' false). pose proof (debug_elems_gsep a) as Hs.
    set (r := debug_elems false a ++ B "}") in *. clearbody r.
    destruct e as [[] v]; unfold debug_elem, gelem in *; cbn [fst snd] in *.
    - apply gi_class; auto.
    - apply gi_id; auto.
    - specialize (Hq key v (or_introl eq_refl)).
      assert (E : (key ++ B "=" ++ [DQ] ++ v ++ [DQ]) ++ r = key ++ "=" :: DQ :: v ++ DQ :: r).
      { rewrite <- !app_assoc. reflexivity. }
      rewrite E. apply gi_quoted; auto. constructor; auto.
    - destruct He as [He1 He2].
      assert (E : (B "%" ++ v ++ B "%") ++ r = "%" :: v ++ "%" :: r).
      { rewrite <- !app_assoc. reflexivity. }
      rewrite E. rewrite <- He2 at 2. apply gi_comment; auto. }
  cbn [debug_elems]. rewrite <- !app_assoc. destruct first; simpl app at 1; auto.
  apply gi_ws; auto.
Qed.
Lemma debug_wfb a : Forall ewfb a -> wfb (attrs_debug a).
Proof.
  intros H. unfold attrs_debug. apply wfb_app; [apply wfb_ascii; reflexivity|].
  apply wfb_app; [|apply wfb_ascii; reflexivity]. generalize true.
  induction H as [|e a [H1 H2] Ha IH]; intros first; [apply wfb_nil|].
  cbn [debug_elems]. apply wfb_app; [destruct first; [apply wfb_nil|apply wfb_ascii; reflexivity]|].
  apply wfb_app; auto. unfold debug_elem. destruct e as [[] v]; cbn [fst snd] in *;
    repeat (apply wfb_app; auto); apply wfb_ascii; reflexivity.
Qed.
Lemma trim_end_nows s c : is_ws c = false -> trim_end_m is_ws (s ++ [c]) = s ++ [c].
Proof.
  intros H. induction s as [|d s IH]; simpl; [rewrite H; reflexivity|]. rewrite IH.
  destruct (s ++ [c]) eqn:E; [destruct s; discriminate|reflexivity].
Qed.

Theorem debug_roundtrip s a : utf8 s -> attrs_try_from s = Ok (inl a) ->
  (forall k v, In (KPair k, v) a -> Nat.even (trailing_bsl v) = true) ->
  attrs_try_from (attrs_debug a) = Ok (inl a).
Proof.
  intros Hu H Hv. destruct (try_from_exact s Hu) as [H1 _]. apply H1 in H. destruct H as (t & Hs & G).
  assert (Hw : wfb t) by (apply stripped_trim in Hs; subst t; apply wfb_trim, utf8_wfb; auto).
  destruct (gsets_both _ _ G Hw) as [He Hwf].
  assert (G' : gitems (debug_elems true a ++ B "}") a).
  { apply debug_gitems; auto. intros k v Hi. apply qmaybe_even; eauto. eapply gsets_qmaybe; eauto. }
  assert (Etrim : trim_end_m is_ws (attrs_debug a) = attrs_debug a).
  { unfold attrs_debug. rewrite app_assoc. apply (trim_end_nows _ "}"). reflexivity. }
  unfold attrs_try_from. rewrite attrs_parse_arun; rewrite Etrim; [|apply debug_wfb; auto].
  pose proof (verdict_acc (attrs_debug a) 0 AStart [] [] ltac:(lv)) as HV. simpl Nat.add in HV.
  rewrite (gsets_acc (attrs_debug a) a) in HV; [|apply gs_one; exact G'].
  exact (f_equal Ok HV).
Qed.
