(** * PBlock1: list numbers *)
From Coq Require Import ZArith.
From Verif Require Import Base Lex Attr Block Lib PSafe SpecBlock.
Local Open Scope nat_scope.

(** ** Decimal *)
Lemma digit_range c : is_digit c = true -> (48 <= code c <= 57)%N.
Proof. unfold is_digit, in_range. intros H. apply andb_prop in H. destruct H as [H1 H2]. apply N.leb_le in H1, H2. lia. Qed.
Lemma parse_dec_ok ds : forall acc k, Forall (fun c => is_digit c = true) ds ->
  (acc < 10 ^ N.of_nat k)%N -> k + length ds <= 19 ->
  parse_dec ds acc = Ok (dec_value ds acc) /\ (dec_value ds acc < 10 ^ N.of_nat (k + length ds))%N.
Proof.
  induction ds as [|c ds IH]; intros acc k Hd Ha Hl; cbn [parse_dec dec_value length] in *.
  - rewrite Nat.add_0_r. auto.
  - inversion Hd as [|? ? Hc Hds]; subst. rewrite Hc. pose proof (digit_range c Hc) as Hr.
    assert (Hk : (10 ^ N.of_nat (S k) = 10 * 10 ^ N.of_nat k)%N) by (rewrite Nat2N.inj_succ, N.pow_succ_r'; reflexivity).
    assert (Hb : (acc * 10 + (code c - 48) < 10 ^ N.of_nat (S k))%N) by (rewrite Hk; lia).
    assert (Hm : (10 ^ N.of_nat (S k) <= 10 ^ 19)%N) by (apply N.pow_le_mono_r; lia).
    unfold u64. replace (N.ltb _ _) with true.
    2:{ symmetry. apply N.ltb_lt. unfold u64_max1. eapply N.lt_trans; [exact Hb|]. eapply N.le_lt_trans; [exact Hm|]. reflexivity. }
    cbn [bind]. replace (acc * 10)%N with (10 * acc)%N in * by lia.
    replace (k + S (length ds)) with (S k + length ds) by lia. apply IH; auto. lia.
Qed.

(** ** Roman *)
Definition smaller (p : Z) : Z :=
  (if p <=? 1 then 0 else if p <=? 5 then 1 else if p <=? 10 then 6 else if p <=? 50 then 16
   else if p <=? 100 then 66 else if p <=? 500 then 166 else 666)%Z.
Definition is_rvalue (p : Z) : Prop := (p = 1 \/ p = 5 \/ p = 10 \/ p = 50 \/ p = 100 \/ p = 500 \/ p = 1000)%Z.
Lemma smaller_le p : is_rvalue p -> (0 <= smaller p <= p)%Z.
Proof. unfold is_rvalue, smaller. intros H. decompose [or] H; subst; cbn; lia. Qed.
Lemma smaller_lt v p : is_rvalue v -> is_rvalue p -> (v < p)%Z -> (v + smaller v <= smaller p)%Z.
Proof. unfold is_rvalue, smaller. intros H1 H2 H. decompose [or] H1; decompose [or] H2; subst; try lia; cbn; lia. Qed.
Definition is_roman (c : ascii) : bool := is_roman_lower c || is_roman_upper c.
Lemma roman_value_ok c : is_roman c = true ->
  exists v, roman_value c = Ok v /\ Z.of_N v = roman_digit c /\ is_rvalue (roman_digit c).
Proof.
  unfold is_rvalue. destruct c as [[][][][][][][][]]; intros H; try discriminate H;
  (eexists; split; [reflexivity|split; [reflexivity|cbv; tauto]]).
Qed.
(** The right part [rs] of the numeral has been read. *)
Lemma parse_roman_ok rn : forall rs prev sum, Forall (fun c => is_roman c = true) rn ->
  match rs with
  | c :: _ => Z.of_N prev = roman_digit c /\ is_rvalue (roman_digit c) /\ (smaller (roman_digit c) <= Z.of_N sum)%Z
  | [] => prev = 0%N
  end ->
  Z.of_N sum = roman_value_of rs -> (Z.of_N sum <= 1000 * Z.of_nat (length rs))%Z ->
  (length rs + length rn <= 1000) ->
  exists v, parse_roman rn prev sum = Ok v /\ Z.of_N v = roman_value_of (rev rn ++ rs) /\ (Z.of_N v <= 1000000)%Z.
Proof.
  induction rn as [|c rn IH]; intros rs prev sum Hr Hp Hs Hb Hl.
  - cbn. exists sum. split; [reflexivity|]. split; [auto|]. cbn in Hl. lia.
  - inversion Hr as [|? ? Hc Hrn]; subst. cbn [parse_roman]. destruct (roman_value_ok c Hc) as (v & -> & Hv & Hrv). cbn [bind].
    cbn [rev]. rewrite <- app_assoc. cbn [app length] in *.
    assert (Hstep : forall sum' : N,
      Z.of_N sum' = roman_value_of (c :: rs) -> (smaller (roman_digit c) <= Z.of_N sum')%Z ->
      (Z.of_N sum' <= 1000 * Z.of_nat (length (c :: rs)))%Z ->
      exists w, parse_roman rn v sum' = Ok w /\ Z.of_N w = roman_value_of (rev rn ++ c :: rs) /\ (Z.of_N w <= 1000000)%Z).
    { intros sum' H1 H2 H3. apply (IH (c :: rs)); auto. cbn [length]. lia. }
    assert (Hle : (roman_digit c <= 1000)%Z) by (unfold is_rvalue in Hrv; lia).
    assert (Hge : (1 <= roman_digit c)%Z) by (unfold is_rvalue in Hrv; lia).
    pose proof (smaller_le _ Hrv) as Hsm.
    destruct rs as [|d rs].
    + subst prev. replace (N.ltb v 0) with false by (symmetry; apply N.ltb_ge; lia).
      cbn [roman_value_of] in *. unfold u64. replace (N.ltb _ _) with true by (symmetry; apply N.ltb_lt; unfold u64_max1; lia).
      cbn [bind]. apply Hstep; cbn [roman_value_of length]; lia.
    + destruct Hp as (Hp1 & Hp2 & Hp3). destruct (N.ltb v prev) eqn:E.
      * apply N.ltb_lt in E. assert (Hlt : (roman_digit c < roman_digit d)%Z) by lia.
        pose proof (smaller_lt _ _ Hrv Hp2 Hlt) as Hsl.
        replace (N.leb v sum) with true by (symmetry; apply N.leb_le; lia). cbn [assert bind].
        apply Z.ltb_lt in Hlt. apply Hstep; cbn [length] in *; [|lia|lia].
        change (roman_value_of (c :: d :: rs)) with ((if (roman_digit c <? roman_digit d)%Z then - roman_digit c else roman_digit c) + roman_value_of (d :: rs))%Z.
        rewrite Hlt, <- Hs. lia.
      * apply N.ltb_ge in E. assert (Hlt : (roman_digit c <? roman_digit d)%Z = false) by (apply Z.ltb_ge; lia).
        cbn [length] in *. unfold u64. replace (N.ltb _ _) with true by (symmetry; apply N.ltb_lt; unfold u64_max1; lia).
        cbn [bind]. apply Hstep; cbn [length] in *; [|lia|lia].
        change (roman_value_of (c :: d :: rs)) with ((if (roman_digit c <? roman_digit d)%Z then - roman_digit c else roman_digit c) + roman_value_of (d :: rs))%Z.
        rewrite Hlt, <- Hs. lia.
Qed.

(** ** Letters *)
Lemma lower_range c : is_lower c = true -> (97 <= code c <= 122)%N.
Proof. unfold is_lower, in_range. intros H. apply andb_prop in H. destruct H as [H1 H2]. apply N.leb_le in H1, H2. lia. Qed.
Lemma upper_range c : is_upper c = true -> (65 <= code c <= 90)%N.
Proof. unfold is_upper, in_range. intros H. apply andb_prop in H. destruct H as [H1 H2]. apply N.leb_le in H1, H2. lia. Qed.
Lemma parse_alpha_one d0 c : (d0 <= code c <= d0 + 25)%N -> parse_alpha d0 [c] 1 0 = Ok (code c - d0 + 1)%N.
Proof.
  intros H. cbn [parse_alpha]. change (u64 (1 * 26)%N "lib.rs:2064") with (Ok 26%N). cbn [bind].
  replace (N.leb d0 (code c)) with true by (symmetry; apply N.leb_le; lia). cbn [assert bind].
  replace (0 + 1 * (code c - d0 + 1))%N with (code c - d0 + 1)%N by lia.
  unfold u64. replace (code c - d0 + 1 <? u64_max1)%N with true; [reflexivity|].
  symmetry; apply N.ltb_lt. eapply N.le_lt_trans; [|instantiate (1 := 26%N); reflexivity]. lia.
Qed.

(** ** All numberings *)
Definition num_bound (v : N) : Prop := (v < 10 ^ 19)%N.
Lemma parse_number_ok nb ds : ds <> [] -> Forall (fun c => num_char nb c = true) ds -> length ds <= num_max_len nb ->
  exists v, parse_number nb ds = Ok v /\ number_denotes nb ds v /\ num_bound v.
Proof.
  intros Hn Hd Hl. unfold num_bound. destruct nb; cbn [num_max_len num_char parse_number number_denotes] in *.
  - destruct (parse_dec_ok ds 0 0 Hd) as [E Hb]; [cbn; lia|lia|]. exists (dec_value ds 0).
    split; [destruct ds; [congruence|auto]|]. split; [auto|]. eapply N.lt_le_trans; [exact Hb|]. apply N.pow_le_mono_r; lia.
  - destruct ds as [|c [|d ds]]; cbn in Hl; try lia; [congruence|]. inversion Hd; subst. pose proof (lower_range c H1).
    exists (code c - 97 + 1)%N. split; [apply (parse_alpha_one 97 c); lia|]. split; [exists c; repeat split; auto; lia|].
    eapply N.le_lt_trans; [|instantiate (1 := 26%N); reflexivity]. lia.
  - destruct ds as [|c [|d ds]]; cbn in Hl; try lia; [congruence|]. inversion Hd; subst. pose proof (upper_range c H1).
    exists (code c - 65 + 1)%N. split; [apply (parse_alpha_one 65 c); lia|]. split; [exists c; repeat split; auto; lia|].
    eapply N.le_lt_trans; [|instantiate (1 := 26%N); reflexivity]. lia.
  - destruct (parse_roman_ok (rev ds) [] 0 0) as (v & E & Hv & Hb); auto.
    { apply Forall_rev. eapply Forall_impl; [|exact Hd]. intros c Hc. unfold is_roman. rewrite Hc. reflexivity. }
    { cbn; lia. } { rewrite rev_length. cbn. lia. }
    rewrite rev_involutive, app_nil_r in Hv. exists v. split; [auto|]. split; [auto|].
    eapply N.le_lt_trans; [|instantiate (1 := 1000000%N); reflexivity]. lia.
  - destruct (parse_roman_ok (rev ds) [] 0 0) as (v & E & Hv & Hb); auto.
    { apply Forall_rev. eapply Forall_impl; [|exact Hd]. intros c Hc. unfold is_roman. rewrite Hc, orb_true_r. reflexivity. }
    { cbn; lia. } { rewrite rev_length. cbn. lia. }
    rewrite rev_involutive, app_nil_r in Hv. exists v. split; [auto|]. split; [auto|].
    eapply N.le_lt_trans; [|instantiate (1 := 1000000%N); reflexivity]. lia.
Qed.

Lemma guess_char c nb : guess_numbering c = Some nb -> num_char nb c = true.
Proof.
  unfold guess_numbering. intros H.
  repeat match type of H with (if ?b then _ else _) = _ => destruct b eqn:?; [injection H as <-; auto|] end. discriminate.
Qed.
Lemma forallb_Forall {A} (f : A -> bool) l : forallb f l = true -> Forall (fun x => f x = true) l.
Proof. induction l as [|x l IH]; cbn; intros H; constructor; apply andb_prop in H; tauto. Qed.
Lemma num_max_pos nb : 1 <= num_max_len nb.
Proof. destruct nb; cbn; lia. Qed.

(** What an ordered marker at the start of [line] is. *)
Definition ordered_spec (line : bytes) (n : list_number) (st : ostyle) (len : nat) : Prop :=
  exists ds after, line = marker_text st ds ++ after /\ len = length (marker_text st ds) /\
    number_denotes (ln_num n) ds (ln_val n) /\ num_bound (ln_val n) /\ length ds <= 19 /\
    match after with [] => True | c :: _ => is_ws c = true end.

Lemma maybe_ordered_ok line :
  exists r, maybe_ordered line = Ok r /\
  match r with Some (n, st, len) => ordered_spec line n st len | None => True end.
Proof.
  unfold maybe_ordered. set (sp := starts_c line "(").
  destruct (if sp then skipn 1 line else line) as [|first chars] eqn:El; [eexists; split; [reflexivity|exact I]|].
  destruct (guess_numbering first) as [nb|] eqn:Eg; [|eexists; split; [reflexivity|exact I]].
  set (k := count_while (num_char nb) (firstn (num_max_len nb - 1) chars)).
  replace (1 + k - 1) with k by lia.
  destruct (skipn k chars) as [|post after] eqn:Es; [eexists; split; [reflexivity|exact I]|].
  set (style := if sp then _ else _). destruct style as [st|] eqn:Est; [|eexists; split; [reflexivity|exact I]].
  destruct (hd_none_or is_ws after) eqn:Ea; [|eexists; split; [reflexivity|exact I]].
  set (ds := first :: firstn k chars).
  assert (Hk : k <= num_max_len nb - 1).
  { unfold k. pose proof (count_while_le (num_char nb) (firstn (num_max_len nb - 1) chars)). rewrite firstn_length in H. lia. }
  assert (Hkc : k < length chars).
  { destruct (Nat.le_gt_cases (length chars) k) as [H|H]; [|auto]. rewrite skipn_all2 in Es by lia. discriminate. }
  assert (Hchars : chars = firstn k chars ++ post :: after) by (rewrite <- Es; symmetry; apply firstn_skipn).
  assert (Hlds : length ds = 1 + k) by (unfold ds; cbn; rewrite firstn_length; lia).
  assert (Hds : Forall (fun c => num_char nb c = true) ds).
  { constructor; [apply guess_char; auto|]. apply forallb_Forall.
    replace (firstn k chars) with (firstn k (firstn (num_max_len nb - 1) chars)) by (rewrite firstn_firstn; f_equal; lia).
    apply count_while_firstn. }
  pose proof (num_max_pos nb) as Hmp.
  destruct (parse_number_ok nb ds) as (v & Ev & Hv & Hb); [discriminate|auto|lia|].
  assert (Hline : line = marker_text st ds ++ after /\ 1 + k + ((if sp then 1 else 0) + 1) = length (marker_text st ds) /\
     style_number st (marker_text st ds) = ds).
  { unfold style in Est. unfold ds. destruct sp eqn:Esp.
    - unfold sp in Esp. destruct line as [|c line]; [discriminate|]. cbn in Esp. apply beq_eq in Esp. subst c.
      cbn [skipn] in El. subst line. destruct (beq post ")") eqn:Ep; [|discriminate]. injection Est as <-. apply beq_eq in Ep. subst post.
      split; [cbn; rewrite <- app_assoc; cbn; f_equal; f_equal; exact Hchars|]. split; [cbn; rewrite app_length, firstn_length; cbn; lia|].
      unfold style_number. change (marker_text OParenParen (first :: firstn k chars)) with (("("%char :: first :: firstn k chars) ++ [")"%char]).
      rewrite butlast_app. reflexivity.
    - subst line. destruct (beq post ")") eqn:Ep; [|destruct (beq post ".") eqn:Ep'; [|discriminate]]; injection Est as <-.
      + apply beq_eq in Ep. subst post.
        split; [cbn; rewrite <- app_assoc; cbn; f_equal; exact Hchars|]. split; [cbn; rewrite app_length, firstn_length; cbn; lia|].
        unfold style_number. change (marker_text OParen (first :: firstn k chars)) with ((first :: firstn k chars) ++ [")"%char]).
        rewrite butlast_app. reflexivity.
      + apply beq_eq in Ep'. subst post.
        split; [cbn; rewrite <- app_assoc; cbn; f_equal; exact Hchars|]. split; [cbn; rewrite app_length, firstn_length; cbn; lia|].
        unfold style_number. change (marker_text OPeriod (first :: firstn k chars)) with ((first :: firstn k chars) ++ ["."%char]).
        rewrite butlast_app. reflexivity. }
  destruct Hline as (Hline & Hlen & Hsn). rewrite Hlen.
  replace (firstn (length (marker_text st ds)) line) with (marker_text st ds).
  2:{ rewrite Hline, firstn_app, Nat.sub_diag, firstn_O, app_nil_r, firstn_all. reflexivity. }
  rewrite Hsn, Ev. cbn [bind]. eexists. split; [reflexivity|]. cbn [fst snd].
  exists ds, after. split; [auto|]. split; [auto|]. split; [auto|]. split; [auto|].
  split; [destruct nb; cbn in *; lia|]. destruct after; auto.
Qed.

(** ** Ambiguous numerals *)
Lemma ambiguity_ok n : exists r, ambiguity n = Ok r /\ match r with Some m => (ln_val m <= 26)%N | None => True end.
Proof.
  unfold ambiguity. destruct (ln_num n); try (eexists; split; [reflexivity|exact I]);
  repeat match goal with
  | |- context [N.eqb ?x ?y] => destruct (N.eqb x y)
  end; try (eexists; split; [reflexivity|exact I]); (eexists; split; [vm_compute; reflexivity|cbn; lia]).
Qed.

(** Class of a list type: what does not change while a list is open. *)
Inductive lclass := LcUnordered (c : ascii) | LcOrdered (st : ostyle) | LcTask (c : ascii) | LcDescription.
Definition lt_class (t : list_type) : lclass :=
  match t with LUnordered c => LcUnordered c | LOrdered _ st => LcOrdered st | LTask c => LcTask c | LDescription => LcDescription end.
Definition lt_ok (t : list_type) : Prop :=
  match t with
  | LUnordered c | LTask c => c = "-"%char \/ c = "*"%char \/ c = "+"%char
  | LOrdered n _ => num_bound (ln_val n)
  | LDescription => True
  end.
Lemma list_type_eqb_eq a b : list_type_eqb a b = true -> a = b.
Proof.
  destruct a as [|[nb v] st| |], b as [|[nb' v'] st'| |]; cbn; intros Eq; try discriminate; auto; try (apply beq_eq in Eq; congruence).
  apply andb_prop in Eq. destruct Eq as [Eq Es]. apply andb_prop in Eq. destruct Eq as [En Ev]. apply N.eqb_eq in Ev.
  destruct nb, nb'; try discriminate En; destruct st, st'; try discriminate Es; congruence.
Qed.
Lemma list_type_eqb_class a b : list_type_eqb a b = true -> lt_class a = lt_class b.
Proof. intros H. apply list_type_eqb_eq in H. congruence. Qed.
Lemma ambiguity_letter n r : ambiguity n = Ok r -> match r with Some m => as_letter n m | None => forall m, ~ as_letter n m end.
Proof.
  destruct n as [nb v]. unfold ambiguity. cbn [ln_num ln_val].
  assert (Hno : (nb <> RomanLower /\ nb <> RomanUpper) -> forall m, ~ as_letter (LN nb v) m).
  { intros [H1 H2] m Hm. inversion Hm; congruence. }
  assert (Hd : forall P : Prop, ((exists d, roman_digit d = Z.of_N v /\ (is_roman_lower d = true \/ is_roman_upper d = true)) ->
    (v = 1 -> P) -> (v = 5 -> P) -> (v = 10 -> P) -> (v = 50 -> P) -> (v = 100 -> P) -> (v = 500 -> P) -> (v = 1000 -> P) -> P)%N).
  { intros P (d & H & Hr) P1 P2 P3 P4 P5 P6 P7. destruct d as [[][][][][][][][]]; cbn in H; destruct Hr as [Hr|Hr]; try discriminate Hr;
    first [apply P1; lia|apply P2; lia|apply P3; lia|apply P4; lia|apply P5; lia|apply P6; lia|apply P7; lia]. }
  destruct nb; try (intros H; injection H as <-; apply Hno; split; discriminate).
  all: repeat match goal with |- context [N.eqb ?w ?k] => is_var w; let E := fresh "E" in destruct (N.eqb w k) eqn:E; [apply N.eqb_eq in E; subst w|apply N.eqb_neq in E] end;
    try (intros H; vm_compute in H; injection H as <-).
  1: apply (al_lower "i"); reflexivity. 1: apply (al_lower "v"); reflexivity. 1: apply (al_lower "x"); reflexivity.
  1: apply (al_lower "l"); reflexivity. 1: apply (al_lower "c"); reflexivity. 1: apply (al_lower "d"); reflexivity. 1: apply (al_lower "m"); reflexivity.
  2: apply (al_upper "I"); reflexivity. 2: apply (al_upper "V"); reflexivity. 2: apply (al_upper "X"); reflexivity.
  2: apply (al_upper "L"); reflexivity. 2: apply (al_upper "C"); reflexivity. 2: apply (al_upper "D"); reflexivity. 2: apply (al_upper "M"); reflexivity.
  all: intros m Hm; inversion Hm; subst; apply Hd; try congruence; eauto.
Qed.
Lemma as_letter_fun n a b : as_letter n a -> as_letter n b -> a = b.
Proof.
  intros Ha Hb. inversion Ha as [d v H1 H2 E1 E2|d v H1 H2 E1 E2]; subst; inversion Hb as [e w H3 H4 E3 E4|e w H3 H4 E3 E4]; subst;
  rewrite <- H3 in H1; destruct d as [[][][][][][][][]]; try discriminate H2; destruct e as [[][][][][][][][]]; try discriminate H4; try discriminate H1; reflexivity.
Qed.
Lemma as_letter_alpha n m k : as_letter n m -> ~ as_letter m k.
Proof. intros H1 H2. inversion H1; subst; inversion H2. Qed.
(** Where an open list's type is read anew, its marker still has the type. *)
Definition reread (a x : list_type) : Prop := forall t, item_text a t -> item_text x t.
Lemma reread_letter n m st : as_letter n m -> reread (LOrdered n st) (LOrdered m st).
Proof.
  intros H t (ds & Ht & n0 & Hn & Hr). exists ds. split; [auto|]. exists n0. split; [auto|]. right.
  destruct Hr as [->|Hr]; [auto|]. destruct (as_letter_alpha _ _ _ Hr H).
Qed.
Lemma bound_succ v w : num_bound v -> u64 (v + 1)%N w = Ok (v + 1)%N.
Proof.
  intros H. unfold u64. replace (N.ltb _ _) with true; [reflexivity|]. symmetry. apply N.ltb_lt.
  unfold num_bound, u64_max1 in *. assert (10 ^ 19 = 10000000000000000000)%N by reflexivity. lia.
Qed.
Lemma small_bound v : (v <= 26)%N -> num_bound v.
Proof. unfold num_bound. assert (10 ^ 19 = 10000000000000000000)%N by reflexivity. lia. Qed.
Lemma lt_continues_ok a b : lt_ok a -> lt_ok b ->
  exists r, lt_continues a b = Ok r /\
  match r with
  | Some (x, y) => lt_class x = lt_class a /\ lt_class y = lt_class a /\ lt_class b = lt_class a /\ lt_ok x /\ lt_ok y /\ reread a x
  | None => True
  end.
Proof.
  intros Ha Hb. unfold lt_continues. destruct (list_type_eqb a b) eqn:E.
  { apply list_type_eqb_class in E. eexists. split; [reflexivity|]. cbn beta iota. repeat split; auto. intros t; auto. }
  destruct a as [|n0 s0| |], b as [|n1 s1| |]; try (eexists; split; [reflexivity|exact I]).
  assert (Hos : ostyle_eqb s0 s1 = true -> s1 = s0) by (destruct s0, s1; cbn; congruence).
  destruct (numbering_eqb _ _ && ostyle_eqb s0 s1) eqn:E1.
  { apply andb_prop in E1. destruct E1 as [_ E1]. apply Hos in E1. subst s1. eexists; split; [reflexivity|cbn beta iota; repeat split; auto]. intros t; auto. }
  clear E1. destruct (ostyle_eqb s0 s1); [|eexists; split; [reflexivity|exact I]]. rewrite (Hos eq_refl) in *.
  destruct (ambiguity_ok n0) as ([na0|] & A0 & H0); rewrite A0; cbn [bind]; apply ambiguity_letter in A0.
  - destruct (numbering_eqb _ _); [|eexists; split; [reflexivity|exact I]].
    rewrite bound_succ by (apply small_bound; auto). cbn [bind].
    destruct (N.eqb _ _); eexists; (split; [reflexivity|]); [|exact I]. repeat split; auto; [apply small_bound; auto|]. apply reread_letter. auto.
  - destruct (ambiguity_ok n1) as ([na1|] & -> & H1); cbn [bind]; [|eexists; split; [reflexivity|exact I]].
    destruct (numbering_eqb _ _); [|eexists; split; [reflexivity|exact I]].
    rewrite bound_succ by auto. cbn [bind].
    destruct (N.eqb _ _); eexists; (split; [reflexivity|]); [|exact I]. repeat split; auto; [apply small_bound; auto|]. intros t; auto.
Qed.
