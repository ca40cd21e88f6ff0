(** * POpen: what follows the markers of blocks, and which lines begin paragraphs *)
From Verif Require Import Base Lex Attr Block Lib PSafe SpecAttr PAttr PAttr4 PropsAttr SpecBlock SpecOpen PBlock1 PBlock2 PMark PBlock4.
Local Open Scope nat_scope.

Lemma gapped_hd r : hd_none_or is_ws r = true <-> gapped r.
Proof.
  unfold gapped. destruct r as [|c r]; cbn; split; auto.
  - intros H. right. exists c, r. auto.
  - intros [H|(c' & r' & [= -> ->] & H)]; [discriminate|exact H].
Qed.
Lemma sp_hd r : hd_none_or (fun c => beq c SP) r = true <-> (r = [] \/ exists r', r = SP :: r').
Proof.
  destruct r as [|c r]; cbn; split; auto.
  - intros H. apply beq_eq in H. subst. right. eauto.
  - intros [H|(r' & [= -> _])]; [discriminate|reflexivity].
Qed.
Lemma thematic_yes s : forall n, Forall (fun c => c = "*"%char \/ c = "-"%char \/ is_ws c = true) s -> 3 <= n + length (filter (fun c => negb (is_ws c)) s) -> thematic_loop s n = true.
Proof.
  induction s as [|c s IH]; intros n H L; cbn [thematic_loop].
  - cbn in L. apply Nat.leb_le. lia.
  - inversion H as [|? ? Hc Hs]; subst. cbn [filter] in L. destruct Hc as [-> | [-> | Hc]]; cbn.
    + apply IH; auto. cbn in L. lia.
    + apply IH; auto. cbn in L. lia.
    + rewrite Hc in *. cbn in L. destruct (beq c "-" || beq c "*") eqn:E; [|apply IH; auto].
      exfalso. apply orb_prop in E. destruct E as [E|E]; apply beq_eq in E; subst c; discriminate.
Qed.
Lemma break_loop c r : c = "*"%char \/ c = "-"%char -> break_text (c :: r) -> is_thematic_break r = true.
Proof.
  intros Hc [H1 H2]. inversion H1; subst. apply thematic_yes; [auto|]. cbn [filter] in H2. destruct Hc as [-> | ->]; cbn in H2; lia.
Qed.

Lemma skipn_in {A} n (l : list A) x : List.In x (skipn n l) -> List.In x l.
Proof. intros H. rewrite <- (firstn_skipn n l). apply in_or_app. auto. Qed.
(** ** Openers do not begin paragraphs *)
Definition no_para (line : bytes) : Prop := forall l sp, trim_start_m ws_not_nl l = line -> identify l <> Ok (KParagraph, sp).
Ltac nope := intros HH; apply okp in HH; destruct HH as [HH _]; discriminate HH.
Ltac opn := unfold no_para, identify; let H := fresh in intros l0 sp H; rewrite H; cbv beta iota zeta.

Lemma no_quote r : gapped r -> no_para (B ">" ++ r).
Proof. intros H. opn. cbn [B list_ascii_of_string app]. change (beq ">" NL) with false. change (beq ">" "#") with false. change (beq ">" ">") with true. cbv iota. apply gapped_hd in H. rewrite H. nope. Qed.
Lemma no_heading n r : gapped r -> no_para (repeat "#"%char (S n) ++ r).
Proof.
  intros H. opn. cbn [repeat app]. change (beq "#" NL) with false. change (beq "#" "#") with true. cbv iota.
  assert (Hr : match r with x :: _ => beq x "#" = false | [] => True end).
  { destruct H as [-> | (c & r' & -> & Hc)]; [exact I|]. destruct (beq c "#") eqn:E; [apply beq_eq in E; subst c; discriminate Hc|reflexivity]. }
  rewrite repeat_count by exact Hr. rewrite skipn_app, skipn_all2 by (rewrite repeat_length; lia). rewrite repeat_length, Nat.sub_diag. cbn [app skipn].
  apply gapped_hd in H. rewrite H. nope.
Qed.
Lemma no_break c r : c = "*"%char \/ c = "-"%char -> break_text (c :: r) -> no_para (c :: r).
Proof. intros Hc H. apply break_loop in H; [|auto]. opn. destruct Hc as [-> | ->]; cbn [beq]; rewrite H; cbn -[attr_valid]; nope. Qed.
Lemma no_bullet c r : bullet_at c -> r = [] \/ (exists r', r = SP :: r') -> no_para (c :: r).
Proof.
  intros Hc H. apply sp_hd in H. opn. destruct Hc as [-> | [-> | ->]]; rewrite H;
  (change (beq "-" NL) with false || change (beq "*" NL) with false || change (beq "+" NL) with false); cbn -[attr_valid is_thematic_break hd_none_or];
  repeat match goal with |- (if ?b then _ else _) <> _ => destruct b end; nope.
Qed.
Lemma no_term r : gapped r -> no_para (B ":" ++ r).
Proof. intros H. apply gapped_hd in H. opn. cbn [B list_ascii_of_string app]. cbn -[attr_valid is_thematic_break hd_none_or]. rewrite H. nope. Qed.
Lemma position_bracket l r : ~ List.In "]"%char l -> position (fun c => beq c "]") (l ++ "]"%char :: r) = Some (length l).
Proof.
  intros H. induction l as [|c l IH]; [reflexivity|]. cbn. destruct (beq c "]") eqn:E; [exfalso; apply H; left; apply beq_eq in E; auto|]. rewrite IH; [reflexivity|]. intros Hi. apply H. right. exact Hi.
Qed.
Lemma no_def l r : ~ List.In "]"%char l -> no_para (B "[" ++ l ++ B "]:" ++ r).
Proof.
  intros H. opn. cbn [B list_ascii_of_string app]. cbn -[attr_valid is_thematic_break hd_none_or position skipn starts_c firstn].
  rewrite position_bracket by exact H. rewrite skipn_app, skipn_all2 by lia. replace (length l + 1 - length l) with 1 by lia. cbn [skipn app starts_c]. rewrite beq_refl. nope.
Qed.
Lemma ends_with_snoc s p x : ends_with (s ++ [x]) (p ++ [x]) = ends_with s p.
Proof. unfold ends_with. rewrite !rev_app_distr. cbn. rewrite beq_refl. reflexivity. Qed.
Lemma trim_end_app s b x : blanks_only b -> is_ws x = false -> trim_end_m is_ws (s ++ x :: b) = s ++ [x].
Proof.
  intros Hb Hx. induction s as [|c s IH]; cbn [app trim_end_m].
  - rewrite (proj2 (trim_end_nil is_ws b)); [rewrite Hx; reflexivity|]. apply forallb_forall. intros y Hy. unfold blanks_only in Hb. rewrite Forall_forall in Hb. auto.
  - rewrite IH. destruct (s ++ [x]) eqn:E; [destruct s; discriminate|reflexivity].
Qed.
Lemma no_row t : row_text t -> no_para t.
Proof.
  intros (m & b & -> & Hb & Hm). opn. cbn [B list_ascii_of_string app].
  pose proof (trim_end_app ("|"%char :: m) b "|"%char Hb eq_refl) as Ht. cbn [app] in Ht. rewrite Ht.
  change (beq "|" NL) with false. change (beq "|" "#") with false. change (beq "|" ">") with false. change (beq "|" "{") with false. change (beq "|" "|") with true. cbv iota.
  assert (E : (Nat.leb 2 (length ("|"%char :: m ++ ["|"%char])) && ends_with ("|"%char :: m ++ ["|"%char]) (B "|") && negb (ends_with ("|"%char :: m ++ ["|"%char]) [BSL; "|"%char]))%bool = true).
  { apply andb_true_intro. split; [apply andb_true_intro; split|].
    - apply Nat.leb_le. cbn [length]. rewrite app_length. cbn. lia.
    - change ("|"%char :: m ++ ["|"%char]) with (("|"%char :: m) ++ ["|"%char]). change (B "|") with ([] ++ ["|"%char]). rewrite ends_with_snoc. unfold ends_with. destruct (rev _); reflexivity.
    - change ("|"%char :: m ++ ["|"%char]) with (("|"%char :: m) ++ ["|"%char]). change [BSL; "|"%char] with ([BSL] ++ ["|"%char]). rewrite ends_with_snoc. unfold ends_with. destruct (rev_case m) as [-> | (m' & x & ->)]; [reflexivity|].
      change ("|"%char :: m' ++ [x]) with (("|"%char :: m') ++ [x]). rewrite rev_app_distr. cbn [rev app starts_with]. destruct (beq BSL x) eqn:Ex; [|reflexivity]. apply beq_eq in Ex. subst x. exfalso. exact (Hm m' eq_refl). }
  match goal with |- (if ?b then _ else _) = _ -> _ => replace b with true by (symmetry; exact E) | |- (if ?b then _ else _) <> _ => replace b with true by (symmetry; exact E) end. nope.
Qed.
Lemma gitems_close s a : gitems s a -> exists m, s = m ++ B "}".
Proof.
  induction 1; try (destruct IHgitems as [m0 ->]).
  - exists []. reflexivity.
  - exists (c :: m0). reflexivity.
  - exists ("."%char :: n ++ m0). cbn. rewrite app_assoc. reflexivity.
  - exists ("#"%char :: n ++ m0). cbn. rewrite app_assoc. reflexivity.
  - exists (k ++ "="%char :: v ++ m0). rewrite <- app_assoc. cbn. rewrite <- app_assoc. reflexivity.
  - exists (k ++ "="%char :: DQ :: q ++ DQ :: m0). rewrite <- app_assoc. cbn. rewrite <- app_assoc. reflexivity.
  - exists ("%"%char :: c ++ "%"%char :: m0). cbn. rewrite <- app_assoc. reflexivity.
  - exists ("%"%char :: c). reflexivity.
Qed.
Lemma gset_last t a : gset t a -> exists m, t = m ++ ["}"%char].
Proof. intros (t' & -> & H). destruct (gitems_close _ _ H) as [m ->]. exists ("{"%char :: m). reflexivity. Qed.
Lemma no_attrs t a b : gset t a -> (forall j a', j < length t -> ~ gset (firstn j t) a') -> blanks_only b -> no_para (t ++ b).
Proof.
  intros Ht Hmin Hb. pose proof Ht as (t' & E & Hg).
  assert (Hv : attr_valid (t ++ b) = Ok (length t)).
  { rewrite C16_valid_agrees. destruct (C16_recogniser_exact (t ++ b)) as (r & st & -> & H). cbn [bind].
    assert (Hself : firstn (length t) (t ++ b) = t) by (rewrite firstn_app, firstn_all, Nat.sub_diag; cbn; apply app_nil_r).
    destruct r as [[|n]|].
    - exfalso. specialize (H [] (length t) a). rewrite app_nil_r, Hself in H. exact (H Ht).
    - destruct H as (H1 & (a' & H2) & H3). f_equal. destruct (Nat.lt_trichotomy (S n) (length t)) as [L|[L|L]]; [|exact L|].
      + exfalso. apply (Hmin (S n) a' L). rewrite firstn_app in H2. replace (S n - length t) with 0 in H2 by lia. cbn [firstn] in H2. rewrite app_nil_r in H2. exact H2.
      + exfalso. apply (H3 (length t) a L). rewrite Hself. exact Ht.
    - exfalso. destruct H as [H _]. apply (H (length t) a). rewrite Hself. exact Ht. }
  assert (Hl : exists t2, t = t2 ++ ["}"%char]).
  { destruct (rev_case t) as [-> | (t2 & x & ->)]; [discriminate|]. exists t2. f_equal. f_equal.
    destruct (gset_last _ _ Ht) as (t3 & E3). apply app_inj_tail in E3. apply E3. }
  destruct Hl as (t2 & Et). opn.
  assert (Hte : trim_end_m is_ws (t ++ b) = t) by (rewrite Et, <- app_assoc; cbn [app]; apply trim_end_app; auto).
  rewrite Hte. destruct (t ++ b) as [|c q] eqn:Eq; [rewrite E in Eq; discriminate|]. assert (c = "{"%char) by (rewrite E in Eq; cbn in Eq; congruence). subst c.
  change (beq "{" NL) with false. change (beq "{" "#") with false. change (beq "{" ">") with false. change (beq "{" "{") with true. cbv iota.
  rewrite Hv. cbn [bind]. rewrite Nat.eqb_refl. nope.
Qed.
Lemma no_fence c n w t : (c = "`"%char \/ c = "~"%char \/ c = ":"%char) -> 3 <= n -> fence_text c n w t ->
  (if beq c ":" then Forall (fun c => is_name c = true) w else Forall (fun c => is_ws c = false /\ c <> "`"%char) w) -> no_para t.
Proof.
  intros Hc Hn (a & b & -> & Ha & Hb) Hw.
  set (P := fun x => if beq c ":" then is_name x = true else is_ws x = false /\ x <> "`"%char).
  assert (HP : Forall P w) by (unfold P; destruct (beq c ":"); exact Hw). clear Hw.
  assert (HPw : forall x, P x -> is_ws x = false).
  { intros x Hx. unfold P in Hx. destruct (beq c ":"); [|apply Hx]. destruct (is_ws x) eqn:Ex; [|reflexivity]. exfalso. revert Hx Ex. clear. destruct x as [ [] [] [] [] [] [] [] [] ]; intros H1 H2; try discriminate H1; discriminate H2. }
  assert (Hcw : is_ws c = false) by (destruct Hc as [-> | [-> | ->]]; reflexivity).
  destruct n as [|n]; [lia|].
  assert (Hte : trim_end_m is_ws (repeat c (S n) ++ a ++ w ++ b) = match w with [] => repeat c (S n) | _ => repeat c (S n) ++ a ++ w end).
  { destruct (rev_case w) as [-> | (w0 & x & ->)].
    - cbn [app]. replace (S n) with (n + 1) by lia. rewrite repeat_app. cbn [repeat]. rewrite <- app_assoc. cbn [app]. rewrite trim_end_app; [reflexivity|apply Forall_app; auto|exact Hcw].
    - apply Forall_app in HP. destruct HP as [_ HP]. apply Forall_inv in HP. replace (repeat c (S n) ++ a ++ (w0 ++ [x]) ++ b) with ((repeat c (S n) ++ a ++ w0) ++ x :: b) by (rewrite <- !app_assoc; reflexivity).
      rewrite trim_end_app; [|exact Hb|apply HPw; exact HP]. rewrite <- !app_assoc. destruct w0; reflexivity. }
  set (line := repeat c (S n) ++ a ++ w ++ b) in *.
  set (flen := 1 + count_while (fun x => beq x c) (repeat c n ++ a ++ w ++ b)).
  assert (Hfl : flen = S n + count_while (fun x => beq x c) (a ++ w ++ b)).
  { unfold flen. clear. induction n as [|n IH]; [reflexivity|]. cbn [repeat app count_while]. rewrite beq_refl. lia. }
  set (spec := trim_start_m is_ws (skipn flen (trim_end_m is_ws line))).
  assert (Hspec : Forall P spec).
  { unfold spec. rewrite Hte. destruct w as [|w1 w2].
    - rewrite skipn_all2 by (rewrite repeat_length; lia). constructor.
    - set (w := w1 :: w2) in *. rewrite skipn_app, skipn_all2 by (rewrite repeat_length; lia). rewrite repeat_length. cbn [app]. rewrite Hfl.
      replace (S n + count_while (fun x => beq x c) (a ++ w ++ b) - S n) with (count_while (fun x => beq x c) (a ++ w ++ b)) by lia.
      rewrite trim_start_skipn. apply Forall_forall. intros x Hx. destruct a as [|a1 a2].
      + cbn [app] in Hx. apply skipn_in in Hx. apply skipn_in in Hx. rewrite Forall_forall in HP. auto.
      + cbn [app count_while] in Hx. inversion Ha as [|? ? Ha1 Ha2]; subst.
        replace (beq a1 c) with false in Hx by (symmetry; destruct (beq a1 c) eqn:E; [apply beq_eq in E; subst a1; congruence|reflexivity]). cbn [skipn] in Hx.
        replace (skipn (count_while is_ws (a1 :: a2 ++ w)) (a1 :: a2 ++ w)) with w in Hx; [rewrite Forall_forall in HP; auto|].
        change (a1 :: a2 ++ w) with ((a1 :: a2) ++ w). rewrite count_while_app_stop; [rewrite skipn_app, skipn_all, Nat.sub_diag; reflexivity|apply forallb_forall; unfold blanks_only in Ha; rewrite Forall_forall in Ha; exact Ha|].
        unfold w. apply HPw. inversion HP; auto. }
  assert (Hvalid : (if beq c ":" then forallb is_name spec else negb (existsb is_ws spec) && negb (existsb (fun c => beq c "`") spec)) = true).
  { unfold P in Hspec. destruct (beq c ":").
    - apply forallb_forall. rewrite Forall_forall in Hspec. exact Hspec.
    - rewrite Forall_forall in Hspec. apply andb_true_intro. split; apply negb_true_iff; apply not_true_iff_false; intros E; apply existsb_exists in E; destruct E as (x & Hx & Ex); destruct (Hspec x Hx) as [H1 H2]; [congruence|apply beq_eq in Ex; contradiction]. }
  intros l0 sp Hl. unfold identify. rewrite Hl. unfold line at 1. cbn [repeat app]. fold flen. cbv beta iota zeta. fold spec.
  assert (Hb3 : Nat.leb 3 flen = true) by (apply Nat.leb_le; lia).
  assert (Hcol : c = ":"%char -> hd_none_or is_ws (repeat c n ++ a ++ w ++ b) = false) by (intros ->; destruct n as [|n']; [lia|reflexivity]).
  fold flen. change (skipn (1 + count_while (fun x => beq x c) (repeat c n ++ a ++ w ++ b)) (trim_end_m is_ws (c :: repeat c n ++ a ++ w ++ b))) with (skipn flen (trim_end_m is_ws line)). fold spec.
  clearbody spec flen. clear Hspec HP P HPw Hte Hfl.
  destruct Hc as [-> | [-> | ->]].
  - cbn -[attr_valid is_thematic_break hd_none_or Nat.leb existsb forallb] in Hvalid |- *. rewrite Hvalid, Hb3. nope.
  - cbn -[attr_valid is_thematic_break hd_none_or Nat.leb existsb forallb] in Hvalid |- *. rewrite Hvalid, Hb3. nope.
  - specialize (Hcol eq_refl). cbn -[attr_valid is_thematic_break hd_none_or Nat.leb existsb forallb] in Hvalid |- *. rewrite Hcol, Hvalid, Hb3. nope.
Qed.
(** *** Ordered items *)
Lemma count_while_exact f (a b : bytes) m : Forall (fun c => f c = true) a -> length a <= m -> match b with x :: _ => f x = false | [] => True end -> count_while f (firstn m (a ++ b)) = length a.
Proof.
  revert m; induction a as [|x a IH]; intros m H L Hb; cbn [length app] in *.
  - destruct m; [reflexivity|]. destruct b as [|x b]; [reflexivity|]. cbn. rewrite Hb. reflexivity.
  - destruct m as [|m]; [lia|]. inversion H; subst. cbn [firstn count_while]. match goal with E : f x = true |- _ => rewrite E end. rewrite IH; auto; lia.
Qed.
Ltac each_byte c := destruct c as [ [] [] [] [] [] [] [] [] ]; intros HH; try discriminate HH; try reflexivity.
Lemma guess_lower c : is_lower c = true -> guess_numbering c = if is_roman_lower c then Some RomanLower else Some AlphaLower.
Proof. each_byte c. Qed.
Lemma guess_upper c : is_upper c = true -> guess_numbering c = if is_roman_upper c then Some RomanUpper else Some AlphaUpper.
Proof. each_byte c. Qed.
Lemma guess_ok nb ds v : number_denotes nb ds v -> length ds <= digits_max nb -> exists c r nb', ds = c :: r /\ guess_numbering c = Some nb' /\
  Forall (fun c => num_char nb' c = true) ds /\ length ds <= num_max_len nb'.
Proof.
  intros H L. destruct nb; cbn [number_denotes digits_max] in *.
  - destruct H as (Hn & Hd & _). destruct ds as [|c r]; [congruence|]. exists c, r, Decimal. split; [auto|]. pose proof (Forall_inv Hd) as Hc. split; [unfold guess_numbering; rewrite Hc; reflexivity|]. split; [exact Hd|exact L].
  - destruct H as (c & -> & Hc & _). exists c, []. pose proof (guess_lower c Hc) as Hg. destruct (is_roman_lower c) eqn:Er; eexists; (split; [reflexivity|split; [exact Hg|split; [constructor; [assumption|constructor]|cbn; lia] ] ]).
  - destruct H as (c & -> & Hc & _). exists c, []. pose proof (guess_upper c Hc) as Hg. destruct (is_roman_upper c) eqn:Er; eexists; (split; [reflexivity|split; [exact Hg|split; [constructor; [assumption|constructor]|cbn; lia] ] ]).
  - destruct H as (Hn & Hd & _). destruct ds as [|c r]; [congruence|]. exists c, r, RomanLower. split; [auto|]. pose proof (Forall_inv Hd) as Hc. split; [|split; [exact Hd|exact L]]. revert Hc. clear. each_byte c.
  - destruct H as (Hn & Hd & _). destruct ds as [|c r]; [congruence|]. exists c, r, RomanUpper. split; [auto|]. pose proof (Forall_inv Hd) as Hc. split; [|split; [exact Hd|exact L]]. revert Hc. clear. each_byte c.
Qed.
Lemma maybe_yes nb ds v st r : number_denotes nb ds v -> length ds <= digits_max nb -> gapped r -> exists x, maybe_ordered (marker_text st ds ++ r) = Ok (Some x).
Proof.
  intros H L Hr. destruct (guess_ok _ _ _ H L) as (c & ds' & nb' & -> & Hg & Hd & Hl). apply gapped_hd in Hr.
  destruct (maybe_ordered_ok (marker_text st (c :: ds') ++ r)) as (o & E & _). rewrite E. destruct o as [x|]; [eauto|exfalso].
  assert (Hp : starts_c (c :: ds') "(" = false) by (revert Hg; clear; each_byte c).
  assert (Hn1 : num_char nb' ")" = false) by (destruct nb'; reflexivity). assert (Hn2 : num_char nb' "." = false) by (destruct nb'; reflexivity).
  inversion Hd as [|? ? Hd1 Hd2]; subst. cbn [length] in Hl.
  assert (Hcw : forall p, num_char nb' p = false -> count_while (num_char nb') (firstn (num_max_len nb' - 1) (ds' ++ p :: r)) = length ds').
  { intros p Hpc. apply count_while_exact; [exact Hd2|lia|exact Hpc]. }
  assert (Hsk : forall p, skipn (1 + length ds' - 1) (ds' ++ p :: r) = p :: r).
  { intros p. replace (1 + length ds' - 1) with (length ds') by lia. rewrite skipn_app, skipn_all, Nat.sub_diag. reflexivity. }
  revert E. unfold maybe_ordered. destruct st; cbn [marker_text]; rewrite <- ?app_assoc; cbn [B list_ascii_of_string app].
  - change (starts_c (c :: ds' ++ "."%char :: r) "(") with (starts_c (c :: ds') "("). rewrite Hp. cbv beta iota zeta. rewrite Hg. rewrite (Hcw "."%char Hn2), (Hsk "."%char). change (beq "." ")") with false. change (beq "." ".") with true. cbv iota. rewrite Hr.
    destruct (parse_number _ _); cbn [bind]; intros E; discriminate E.
  - change (starts_c (c :: ds' ++ ")"%char :: r) "(") with (starts_c (c :: ds') "("). rewrite Hp. cbv beta iota zeta. rewrite Hg. rewrite (Hcw ")"%char Hn1), (Hsk ")"%char). change (beq ")" ")") with true. cbv iota. rewrite Hr.
    destruct (parse_number _ _); cbn [bind]; intros E; discriminate E.
  - cbn [starts_c]. change (beq "(" "(") with true. cbn [skipn]. cbv beta iota zeta. rewrite <- ?app_assoc. cbn [app]. rewrite Hg. rewrite (Hcw ")"%char Hn1), (Hsk ")"%char). change (beq ")" ")") with true. cbv iota. rewrite Hr.
    destruct (parse_number _ _); cbn [bind]; intros E; discriminate E.
Qed.
Definition plain_first (c : ascii) : bool :=
  negb (beq c NL || beq c "#" || beq c ">" || beq c "{" || beq c "|" || beq c "[" || beq c "-" || beq c "*" || beq c "+" || beq c ":" || beq c "`" || beq c "~").
Lemma no_number nb ds v st r : number_denotes nb ds v -> length ds <= digits_max nb -> gapped r -> no_para (marker_text st ds ++ r).
Proof.
  intros H L Hr. destruct (guess_ok _ _ _ H L) as (c & ds' & nb' & E & Hg & _). destruct (maybe_yes nb ds v st r H L Hr) as ([[num st'] len] & Hm).
  assert (Hf : exists f q, marker_text st ds ++ r = f :: q /\ plain_first f = true).
  { assert (Hc : plain_first c = true) by (revert Hg; clear; each_byte c). rewrite E. destruct st; cbn; eauto. }
  destruct Hf as (f & q & Ef & Hf). rewrite Ef in Hm |- *. unfold plain_first in Hf. apply negb_true_iff in Hf. repeat (apply orb_false_elim in Hf; destruct Hf as [Hf ?]).
  opn. repeat match goal with X : beq f _ = false |- _ => rewrite X; clear X end. cbn [orb andb]. cbv iota. rewrite Hm. cbn [bind]. nope.
Qed.

Lemma opener_no_para t : opener t -> no_para t.
Proof.
  intros H. destruct H.
  - apply no_quote; auto.
  - apply no_heading; auto.
  - apply no_break; auto.
  - apply no_bullet; auto.
  - apply no_term; auto.
  - eapply no_number; eauto.
  - eapply (no_fence c); eauto; [tauto|]. destruct H as [-> | ->]; assumption.
  - eapply (no_fence ":"%char); eauto.
  - apply no_def; auto.
  - apply no_row; auto.
  - eapply no_attrs; eauto.
Qed.

(** ** What follows a marker *)
Definition rest_ok (k : bkind) (t r : bytes) : Prop :=
  match k with
  | KParagraph => inked r /\ ~ opener r
  | KHeading _ | KBlockquote => gapped r
  | KListItem _ _ _ => item_rest t r
  | KTable _ _ => row_text r
  | _ => True
  end.
Lemma rest_rel src k0 k ls t r : PBlock4.cont_rel src k0 k ls -> rest_ok k0 t r -> rest_ok k t r.
Proof.
  destruct k0; cbn [PBlock4.cont_rel]; try (intros -> H; exact H).
  - intros [_ ->] H. exact H.
  - intros [-> _] H. exact H.
  - intros (c' & n' & -> & _) H. exact H.
  - intros (lb & ->) H. exact H.
  - intros (lb & ->) H. exact H.
  - destruct caption; [intros -> H; exact H|]. intros (c' & b' & pre & post & -> & _) H. exact H.
Qed.
Lemma break_head c q : break_text (c :: q) -> c = "*"%char \/ c = "-"%char \/ is_ws c = true.
Proof. intros [H _]. inversion H; auto. Qed.
Lemma ends_with_last s x : ends_with s [x] = true -> exists m, s = m ++ [x].
Proof.
  destruct (rev_case s) as [-> | (m & y & ->)]; [discriminate|]. unfold ends_with. rewrite rev_app_distr. cbn [rev app starts_with]. intros H. apply andb_prop in H. destruct H as [H _]. apply beq_eq in H. subst y. eauto.
Qed.
Lemma identify_rest l k sp : identify l = Ok (k, sp) -> rest_ok k (firstn (se sp - ss sp) (skipn (ss sp) l)) (skipn (se sp) l).
Proof.
  intros Hid. pose proof Hid as Hid0. revert Hid.
  unfold identify. set (n := count_while ws_not_nl l).
  assert (Hline : trim_start_m ws_not_nl l = skipn n l) by apply trim_start_skipn.
  assert (Hn : n <= length l) by apply count_while_le.
  assert (Hind : length l - length (trim_start_m ws_not_nl l) = n) by (rewrite trim_start_len; fold n; qlia).
  pose proof (count_while_skipn ws_not_nl l) as Hhd. fold n in Hhd.
  rewrite Hind, Hline. pose proof (skipn_length n l) as Hll. set (line := skipn n l) in *.
  assert (Hpara : (forall c q, line = c :: q -> c <> NL) -> line <> [] -> Ok (KParagraph, Sp n n) = Ok (k, sp) -> rest_ok k (firstn (se sp - ss sp) (skipn (ss sp) l)) (skipn (se sp) l)).
  { intros Hnl Hne [-> ->]%okp. cbn [ss se rest_ok]. change (skipn n l) with line. split.
    - destruct line as [|c q]; [congruence|]. exists c, q. split; [reflexivity|]. destruct (is_ws c) eqn:Hc; [|reflexivity]. exfalso. apply (Hnl c q eq_refl). cbn in Hhd. unfold ws_not_nl in Hhd. rewrite Hc in Hhd. cbn in Hhd. destruct (beq c NL) eqn:E; [apply beq_eq in E; exact E|discriminate Hhd].
    - intros Hop. exact (opener_no_para _ Hop l (Sp n n) Hline Hid0). }
  assert (Hpre : forall m, firstn (n + m - n) (skipn n l) = firstn m line) by (intros m; unfold line; f_equal; qlia).
  assert (Hsuf : forall m, skipn (n + m) l = skipn m line) by (intros m; unfold line; rewrite skipn_skipn; reflexivity).
  destruct line as [|first chars] eqn:El.
  { intros [-> ->]%okp. exact I. }
  destruct (beq first NL) eqn:E1.
  { intros [-> ->]%okp. exact I. }
  assert (Hp : Ok (KParagraph, Sp n n) = Ok (k, sp) -> rest_ok k (firstn (se sp - ss sp) (skipn (ss sp) l)) (skipn (se sp) l)).
  { apply Hpara; [|discriminate]. intros c q [= <- <-] ->. discriminate E1. }
  clear Hpara. 
  destruct (beq first "#") eqn:E2.
  { destruct (hd_none_or _ _) eqn:Eh; [|exact Hp].
    intros [-> ->]%okp. cbn [ss se rest_ok]. rewrite Hsuf. cbn [count_while]. rewrite E2. cbn [skipn]. apply gapped_hd. exact Eh. }
  destruct (beq first ">") eqn:E3.
  { destruct (hd_none_or _ _) eqn:Eh; [|exact Hp]. intros [-> ->]%okp. cbn [ss se rest_ok]. rewrite Hsuf. cbn [skipn]. apply gapped_hd. exact Eh. }
  destruct (beq first "{") eqn:E4.
  { destruct (attr_valid_ok (first :: chars)) as (v & -> & _). cbn [bind].
    destruct (Nat.eqb v _) eqn:Ev; [|exact Hp]. intros [-> ->]%okp. exact I. }
  destruct (beq first "|") eqn:E5.
  { destruct (_ && _) eqn:Er; [|exact Hp]. intros [-> ->]%okp. cbn [ss se rest_ok]. replace (skipn n l) with (skipn (n + 0) l) by (f_equal; clear; lia). rewrite Hsuf. cbn [skipn].
    apply andb_prop in Er. destruct Er as [Er Er3]. apply andb_prop in Er. destruct Er as [Er1 Er2]. apply Nat.leb_le in Er1. apply negb_true_iff in Er3. apply beq_eq in E5. subst first.
    destruct (trim_end_spec is_ws ("|"%char :: chars)) as (b & E & Hb & _). set (lt := trim_end_m is_ws ("|"%char :: chars)) in *. clearbody lt. rewrite E.
    apply ends_with_last in Er2. destruct Er2 as (m1 & ->). rewrite app_length in Er1. cbn in Er1. destruct m1 as [|c m]; [cbn in Er1; clear - Er1; lia|]. cbn in E. assert (c = "|"%char) by congruence. subst c.
    exists m, b. split; [rewrite <- app_assoc; reflexivity|]. split; [apply blanks_forallb; exact Hb|]. intros m' ->.
    change ("|"%char :: m' ++ [BSL]) with (("|"%char :: m') ++ [BSL]) in Er3. change [BSL; "|"%char] with ([BSL] ++ ["|"%char]) in Er3. rewrite ends_with_snoc in Er3. change [BSL] with ([] ++ [BSL]) in Er3. rewrite app_assoc in Er3. rewrite ends_with_snoc in Er3. unfold ends_with in Er3. destruct (rev _) in Er3; discriminate Er3. }
  destruct (beq first "[") eqn:E6.
  { destruct (position _ chars) as [m|] eqn:Em; [|exact Hp].
    destruct (starts_c (skipn (m + 1) chars) ":") eqn:Ec; [|exact Hp]. intros [-> ->]%okp. exact I. }
  destruct ((beq first "-" || beq first "*") && is_thematic_break chars) eqn:E7.
  { intros [-> ->]%okp. exact I. }
  assert (Hws : is_ws first = false).
  { destruct (is_ws first) eqn:Ew; [|reflexivity]. exfalso. cbn in Hhd. unfold ws_not_nl in Hhd. rewrite Ew, E1 in Hhd. discriminate Hhd. }
  assert (Hnb : ~ break_text (first :: chars)).
  { intros Hb. assert (Hc : first = "*"%char \/ first = "-"%char) by (destruct (break_head _ _ Hb) as [H|[H|H]]; [auto|auto|congruence]).
    apply break_loop in Hb; [|exact Hc]. rewrite Hb in E7. destruct Hc as [-> | ->]; discriminate E7. }
  assert (Hcat : forall m, firstn m (first :: chars) ++ skipn m (first :: chars) = first :: chars) by (intros; apply firstn_skipn).
  assert (Hitem : forall m ty, 1 <= m -> gapped (skipn m (first :: chars)) -> (m = 1 -> bullet_at first -> (chars = [] \/ exists r', chars = SP :: r') /\ ~ (exists b r', chars = b ++ r' /\ checkbox b /\ gapped r')) ->
     (Ok (KListItem n ty false, Sp n (n + m)) = Ok (k, sp) -> rest_ok k (firstn (se sp - ss sp) (skipn (ss sp) l)) (skipn (se sp) l))).
  { intros m ty Hm1 Hg Hb [-> ->]%okp. cbn [ss se rest_ok]. rewrite Hpre, Hsuf. split; [exact Hg|]. split; [rewrite Hcat; exact Hnb|].
    intros c Hc Ht. destruct m as [|[|m]]; [clear - Hm1; lia| |].
    - cbn [firstn skipn] in *. injection Ht as ->. apply Hb; auto.
    - destruct chars as [|c2 q]; [|cbn in Ht; discriminate Ht]. cbn [skipn] in Hg |- *. split; [destruct m; auto|].
      intros (b & r' & E & (y & -> & _) & _). destruct m; discriminate E. }
  destruct (beq first "-" || beq first "*" || beq first "+") eqn:E9.
  { destruct (hd_none_or _ _) eqn:Eh; [|exact Hp]. apply sp_hd in Eh.
    assert (Hgc : gapped chars) by (destruct Eh as [-> | (r' & ->)]; [left; reflexivity|right; exists SP, r'; auto]).
    destruct (match chars with _ :: b :: x :: e :: rest => _ | _ => false end) eqn:Et.
    - apply (Hitem 5); [clear; lia| |clear; lia]. destruct chars as [|c1 [|c2 [|c3 [|c4 rest]]]]; try discriminate Et.
      apply andb_prop in Et. destruct Et as [_ Et]. cbn [skipn]. apply gapped_hd. exact Et.
    - apply (Hitem 1); [clear; lia|exact Hgc|]. intros _ _. split; [exact Eh|]. intros (b & r' & -> & (y & -> & Hy) & Hr'). cbn [app] in Et. apply gapped_hd in Hr'. rewrite Hr' in Et.
      destruct Hy as [-> | [-> | ->]]; discriminate Et. }
  assert (Hnbu : ~ bullet_at first).
  { intros Hc. destruct Hc as [-> | [-> | ->]]; discriminate E9. }
  destruct (beq first ":" && hd_none_or is_ws chars) eqn:E10.
  { apply andb_prop in E10. destruct E10 as [_ E10]. apply (Hitem 1); [clear; lia|apply gapped_hd; exact E10|intros _ Hx; destruct (Hnbu Hx)]. }
  destruct (beq first "`" || beq first ":" || beq first "~") eqn:E11.
  { destruct (_ && Nat.leb 3 _) eqn:E12; [|exact Hp]. intros [-> ->]%okp. exact I. }
  destruct (maybe_ordered_ok (first :: chars)) as (r & -> & Hr). cbn [bind].
  destruct r as [[[num st] len]|]; [|exact Hp]. destruct Hr as (ds & after & Hl & -> & Hden & Hbd & Hds & Haft).
  assert (H1 : 1 <= length (marker_text st ds)) by (destruct st; cbn [marker_text]; rewrite ?app_length; cbn; clear; lia).
  apply (Hitem (length (marker_text st ds)) (LOrdered num st) H1); [|intros _ Hx; destruct (Hnbu Hx)].
  rewrite Hl. rewrite skipn_app, skipn_all, Nat.sub_diag. cbn [app skipn]. destruct after as [|c q]; [left; reflexivity|right; exists c, q; auto].
Qed.
