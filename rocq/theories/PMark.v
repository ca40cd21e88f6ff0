(** * PMark: the text of block markers *)
From Verif Require Import Base Lex Attr Block Lib PSafe SpecAttr PAttr SpecBlock PBlock1 PBlock2.
Local Open Scope nat_scope.

Definition fence_char (fk : fence_kind) : ascii := match fk with FenceDiv => ":"%char | FenceCode c => c end.
(** The text [t] of the marker that was identified as [k]. *)
Definition mark_ok (k : bkind) (t : bytes) : Prop :=
  match k with
  | KAtom BBlankline => blanks_only t
  | KAtom BThematicBreak => break_text t
  | KAtom BAttributes | KTable _ _ => True
  | KParagraph => t = []
  | KHeading level => t = repeat "#"%char level
  | KFenced _ flen fk spec _ _ => 3 <= flen /\ fence_text (fence_char fk) flen spec t /\
      match fk with
      | FenceDiv => Forall (fun c => is_name c = true) spec
      | FenceCode c => (c = "`"%char \/ c = "~"%char) /\ Forall (fun c => is_ws c = false /\ c <> "`"%char) spec
      end
  | KDefinition _ fn label _ => label_text (if fn then "^"%char :: label else label) t /\ (fn = false -> starts_c label "^" = false)
  | KBlockquote => t = B ">"
  | KListItem _ ty _ => item_text ty t
  end.

Lemma firstn_skip_all {A} n (l : list A) : firstn (length l - n) (skipn n l) = skipn n l.
Proof. rewrite <- skipn_length. apply firstn_all. Qed.
Lemma thematic_count s n : thematic_loop s n = true ->
  Forall (fun c => c = "*"%char \/ c = "-"%char \/ is_ws c = true) s /\ 3 <= n + length (filter (fun c => negb (is_ws c)) s).
Proof.
  revert n; induction s as [|c s IH]; intros n H; [cbn in H; destruct n as [|[|[|n]]]; try discriminate H; split; [constructor|cbn; lia]|]. cbn in H |- *.
  destruct (beq c "-" || beq c "*") eqn:E.
  - apply IH in H. destruct H as [H1 H2]. assert (Hc : c = "-"%char \/ c = "*"%char) by (apply orb_prop in E; destruct E as [E|E]; apply beq_eq in E; auto).
    split; [constructor; [tauto|auto]|]. replace (is_ws c) with false by (destruct Hc as [-> | ->]; reflexivity). cbn. lia.
  - destruct (is_ws c) eqn:Ew; [|discriminate]. apply IH in H. destruct H as [H1 H2]. split; [constructor; auto|]. cbn. lia.
Qed.
Lemma trim_end_filter s : filter (fun c => negb (is_ws c)) (trim_end_m is_ws s) = filter (fun c => negb (is_ws c)) s.
Proof.
  destruct (trim_end_spec is_ws s) as (t & E & H & _). rewrite E at 2. rewrite filter_app.
  replace (filter _ t) with (@nil ascii); [rewrite app_nil_r; auto|]. symmetry. clear E. induction t as [|c t IH]; [auto|]. cbn in *.
  apply andb_prop in H. destruct H as [H1 H2]. rewrite H1. cbn. auto.
Qed.
Lemma blanks_forallb s : forallb is_ws s = true -> blanks_only s.
Proof. intros H. rewrite forallb_forall in H. apply Forall_forall. auto. Qed.
Lemma position_none {A} (f : A -> bool) l n : position f l = Some n -> Forall (fun x => f x = false) (firstn n l) /\ exists x r, skipn n l = x :: r /\ f x = true.
Proof.
  revert n; induction l as [|y l IH]; cbn; intros n H; [discriminate|]. destruct (f y) eqn:E.
  - injection H as <-. split; [constructor|]. exists y, l. auto.
  - destruct (position f l) as [m|]; [|discriminate]. injection H as <-. destruct (IH m eq_refl) as [H1 H2]. cbn. split; [constructor; auto|auto].
Qed.
Lemma indent_trim l : indentation (firstn (count_while ws_not_nl l) l).
Proof.
  pose proof (count_while_firstn ws_not_nl l) as H. rewrite forallb_forall in H. apply Forall_forall. intros x Hx. specialize (H x Hx).
  split; [apply ws_not_nl_ws; auto|]. intros ->. discriminate H.
Qed.

Lemma okp {A C} (a c : A) (b d : C) : Ok (a, b) = Ok (c, d) -> c = a /\ d = b.
Proof. intros [= -> ->]. auto. Qed.
Lemma identify_mark l k sp : identify l = Ok (k, sp) -> mark_ok k (firstn (se sp - ss sp) (skipn (ss sp) l)).
Proof.
  unfold identify. set (n := count_while ws_not_nl l).
  assert (Hline : trim_start_m ws_not_nl l = skipn n l) by apply trim_start_skipn.
  assert (Hn : n <= length l) by apply count_while_le.
  assert (Hind : length l - length (trim_start_m ws_not_nl l) = n) by (rewrite trim_start_len; fold n; qlia).
  rewrite Hind, Hline. pose proof (skipn_length n l) as Hll. set (line := skipn n l) in *.
  assert (HL : l = firstn n l ++ line) by (symmetry; apply firstn_skipn).
  assert (Hpara : Ok (KParagraph, Sp n n) = Ok (k, sp) -> mark_ok k (firstn (se sp - ss sp) (skipn (ss sp) l))).
  { intros [-> ->]%okp. cbn [ss se]. rewrite Nat.sub_diag. reflexivity. }
  assert (Hpre : forall m, skipn n l = line -> firstn (n + m - n) (skipn n l) = firstn m line) by (intros m ->; f_equal; qlia).
  specialize (fun m => Hpre m eq_refl).
  destruct line as [|first chars] eqn:El.
  { intros [-> ->]%okp. cbn [ss se mark_ok]. rewrite Nat.sub_diag. constructor. }
  destruct (beq first NL) eqn:E1.
  { intros [-> ->]%okp. cbn [ss se mark_ok]. rewrite Hpre. apply beq_eq in E1. subst first. cbn. repeat constructor. }
  destruct (beq first "#") eqn:E2.
  { destruct (hd_none_or _ _); [|exact Hpara].
    intros [-> ->]%okp. cbn [ss se mark_ok]. rewrite Hpre. set (q := first :: chars). change (firstn (count_while (fun c => beq c "#") q) q = repeat "#"%char (count_while (fun c => beq c "#") q)).
    clear. induction q as [|x q IH]; [reflexivity|]. cbn. destruct (beq x "#") eqn:E; [|reflexivity]. cbn. apply beq_eq in E. subst. rewrite IH. reflexivity. }
  destruct (beq first ">") eqn:E3.
  { destruct (hd_none_or _ _); [|exact Hpara]. intros [-> ->]%okp. cbn [ss se mark_ok]. rewrite Hpre. apply beq_eq in E3. subst first. reflexivity. }
  destruct (beq first "{") eqn:E4.
  { destruct (attr_valid_ok (first :: chars)) as (v & -> & _). cbn [bind].
    destruct (Nat.eqb v _) eqn:Ev; [|exact Hpara]. intros [-> ->]%okp. exact I. }
  destruct (beq first "|") eqn:E5.
  { destruct (_ && _); [|exact Hpara]. intros [-> ->]%okp. exact I. }
  destruct (beq first "[") eqn:E6.
  { destruct (position _ chars) as [m|] eqn:Em; [|exact Hpara].
    destruct (starts_c (skipn (m + 1) chars) ":") eqn:Ec; [|exact Hpara].
    destruct (position_none _ _ _ Em) as (P1 & x & r & P2 & P3). apply beq_eq in P3. subst x. apply beq_eq in E6. subst first.
    assert (P4 : skipn (m + 1) chars = r) by (rewrite <- skipn_skipn, P2; reflexivity). rewrite P4 in Ec.
    destruct r as [|y r]; [discriminate|]. cbn in Ec. apply beq_eq in Ec. subst y.
    set (lab := firstn m chars) in *. intros [-> ->]%okp. cbn [ss se mark_ok]. rewrite Nat.sub_0_r. cbn [skipn].
    assert (HC : chars = lab ++ "]"%char :: ":"%char :: r) by (unfold lab; rewrite <- P2; symmetry; apply firstn_skipn).
    assert (Hm : length lab = m).
    { unfold lab. rewrite firstn_length. assert (m < length chars) by (pose proof (skipn_length m chars) as Q; rewrite P2 in Q; cbn in Q; qlia). qlia. }
    assert (Hno : ~ List.In "]"%char lab).
    { intros H. rewrite Forall_forall in P1. apply P1 in H. cbn in H. discriminate. }
    assert (Ht : firstn (n + 3 + m) l = firstn n l ++ B "[" ++ lab ++ B "]:").
    { rewrite HL at 1. rewrite HC. rewrite firstn_app. rewrite (firstn_all2 (firstn n l)) by (rewrite firstn_length; qlia). f_equal.
      rewrite firstn_length. replace (n + 3 + m - Nat.min n (length l)) with (S (length lab + 2)) by qlia. cbn [firstn B list_ascii_of_string app]. f_equal.
      rewrite firstn_app. rewrite firstn_all2 by qlia. f_equal. replace (length lab + 2 - length lab) with 2 by qlia. reflexivity. }
    destruct (starts_c lab "^") eqn:Ef.
    - split; [|discriminate]. destruct lab as [|y lab]; [discriminate|]. cbn in Ef. apply beq_eq in Ef. subst y. cbn [skipn].
      exists (firstn n l). split; [exact Ht|]. split; [apply indent_trim|exact Hno].
    - split; [|auto]. exists (firstn n l). split; [exact Ht|]. split; [apply indent_trim|exact Hno]. }
  destruct ((beq first "-" || beq first "*") && is_thematic_break chars) eqn:E7.
  { apply andb_prop in E7. destruct E7 as [E7 E8]. apply thematic_count in E8. destruct E8 as [T1 T2].
    intros [-> ->]%okp. cbn [ss se mark_ok]. rewrite Hpre. rewrite <- (trim_end_prefix is_ws (first :: chars)).
    assert (Hc : first = "*"%char \/ first = "-"%char \/ is_ws first = true) by (apply orb_prop in E7; destruct E7 as [E|E]; apply beq_eq in E; auto).
    assert (Hf : negb (is_ws first) = true) by (apply orb_prop in E7; destruct E7 as [E|E]; apply beq_eq in E; subst first; reflexivity).
    split.
    - destruct (trim_end_spec is_ws (first :: chars)) as (t & E & _). assert (HF : Forall (fun c => c = "*"%char \/ c = "-"%char \/ is_ws c = true) (first :: chars)) by (constructor; auto).
      rewrite E in HF. apply Forall_app in HF. apply HF.
    - rewrite trim_end_filter. cbn [filter]. rewrite Hf. cbn [length]. qlia. }
  destruct (beq first "-" || beq first "*" || beq first "+") eqn:E9.
  { destruct (hd_none_or _ _) eqn:Eh; [|exact Hpara].
    destruct (match chars with _ :: b :: x :: e :: rest => _ | _ => false end) eqn:Et.
    - intros [-> ->]%okp. cbn [ss se mark_ok]. rewrite Hpre. destruct chars as [|c1 [|c2 [|c3 [|c4 rest]]]]; try discriminate Et.
      apply andb_prop in Et. destruct Et as [Et _]. apply andb_prop in Et. destruct Et as [Et Ee]. apply andb_prop in Et. destruct Et as [Eb Ex].
      cbn in Eh. apply beq_eq in Eh, Eb, Ee. subst c1 c2 c4. cbn [item_text]. exists c3. split; [reflexivity|].
      apply orb_prop in Ex. destruct Ex as [Ex|Ex]; [apply orb_prop in Ex; destruct Ex as [Ex|Ex]|]; apply beq_eq in Ex; auto.
    - intros [-> ->]%okp. cbn [ss se mark_ok]. rewrite Hpre. reflexivity. }
  destruct (beq first ":" && hd_none_or is_ws chars) eqn:E10.
  { apply andb_prop in E10. destruct E10 as [E10 _]. apply beq_eq in E10. subst first. intros [-> ->]%okp. cbn [ss se mark_ok]. rewrite Hpre. reflexivity. }
  destruct (beq first "`" || beq first ":" || beq first "~") eqn:E11.
  { set (flen := 1 + count_while (fun c => beq c first) chars).
    destruct (_ && Nat.leb 3 _) eqn:E12; [|exact Hpara]. apply andb_prop in E12. destruct E12 as [Ev E12]. apply Nat.leb_le in E12.
    intros [-> ->]%okp. cbn [ss se mark_ok]. rewrite Hpre. rewrite firstn_all. split; [exact E12|].
    set (lt := trim_end_m is_ws (first :: chars)) in *. set (spec := trim_start_m is_ws (skipn flen lt)) in *.
    assert (Hf : fence_char (if beq first ":" then FenceDiv else FenceCode first) = first).
    { destruct (beq first ":") eqn:E; [apply beq_eq in E; subst; reflexivity|reflexivity]. }
    assert (Hfw : is_ws first = false).
    { apply orb_prop in E11. destruct E11 as [E11|E11]; [apply orb_prop in E11; destruct E11 as [E11|E11]|]; apply beq_eq in E11; subst first; reflexivity. }
    split.
    - rewrite Hf. destruct (trim_end_spec is_ws (first :: chars)) as (t & E & Ht & _). fold lt in E.
      assert (Hrep : firstn flen (first :: chars) = repeat first flen).
      { unfold flen. cbn [Nat.add firstn repeat]. f_equal. clear. induction chars as [|x q IH]; [reflexivity|]. cbn. destruct (beq x first) eqn:E; [|reflexivity]. cbn. apply beq_eq in E. subst. rewrite IH. reflexivity. }
      assert (Hfl : flen <= length lt).
      { destruct (Nat.le_gt_cases flen (length lt)) as [|Hgt]; [auto|exfalso].
        assert (Hx : nth_error (first :: chars) (length lt) = Some first).
        { rewrite <- (firstn_skipn flen (first :: chars)), Hrep. rewrite nth_error_app1 by (rewrite repeat_length; auto). apply nth_error_repeat. auto. }
        rewrite E, nth_error_app2, Nat.sub_diag in Hx by qlia. destruct t as [|y t]; [discriminate|]. cbn in Hx. injection Hx as ->. cbn in Ht. rewrite Hfw in Ht. discriminate. }
      exists (firstn (count_while is_ws (skipn flen lt)) (skipn flen lt)), t.
      split; [|split; [|apply blanks_forallb; exact Ht]].
      + rewrite E at 1. rewrite <- (firstn_skipn flen lt) at 1. rewrite <- !app_assoc. f_equal.
        * rewrite <- Hrep. rewrite E, firstn_app. replace (flen - length lt) with 0 by qlia. cbn. rewrite app_nil_r. reflexivity.
        * rewrite app_assoc. f_equal. unfold spec. rewrite trim_start_skipn. symmetry. apply firstn_skipn.
      + apply blanks_forallb. apply count_while_firstn.
    - destruct (beq first ":") eqn:E13.
      + rewrite forallb_forall in Ev. apply Forall_forall. auto.
      + split; [apply orb_prop in E11; destruct E11 as [E11|E11]; [apply orb_prop in E11; destruct E11 as [E11|E11]|]; [left|congruence|right]; apply beq_eq; auto|].
        apply andb_prop in Ev. destruct Ev as [V1 V2]. apply negb_true_iff in V1, V2. apply Forall_forall. intros c Hc. split.
        * destruct (is_ws c) eqn:Ew; [|auto]. rewrite (proj2 (existsb_exists _ _)) in V1; [discriminate|]. eauto.
        * intros ->. rewrite (proj2 (existsb_exists (fun c => beq c "`") spec)) in V2; [discriminate|]. exists "`"%char. split; [auto|apply beq_refl]. }
  destruct (maybe_ordered_ok (first :: chars)) as (r & -> & Hr). cbn [bind].
  destruct r as [[[num st] len]|]; [|exact Hpara]. destruct Hr as (ds & after & Hl & -> & Hden & Hbd & Hds & Haft).
  intros [-> ->]%okp. cbn [ss se mark_ok item_text]. rewrite Hpre. rewrite Hl. exists ds. split.
  - rewrite firstn_app, firstn_all, Nat.sub_diag, app_nil_r. reflexivity.
  - exists num. split; [exact Hden|auto].
Qed.

(** ** Closing fences *)
Lemma identify_fence_indent l i f fk spec cl ne sp : identify l = Ok (KFenced i f fk spec cl ne, sp) -> i = count_while ws_not_nl l.
Proof.
  unfold identify. set (n := count_while ws_not_nl l).
  assert (Hind : length l - length (trim_start_m ws_not_nl l) = n) by (rewrite trim_start_len; fold n; pose proof (count_while_le ws_not_nl l); unfold n; qlia).
  rewrite Hind. destruct (trim_start_m ws_not_nl l) as [|first chars]; [discriminate|].
  repeat match goal with
  | |- (if ?b then _ else _) = _ -> _ => destruct b
  | |- Ok _ = Ok _ -> _ => intros [E _]%okp; first [discriminate E | injection E; intros; subst; reflexivity]
  | |- (match position ?f ?l with _ => _ end) = _ -> _ => destruct (position f l)
  | |- bind ?r _ = _ -> _ => destruct r as [o| |]; cbn [bind]; try discriminate
  | |- (match ?o with Some _ => _ | None => _ end) = _ -> _ => destruct o as [[[? ?] ?]|]
  end.
Qed.
Lemma fence_closing l i f fk cl ne sp : identify l = Ok (KFenced i f fk [] cl ne, sp) -> closing_fence (fence_char fk) f l.
Proof.
  intros H. pose proof (identify_mark _ _ _ H) as (_ & (a & b & Ht & Ha & Hb) & _). pose proof (identify_fence_indent _ _ _ _ _ _ _ _ H) as Hi.
  destruct (identify_ok l) as (k2 & sp2 & E2 & Hok). rewrite H in E2. apply okp in E2. destruct E2 as [-> ->]. destruct Hok as (H1 & H2 & _ & _ & _ & _ & H5 & H6 & _).
  exists (firstn i l), f, (a ++ b). split; [|split; [auto|split; [rewrite Hi; apply indent_trim|apply Forall_app; auto]]].
  rewrite <- (firstn_skipn i l) at 1. f_equal. rewrite H5, H6 in Ht. rewrite firstn_skip_all in Ht. rewrite Ht. reflexivity.
Qed.
Lemma count_while_app_stop f (a b : bytes) : forallb f a = true -> match b with x :: _ => f x = false | [] => True end -> count_while f (a ++ b) = length a.
Proof. induction a as [|x a IH]; cbn; [destruct b as [|y b]; cbn; [auto|intros _ ->; auto]|]. intros H Hb. apply andb_prop in H. destruct H as [-> H]. rewrite IH; auto. Qed.
Lemma repeat_count c m (b : bytes) : match b with x :: _ => beq x c = false | [] => True end -> count_while (fun x => beq x c) (repeat c m ++ b) = m.
Proof. induction m as [|m IH]; cbn; [destruct b as [|x b]; [auto|intros H; cbn; rewrite H; auto]|]. intros H. rewrite beq_refl, IH; auto. Qed.
Lemma closing_identify a m b c : indentation a -> 3 <= m -> blanks_only b -> c = "`"%char \/ c = "~"%char ->
  exists sp, identify (a ++ repeat c m ++ b) = Ok (KFenced (length a) m (FenceCode c) [] false None, sp).
Proof.
  intros Ha Hm Hb Hc. destruct m as [|m]; [lia|]. cbn [repeat app].
  assert (Hcw : count_while ws_not_nl (a ++ c :: repeat c m ++ b) = length a).
  { apply count_while_app_stop; [|destruct Hc as [-> | ->]; reflexivity]. apply forallb_forall. intros x Hx. unfold indentation in Ha. rewrite Forall_forall in Ha. destruct (Ha x Hx) as [H1 H2].
    unfold ws_not_nl. rewrite H1. destruct (beq x NL) eqn:E; [apply beq_eq in E; contradiction|reflexivity]. }
  assert (Hbc : match b with x :: _ => beq x c = false | [] => True end).
  { destruct b as [|x b]; [auto|]. inversion Hb as [|? ? H1 H2]; subst. destruct (beq x c) eqn:E; [|auto]. apply beq_eq in E. subst x. destruct Hc as [-> | ->]; discriminate. }
  assert (Hts : trim_start_m ws_not_nl (a ++ c :: repeat c m ++ b) = c :: repeat c m ++ b).
  { rewrite trim_start_skipn, Hcw, skipn_app, skipn_all, Nat.sub_diag. reflexivity. }
  unfold identify. rewrite Hts. replace (length (a ++ c :: repeat c m ++ b) - length (c :: repeat c m ++ b)) with (length a) by (rewrite app_length; lia).
  assert (Hte : trim_end_m is_ws (c :: repeat c m ++ b) = c :: repeat c m).
  { change (c :: repeat c m ++ b) with (repeat c (S m) ++ b). change (c :: repeat c m) with (repeat c (S m)).
    assert (Hw : is_ws c = false) by (destruct Hc as [-> | ->]; reflexivity). clear - Hb Hw. induction (S m) as [|k IH]; cbn.
    - apply trim_end_nil. apply forallb_forall. intros x Hx. unfold blanks_only in Hb. rewrite Forall_forall in Hb. auto.
    - rewrite IH. destruct (repeat c k); [rewrite Hw; reflexivity|reflexivity]. }
  rewrite Hte.
  assert (Hspec : forall sp, skipn (1 + count_while (fun x => beq x c) (repeat c m ++ b)) (c :: repeat c m) = sp -> sp = []).
  { intros sp <-. rewrite repeat_count by auto. cbn [Nat.add skipn]. apply skipn_all2. rewrite repeat_length. lia. }
  pose proof (repeat_count c m b Hbc) as Hcnt.
  destruct Hc as [-> | ->].
  - cbn [beq]. cbv beta iota zeta. change (beq "`" NL) with false. change (beq "`" "#") with false. change (beq "`" ">") with false. change (beq "`" "{") with false.
    change (beq "`" "|") with false. change (beq "`" "[") with false. change (beq "`" "-") with false. change (beq "`" "*") with false. change (beq "`" "+") with false. change (beq "`" ":") with false. change (beq "`" "`") with true.
    cbn [orb andb]. rewrite (Hspec _ eq_refl). rewrite Hcnt. cbn [trim_start_m existsb negb andb]. replace (Nat.leb 3 (1 + m)) with true by (symmetry; apply Nat.leb_le; lia). eauto.
  - cbv beta iota zeta. change (beq "~" NL) with false. change (beq "~" "#") with false. change (beq "~" ">") with false. change (beq "~" "{") with false.
    change (beq "~" "|") with false. change (beq "~" "[") with false. change (beq "~" "-") with false. change (beq "~" "*") with false. change (beq "~" "+") with false. change (beq "~" ":") with false. change (beq "~" "`") with false. change (beq "~" "~") with true.
    cbn [orb andb]. rewrite (Hspec _ eq_refl). rewrite Hcnt. cbn [trim_start_m existsb negb andb]. replace (Nat.leb 3 (1 + m)) with true by (symmetry; apply Nat.leb_le; lia). eauto.
Qed.
