(** * PropsLine: list numbers (C28), lines (C32), size limit (C34), tokens (C36) *)
From Coq Require Import ZArith.
From Verif Require Import Base Lex Attr Block Inline Doc Lib PSafe SpecAttr PAttr PropsAttr SpecBlock SpecLex PBlock1 PBlock2 PLex PBlock3 PBlock4.
Local Open Scope nat_scope.

(** ** C28: list numbers *)
(** Whatever the line, reading an ordered marker does not fail, and the number read is the one the
    marker denotes; it fits a [u64] with room for the next number. *)
Theorem C28_marker : forall line,
  exists r, maybe_ordered line = Ok r /\
  forall nb v st len, r = Some (LN nb v, st, len) ->
    exists ds after, line = marker_text st ds ++ after /\ len = length (marker_text st ds) /\
      number_denotes nb ds v /\ (v + 1 < 2 ^ 64)%N /\ match after with [] => True | c :: _ => is_ws c = true end.
Proof.
  intros line. destruct (maybe_ordered_ok line) as (r & E & H). exists r. split; [auto|].
  intros nb v st len ->. destruct H as (ds & after & H1 & H2 & H3 & H4 & H5 & H6). exists ds, after. repeat split; auto.
  unfold num_bound in H4. cbn [ln_val] in H4. assert (10 ^ 19 = 10000000000000000000)%N by reflexivity.
  assert (2 ^ 64 = 18446744073709551616)%N by reflexivity. lia.
Qed.
Print Assumptions C28_marker.
(** Every text that is a number of at most 19 digits (13 Roman digits, one letter) has a value: no
    overflow or underflow. *)
Theorem C28_number : forall nb ds, ds <> [] -> Forall (fun c => num_char nb c = true) ds ->
  length ds <= match nb with Decimal => 19 | RomanLower | RomanUpper => 13 | _ => 1 end ->
  exists v, parse_number nb ds = Ok v /\ number_denotes nb ds v.
Proof.
  intros nb ds H1 H2 H3. destruct (parse_number_ok nb ds H1 H2) as (v & E & H & _); [destruct nb; exact H3|eauto].
Qed.
Print Assumptions C28_number.
(** Deciding whether a marker continues a list does not overflow either. *)
Theorem C28_continues : forall a b, lt_ok a -> lt_ok b -> exists r, lt_continues a b = Ok r.
Proof. intros a b Ha Hb. destruct (lt_continues_ok a b Ha Hb) as (r & E & _). eauto. Qed.
Print Assumptions C28_continues.
(** An item continues a list exactly if it has the same type, or the same numbering and style, or one
    of the two is a single Roman digit that read as a letter gives consecutive letters. *)
Theorem C28_continues_exact : forall a b, lt_ok a -> lt_ok b ->
  match lt_continues a b with
  | Ok (Some (x, y)) => list_continues a b x y
  | Ok None => forall x y, ~ list_continues a b x y
  | _ => False
  end.
Proof.
  intros a b Ha Hb. destruct (lt_continues_ok a b Ha Hb) as (r & Er & _). rewrite Er. unfold lt_continues in Er.
  destruct (list_type_eqb a b) eqn:Eq.
  { injection Er as <-. assert (a = b) as ->; [|constructor].
    destruct a as [|[nb v] st| |], b as [|[nb' v'] st'| |]; cbn in Eq; try discriminate; auto; try (apply beq_eq in Eq; congruence).
    apply andb_prop in Eq. destruct Eq as [Eq Es]. apply andb_prop in Eq. destruct Eq as [En Ev]. apply N.eqb_eq in Ev.
    destruct nb, nb'; try discriminate En; destruct st, st'; try discriminate Es; congruence. }
  assert (Hne : a <> b).
  { intros ->. destruct b as [c|[nb v] st|c|]; cbn in Eq; try discriminate; try (rewrite beq_refl in Eq; discriminate).
    rewrite N.eqb_refl in Eq. destruct nb, st; discriminate. }
  assert (Hno : r = None -> (forall n s, a <> LOrdered n s) \/ (forall n s, b <> LOrdered n s) -> match r with Some (x, y) => list_continues a b x y | None => forall x y, ~ list_continues a b x y end).
  { intros -> H x y C. inversion C; subst; try congruence; destruct H as [H|H]; eapply H; reflexivity. }
  destruct a as [c|n0 s0|c|], b as [c'|n1 s1|c'|]; try (apply Hno; [congruence|first [left; discriminate|right; discriminate]]). clear Hno.
  assert (Hns : forall u w : numbering, numbering_eqb u w = true <-> u = w) by (intros [] []; cbn; split; congruence).
  assert (Hos : forall u w : ostyle, ostyle_eqb u w = true <-> u = w) by (intros [] []; cbn; split; congruence).
  destruct (numbering_eqb (ln_num n0) (ln_num n1) && ostyle_eqb s0 s1) eqn:E1.
  { injection Er as <-. apply andb_prop in E1. destruct E1 as [E1 E2]. apply Hns in E1. apply Hos in E2. subst s1.
    destruct n0 as [nb v], n1 as [nb' v']. cbn in E1. subst nb'. constructor. }
  destruct (ostyle_eqb s0 s1) eqn:E2.
  2:{ injection Er as <-. intros x y C. assert (s0 <> s1) by (intros ->; destruct s1; discriminate). inversion C; subst; congruence. }
  apply Hos in E2. subst s1. rewrite andb_true_r in E1.
  assert (En : ln_num n0 <> ln_num n1) by (intros H; apply Hns in H; congruence).
  assert (Hcase : forall x y, list_continues (LOrdered n0 s0) (LOrdered n1 s0) x y ->
     (exists nb v, as_letter n0 (LN nb v) /\ n1 = LN nb (v + 1) /\ x = LOrdered (LN nb v) s0 /\ y = LOrdered n1 s0)
     \/ (exists nb v, as_letter n1 (LN nb (v + 1)) /\ n0 = LN nb v /\ x = LOrdered n0 s0 /\ y = LOrdered (LN nb (v + 1)) s0)).
  { intros x y C. inversion C; subst; cbn in *; try congruence; [left|right]; eauto 10. }
  destruct (ambiguity n0) as [a0| |] eqn:A0; try discriminate. cbn [bind] in Er. apply ambiguity_letter in A0.
  destruct a0 as [[nb v]|].
  - cbn [ln_num ln_val] in Er. destruct (numbering_eqb nb (ln_num n1)) eqn:E3.
    + apply Hns in E3. unfold u64 in Er. destruct (N.ltb _ _) in Er; [|discriminate]. cbn [bind] in Er. destruct n1 as [nb1 v1]. cbn in *. subst nb1.
      destruct (N.eqb (v + 1) v1) eqn:E4; injection Er as <-.
      * apply N.eqb_eq in E4. subst v1. constructor. auto.
      * apply N.eqb_neq in E4. intros x y C. apply Hcase in C. destruct C as [(nb' & v' & H1 & H2 & _)|(nb' & v' & H1 & H2 & _)].
        -- pose proof (as_letter_fun _ _ _ A0 H1) as E. congruence.
        -- inversion A0; subst; inversion H1; subst; congruence.
    + injection Er as <-. intros x y C. apply Hcase in C. destruct C as [(nb' & v' & H1 & H2 & _)|(nb' & v' & H1 & H2 & _)].
      * pose proof (as_letter_fun _ _ _ A0 H1) as E. subst n1. cbn in E3. assert (nb = nb') by congruence. subst. destruct nb'; discriminate.
      * subst n0. inversion A0; subst; inversion H1; subst; congruence.
  - destruct (ambiguity n1) as [a1| |] eqn:A1; try discriminate. cbn [bind] in Er. apply ambiguity_letter in A1.
    destruct a1 as [[nb v]|].
    + cbn [ln_num ln_val] in Er. destruct (numbering_eqb (ln_num n0) nb) eqn:E3.
      * apply Hns in E3. unfold u64 in Er. destruct (N.ltb _ _) in Er; [|discriminate]. cbn [bind] in Er. destruct n0 as [nb0 v0]. cbn in *. subst nb0.
        destruct (N.eqb (v0 + 1) v) eqn:E4; injection Er as <-.
        -- apply N.eqb_eq in E4. subst v. constructor. auto.
        -- apply N.eqb_neq in E4. intros x y C. apply Hcase in C. destruct C as [(nb' & v' & H1 & H2 & _)|(nb' & v' & H1 & H2 & _)]; [eapply A0; eauto|].
           pose proof (as_letter_fun _ _ _ A1 H1) as E. congruence.
      * injection Er as <-. intros x y C. apply Hcase in C. destruct C as [(nb' & v' & H1 & H2 & _)|(nb' & v' & H1 & H2 & _)]; [eapply A0; eauto|].
        pose proof (as_letter_fun _ _ _ A1 H1) as E. subst n0. cbn in E3. assert (nb = nb') by congruence. subst. destruct nb'; discriminate.
    + injection Er as <-. intros x y C. apply Hcase in C. destruct C as [(nb' & v' & H1 & _)|(nb' & v' & H1 & _)]; [eapply A0|eapply A1]; eauto.
Qed.
Print Assumptions C28_continues_exact.
Example C28_cont_ex : lt_continues (LOrdered (LN RomanLower 1) OPeriod) (LOrdered (LN AlphaLower 10) OPeriod)
  = Ok (Some (LOrdered (LN AlphaLower 9) OPeriod, LOrdered (LN AlphaLower 10) OPeriod)).
Proof. vm_compute. reflexivity. Qed.
Example C28_ex : maybe_ordered (B "1234567890123456789. x") = Ok (Some (LN Decimal 1234567890123456789, OPeriod, 20))
  /\ maybe_ordered (B "(mcmxciv) x") = Ok (Some (LN RomanLower 1994, OParenParen, 9))
  /\ maybe_ordered (B "b) x") = Ok (Some (LN AlphaLower 2, OParen, 2))
  /\ number_denotes RomanLower (B "mcmxciv") 1994.
Proof.
  do 3 (split; [vm_compute; reflexivity|]). cbn [number_denotes]. split; [discriminate|]. split; [|vm_compute; reflexivity].
  repeat constructor.
Qed.

(** ** C32: lines *)
(** A line of [src]: not empty, ending with a newline or at the end, with no other newline. *)
Definition text_line (l : bytes) (last : bool) : Prop :=
  exists t, (l = t ++ [NL] \/ (last = true /\ l = t /\ t <> [])) /\ ~ List.In NL t.
Fixpoint text_lines (ls : list bytes) : Prop :=
  match ls with
  | [] => True
  | l :: ls' => text_line l (match ls' with [] => true | _ => false end) /\ text_lines ls'
  end.
Lemma partition_concat src ls : forall lo, partition_of lo ls (length src) -> lo <= length src -> concat (map (slice src) ls) = skipn lo src.
Proof.
  induction ls as [|l ls IH]; intros lo H Hlo; cbn [partition_of map concat] in *.
  - subst lo. rewrite skipn_all. reflexivity.
  - destruct H as (H1 & H2 & H3). assert (Hc : se l <= length src) by (apply partition_chain, chain_le in H3; auto).
    rewrite (IH (se l)) by auto. unfold slice. rewrite H1. rewrite <- (firstn_skipn (se l - lo) (skipn lo src)) at 2. f_equal.
    rewrite skipn_skipn. f_equal. lia.
Qed.
Lemma line_text src l last : span_ok src l \/ (ss l <= se l /\ se l <= length src) -> ss l < se l -> eol src (se l) -> one_line src l ->
  (se l < length src -> last = false) -> (last = false -> se l < length src) -> text_line (slice src l) last.
Proof.
  intros Hs0 Hlt He Ho Hl Hl2. assert (Hs : ss l <= se l /\ se l <= length src) by (destruct Hs0 as [(A & C & _)|]; tauto).
  assert (Hlen : length (slice src l) = se l - ss l) by (apply slice_length; tauto).
  assert (Hin : ~ List.In NL (firstn (se l - ss l - 1) (slice src l))).
  { intros Hi. apply In_nth_error in Hi. destruct Hi as [i Hi]. assert (i < se l - ss l - 1).
    { assert (i < length (firstn (se l - ss l - 1) (slice src l))) by (apply nth_error_Some; congruence). rewrite firstn_length in H. lia. }
    rewrite nth_error_firstn in Hi by auto. rewrite slice_nth in Hi by lia. apply (Ho (ss l + i)); [lia|lia|auto]. }
  destruct (nth_error (slice src l) (se l - ss l - 1)) as [c|] eqn:Ec; [|apply nth_error_None in Ec; lia].
  assert (Hsp : slice src l = firstn (se l - ss l - 1) (slice src l) ++ [c]).
  { rewrite <- (firstn_all (slice src l)) at 1. rewrite Hlen. replace (se l - ss l) with (S (se l - ss l - 1)) at 1 by lia. apply firstn_snoc. auto. }
  destruct (ascii_dec c NL) as [->|Hne].
  - exists (firstn (se l - ss l - 1) (slice src l)). split; [left; exact Hsp|exact Hin].
  - exists (slice src l). split.
    + right. destruct He as [He|[He1 He2]].
      * split; [destruct last; [auto|apply Hl2 in Hl; lia]|]. split; [auto|]. intros E. rewrite E in Hlen. cbn in Hlen. lia.
      * exfalso. apply Hne. rewrite slice_nth in Ec by lia. replace (ss l + (se l - ss l - 1)) with (se l - 1) in Ec by lia. congruence.
    + rewrite Hsp. intros Hi. apply in_app_or in Hi. destruct Hi as [Hi|[Hi|[]]]; [auto|congruence].
Qed.
Theorem C32_lines : forall src, let ls := map (slice src) (lines src) in
  concat ls = src /\ text_lines ls /\ partition_of 0 (lines src) (length src).
Proof.
  intros src ls. destruct (lines_spec src) as [H1 H2]. split; [|split; [|exact H1]].
  - unfold ls. rewrite (partition_concat src _ 0 H1); [reflexivity|lia].
  - unfold ls. clear ls. revert H1 H2. generalize (lines src) 0. induction l as [|l ls IH]; intros lo H1 H2; cbn [map text_lines]; [exact I|].
    cbn [partition_of] in H1. destruct H1 as (A & C & D). inversion H2; subst. split; [|eapply IH; eauto].
    pose proof (partition_chain _ _ _ D) as Hc. apply chain_le in Hc.
    apply line_text; try tauto; [right; lia| |].
    + intros Hs. destruct ls; cbn [map partition_of] in *; [lia|reflexivity].
    + intros Hl. destruct ls; cbn [map partition_of] in *; [discriminate|]. destruct D as (D1 & D2 & D3). apply partition_chain, chain_le in D3. lia.
Qed.
Print Assumptions C32_lines.
Example C32_ex : lines (B "ab" ++ [NL; NL] ++ B "c") = [Sp 0 3; Sp 3 4; Sp 4 5].
Proof. vm_compute. reflexivity. Qed.

(** ** C34: size limit *)
(** Any document that starts with a heading of 65536 or more '#' makes the parser panic: the level
    does not fit [u16]. *)
Lemma count_repeat c n r : hd_none_or (fun d => negb (beq d c)) r = true -> count_while (fun d => beq d c) (repeat c n ++ r) = n.
Proof.
  intros H. induction n as [|n IH]; cbn.
  - destruct r as [|d r]; [auto|]. cbn in *. destruct (beq d c); [discriminate|auto].
  - replace (beq c c) with true by (symmetry; apply beq_eq; auto). auto.
Qed.
Lemma count_while_app_ge {A} (f : A -> bool) a b : forallb f a = true -> count_while f (a ++ b) = length a + count_while f b.
Proof. induction a as [|x a IH]; cbn; [auto|]. intros H. apply andb_prop in H. destruct H as [-> H]. rewrite IH by auto. auto. Qed.
Lemma lines_from_head src0 : forall pre r start pos, src0 = pre ++ r -> forallb (fun c => negb (beq c NL)) pre = true -> start < pos + length pre ->
  exists e ls, lines_from (pre ++ r) start pos = Sp start e :: ls /\ pos + length pre <= e.
Proof.
  intros pre. revert src0. induction pre as [|c pre IH]; intros src0 r start pos _ Hp Hlt; cbn [app length forallb] in *.
  - revert pos Hlt. induction r as [|c r IHr]; intros pos Hlt; cbn [lines_from].
    + replace (Nat.ltb start pos) with true by (symmetry; apply Nat.ltb_lt; lia). do 2 eexists. split; [reflexivity|lia].
    + destruct (beq c NL); [do 2 eexists; split; [reflexivity|lia]|]. destruct (IHr (S pos)) as (e & ls & E & H); [lia|]. exists e, ls. split; [auto|lia].
  - apply andb_prop in Hp. destruct Hp as [Hc Hp]. cbn [lines_from]. apply negb_true_iff in Hc. rewrite Hc.
    destruct (IH (pre ++ r) r start (S pos)) as (e & ls & E & H); auto; [lia|]. exists e, ls. split; [auto|lia].
Qed.
Theorem C34_heading_limit : forall n rest, (65536 <= N.of_nat n)%N -> utf8 (repeat "#"%char n ++ SP :: rest) ->
  parse (repeat "#"%char n ++ SP :: rest) = Panic "block.rs:428".
Proof.
  intros n rest Hn Hu. set (src := repeat "#"%char n ++ SP :: rest) in *. pose proof (utf8_wfb src Hu) as Hw.
  pose proof (lines_lines_ok src Hw) as [Hlok Hch].
  destruct (lines_from_head src (repeat "#"%char n ++ [SP]) rest 0 0) as (e & ls & El & He).
  { unfold src. rewrite <- app_assoc. reflexivity. }
  { rewrite forallb_app. cbn. rewrite andb_true_r. clear. induction n; cbn; auto. }
  { rewrite app_length. cbn. lia. }
  assert (Els : lines src = Sp 0 e :: ls) by (unfold lines; rewrite <- El; f_equal; unfold src; rewrite <- app_assoc; reflexivity).
  rewrite app_length, repeat_length in He. cbn [length] in He.
  rewrite Els in Hlok. inversion Hlok as [|? ? Hl0 Hls]; subst.
  assert (Hel : e <= length src) by apply Hl0.
  assert (Hsl : exists t, slice src (Sp 0 e) = repeat "#"%char n ++ SP :: t).
  { exists (firstn (e - n - 1) rest). unfold slice. cbn [ss se skipn]. unfold src. rewrite firstn_app, repeat_length.
    rewrite firstn_all2 by (rewrite repeat_length; lia). f_equal. replace (e - 0 - n) with (S (e - n - 1)) by lia. reflexivity. }
  destruct Hsl as [t Ht].
  assert (Hid : exists sp, identify (slice src (Sp 0 e)) = Ok (KHeading n, sp) /\ ss sp = 0).
  { rewrite Ht. destruct n as [|n']; [cbn in Hn; lia|].
    assert (Hc1 : count_while (fun c => beq c "#") (repeat "#"%char n' ++ SP :: t) = n') by (apply count_repeat; reflexivity).
    unfold identify. cbn [repeat app trim_start_m ws_not_nl is_ws]. change (ws_not_nl "#") with false. cbv iota.
    change (beq "#" NL) with false. change (beq "#" "#") with true. cbv iota. rewrite Hc1.
    replace (skipn n' (repeat "#"%char n' ++ SP :: t)) with (SP :: t).
    2:{ rewrite skipn_app, skipn_all2 by (rewrite repeat_length; lia). rewrite repeat_length, Nat.sub_diag. reflexivity. }
    cbn [hd_none_or]. change (is_ws SP) with true. cbv iota.
    cbn [count_while]. change (beq "#" "#") with true. cbv iota. rewrite Hc1. eexists. split; [reflexivity|]. cbn [ss]. lia. }
  destruct Hid as (sp & Hid & Hsp0).
  unfold parse, parse_spans, p_new, block_parse. rewrite Els.
  assert (Hfuel : exists f, block_fuel src = S f) by (unfold block_fuel; eauto). destruct Hfuel as [f ->].
  cbn [parse_blocks]. unfold parse_block.
  destruct (metered_ok src (Sp 0 e) ls Hl0 Hls) as (k0 & sp0 & m & k & Em & Hm & Hi & Hc & _).
  assert (Hk : k0 = KHeading n /\ sp0 = sp /\ k = KHeading n).
  { unfold metered in Em. rewrite span_ok_ssub in Em by apply Hl0. cbn [bind] in Em. rewrite Hid in Em. cbn [bind] in Em.
    destruct (take_cont_ok src ls Hls (KHeading n)) as (m2 & k2 & E2 & _ & Hr2). rewrite E2 in Em. cbn [bind] in Em.
    destruct Hr2 as [-> _]. injection Em as Ek Es El'. subst k sp0 m. split; [|auto].
    destruct k0; cbn [cont_rel] in Hc; decompose [ex and] Hc; try congruence; try discriminate. destruct caption; decompose [ex and] Hc; discriminate. }
  destruct Hk as (-> & -> & ->). rewrite Em. cbn [bind table_trailing].
  assert (Hlast : exists el, last_opt (firstn (1 + m) (Sp 0 e :: ls)) = Some el).
  { unfold last_opt. destruct (nth_error _ _) eqn:E; [eauto|]. exfalso. apply nth_error_None in E. cbn [firstn length Nat.add] in E. rewrite firstn_length in E. lia. }
  destruct Hlast as [el ->]. cbn [unwrap bind]. cbn [ss se]. rewrite !Nat.add_0_r.
  destruct Hi as (I1 & I2 & I3 & I4 & I5 & I6 & I7 & I8).
  rewrite usub_yes by lia. cbn [bind].
  destruct Hc as [_ Hc].
  assert (Hh : exists ys, mapr (heading_cont src n) (tl (firstn (1 + m) (Sp 0 e :: ls))) = Ok ys).
  { cbn [firstn tl]. assert (Hf : Forall (fun s => line_ok src s /\ hline src n s) (firstn m ls)).
    { rewrite Forall_forall in *. intros x Hx. split; [|auto]. apply Hls. rewrite <- (firstn_skipn m ls). apply in_or_app. auto. }
    destruct (mapr_ok _ (fun _ _ => True) (heading_cont src n) _ Hf) as (ys & E & _); [|eauto].
    intros x [Hx1 Hx2]. destruct (heading_cont_ok src n x Hw Hx1 Hx2) as (y & E & _). eauto. }
  destruct Hh as [ys ->]. cbn [bind].
  unfold update_lists. cbn [t_lists t_enter t_set_open t_push t_set_events t_new bind update_loose t_set_loose t_pblank].
  unfold to_u16. replace (N.ltb (N.of_nat n) 65536) with false by (symmetry; apply N.ltb_ge; exact Hn). reflexivity.
Qed.
Print Assumptions C34_heading_limit.
(** The hypotheses are met: every ASCII text after the '#'s. *)
Example C34_ex : forall n, utf8 (repeat "#"%char n ++ SP :: B "a").
Proof. intros n. induction n as [|n IH]; cbn [repeat app]; [apply utf8_ascii; reflexivity|]. apply u_1; [vm_compute; split; discriminate|exact IH]. Qed.

(** ** C36: tokens *)
(** However verbatim mode is switched in between, the tokens tile the line, and a token of each kind
    has the text of that kind. *)
Lemma lex_run_ok f : forall mode j l, lex_wf l -> length (lx_rest l) < f ->
  forall r, lex_run mode j l r -> tiles (lx_rest l) (cut (lx_rest l) r) /\
  (forall i k n, nth_error r i = Some (k, n) -> exists a t b, lx_rest l = a ++ t ++ b /\ nth_error (cut (lx_rest l) r) i = Some (k, t) /\ kind_text k t b).
Proof.
  induction f as [|f IH]; intros mode j l Hw Hf r Hr; [lia|]. destruct Hr as [j l l' E|j l l' k n r E Hr]; set (v := mode j) in *.
  - destruct (lex_next_ok (lex_set_verb l v) Hw) as (o & l2 & E2 & _ & _ & _ & H). rewrite E in E2. injection E2 as <- <-.
    destruct H as [H _]. change (lx_rest (lex_set_verb l v)) with (lx_rest l) in H. rewrite H. split; [constructor|]. intros [|i]; discriminate.
  - destruct (lex_next_ok (lex_set_verb l v) Hw) as (o & l2 & E2 & Hsrc & _ & Hw' & H). rewrite E in E2. injection E2 as <- <-.
    destruct H as ((T1 & T2 & T3 & T4) & H2 & _). change (lx_rest (lex_set_verb l v)) with (lx_rest l) in *. cbn [tlen tk] in *.
    change (lx_c (lex_set_verb l v)) with (lx_c l) in H2. change (lx_src (lex_set_verb l v)) with (lx_src l) in Hsrc.
    assert (Hrest : lx_rest l' = skipn n (lx_rest l)).
    { unfold lx_rest. rewrite Hsrc, H2, skipn_skipn. f_equal. }
    destruct (IH mode (S j) l' Hw') with (r := r) as [IH1 IH2]; [rewrite Hrest, skipn_length; lia|auto|].
    rewrite Hrest in IH1, IH2. split.
    + cbn [cut]. rewrite <- (firstn_skipn n (lx_rest l)) at 1. constructor; [|exact IH1].
      intros E0. assert (length (firstn n (lx_rest l)) = n) by (rewrite firstn_length; lia). rewrite E0 in H. cbn in H. lia.
    + intros [|i] k0 n0 Hi; cbn [nth_error] in Hi.
      * injection Hi as <- <-. exists [], (firstn n (lx_rest l)), (skipn n (lx_rest l)). cbn [app cut nth_error]. rewrite firstn_skipn. auto.
      * destruct (IH2 i k0 n0 Hi) as (a & t & b & E1 & E2 & E3). exists (firstn n (lx_rest l) ++ a), t, b. cbn [cut nth_error].
        rewrite <- app_assoc, <- E1, firstn_skipn. auto.
Qed.
Theorem C36_tokens_tile : forall mode s r, lex_run mode 0 (lex_new s) r ->
  tiles s (cut s r) /\
  forall i k t, nth_error (cut s r) i = Some (k, t) -> exists a b, s = a ++ t ++ b /\ kind_text k t b.
Proof.
  intros mode s r H. destruct (lex_run_ok (S (length s)) mode 0 (lex_new s) (lex_wf_new s)) with (r := r) as [H1 H2]; auto.
  split; [exact H1|]. intros i k t Hi. change (lx_rest (lex_new s)) with s in H2.
  destruct (nth_error r i) as [[k' n]|] eqn:Er.
  - destruct (H2 i k' n Er) as (a & t' & b & E1 & E2 & E3). rewrite Hi in E2. injection E2 as -> ->. eauto.
  - exfalso. assert (Hlen : length (cut s r) = length r) by (clear; revert s; induction r as [|[k n] r IH]; intros s; cbn; auto).
    apply nth_error_None in Er. assert (i < length (cut s r)) by (apply nth_error_Some; congruence). lia.
Qed.
Print Assumptions C36_tokens_tile.
(** And the scanner gets to the end, whatever modes are chosen. *)
Theorem C36_tokens_exist : forall mode s, exists r, lex_run mode 0 (lex_new s) r.
Proof.
  intros mode s. assert (H : forall f i l, lex_wf l -> length (lx_rest l) < f -> exists r, lex_run mode i l r).
  { induction f as [|f IH]; intros i l Hw Hf; [lia|].
    destruct (lex_next_ok (lex_set_verb l (mode i)) Hw) as (o & l' & E & Hsrc & _ & Hw' & H). destruct o as [[k n]|].
    - destruct H as ((T1 & T2 & T3 & T4) & H2 & _). change (lx_rest (lex_set_verb l (mode i))) with (lx_rest l) in *. cbn [tlen tk] in *.
      change (lx_c (lex_set_verb l (mode i))) with (lx_c l) in H2. change (lx_src (lex_set_verb l (mode i))) with (lx_src l) in Hsrc.
      destruct (IH (S i) l' Hw') as [r Hr].
      { unfold lx_rest in *. rewrite Hsrc, H2. rewrite skipn_length in *. lia. }
      exists ((k, n) :: r). eapply lr_tok; eauto.
    - exists []. eapply lr_end; eauto. }
  apply (H (S (length s)) 0); [apply lex_wf_new|]. change (lx_rest (lex_new s)) with s. lia.
Qed.
Print Assumptions C36_tokens_exist.
Example C36_ex : exists r, lex_run (fun _ => false) 0 (lex_new (B "a*--`b\c")) r /\
  cut (B "a*--`b\c") r = [(LText, B "a"); (LSym Asterisk, B "*"); (LSeq Hyphen, B "--"); (LSeq Backtick, B "`"); (LText, B "b\c")].
Proof.
  eexists. split; [do 5 (eapply lr_tok; [vm_compute; reflexivity|]); eapply lr_end; vm_compute; reflexivity|vm_compute; reflexivity].
Qed.
