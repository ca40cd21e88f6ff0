(** * PBlock2: lines and the identification of blocks *)
From Verif Require Import Base Lex Attr Block Lib PSafe SpecAttr PAttr PAttr3 PAttr4 PAttr5 PropsAttr SpecBlock PBlock1.
Local Open Scope nat_scope.

(** ** Character classes *)
Lemma ws_ascii c : is_ws c = true -> ascii7 c = true.
Proof. destruct c as [[][][][][][][][]]; intros H; try discriminate H; reflexivity. Qed.
Lemma ws_not_nl_ws c : ws_not_nl c = true -> is_ws c = true.
Proof. unfold ws_not_nl. intros H. apply andb_prop in H. tauto. Qed.
Lemma beq_ascii c d : ascii7 d = true -> beq c d = true -> ascii7 c = true.
Proof. intros H E. apply beq_eq in E. congruence. Qed.

(** ** Positions that are safe to cut at *)
(** [okpos l i]: the start, the end, or after an ASCII byte. *)
Definition okpos (l : bytes) (i : nat) : Prop :=
  i = 0 \/ i = length l \/ exists c, nth_error l (i - 1) = Some c /\ ascii7 c = true /\ 0 < i.
Definition span_ok (src : bytes) (sp : span) : Prop :=
  ss sp <= se sp /\ se sp <= length src /\ boundary src (ss sp) = true /\ boundary src (se sp) = true.

Lemma span_ok_ssub src sp w : span_ok src sp -> ssub src sp w = Ok (slice src sp).
Proof. intros (H1 & H2 & H3 & H4). apply ssub_yes; auto. Qed.
Lemma span_ok_bsub src sp w : span_ok src sp -> bsub src sp w = Ok (slice src sp).
Proof. intros (H1 & H2 & H3 & H4). apply bsub_yes; auto. Qed.
Lemma span_ok_len src sp : span_ok src sp -> length (slice src sp) = se sp - ss sp.
Proof. intros (H1 & H2 & H3 & H4). apply slice_length; auto. Qed.

Lemma okpos_boundary src sp i : wfb src -> span_ok src sp -> i <= se sp - ss sp -> okpos (slice src sp) i ->
  boundary src (ss sp + i) = true.
Proof.
  intros Hw Hs Hi [->|[->|(c & Hc & Ha & H0)]].
  - rewrite Nat.add_0_r. apply Hs.
  - rewrite span_ok_len by auto. destruct Hs as (H1 & H2 & H3 & H4). replace (ss sp + (se sp - ss sp)) with (se sp) by lia. auto.
  - rewrite slice_nth in Hc by lia. replace (ss sp + i) with (S (ss sp + (i - 1))) by lia. eapply wfb_after; eauto.
Qed.

(** ** Lines of the source *)
(** [eol src e]: [e] is the end of a line. *)
Definition eol (src : bytes) (e : nat) : Prop := e = length src \/ (0 < e /\ nth_error src (e - 1) = Some NL).
(** [e] is where the text of a line may end: the end of a line, or before whitespace or a cell border. *)
Definition text_end (src : bytes) (e : nat) : Prop :=
  eol src e \/ exists c, nth_error src e = Some c /\ (is_ws c = true \/ c = "|"%char).
Definition one_line (src : bytes) (sp : span) : Prop :=
  forall i, ss sp <= i -> S i < se sp -> nth_error src i <> Some NL.
Definition line_ok (src : bytes) (sp : span) : Prop := span_ok src sp /\ eol src (se sp) /\ one_line src sp.
(** Lines in order, between [lo] and [hi]. *)
Fixpoint chain (lo : nat) (ls : list span) (hi : nat) : Prop :=
  match ls with
  | [] => lo <= hi
  | l :: ls' => lo <= ss l /\ ss l <= se l /\ chain (se l) ls' hi
  end.
Definition lines_ok (src : bytes) (lo : nat) (ls : list span) (hi : nat) : Prop :=
  Forall (line_ok src) ls /\ chain lo ls hi.

Lemma chain_le lo ls hi : chain lo ls hi -> lo <= hi.
Proof. revert lo; induction ls as [|l ls IH]; cbn; intros lo H; [auto|]. destruct H as (H1 & H2 & H3). apply IH in H3. lia. Qed.
Lemma chain_app lo a b hi : chain lo (a ++ b) hi <-> exists m, chain lo a m /\ chain m b hi.
Proof.
  revert lo; induction a as [|l a IH]; intros lo; cbn.
  - split; [intros H; exists lo; auto|]. intros (m & H1 & H2). destruct b as [|x b]; cbn in *; [lia|]. destruct H2. split; [lia|auto].
  - rewrite IH. firstorder.
Qed.
Lemma chain_weaken lo ls hi lo' hi' : lo' <= lo -> hi <= hi' -> chain lo ls hi -> chain lo' ls hi'.
Proof.
  revert lo lo'; induction ls as [|l ls IH]; intros lo lo' H1 H2 H; cbn in *; [lia|].
  destruct H as (H3 & H4 & H5). repeat split; [lia|lia|]. eapply IH; [|exact H2|exact H5]. lia.
Qed.
Lemma lines_ok_app src lo a b hi : lines_ok src lo (a ++ b) hi <-> exists m, lines_ok src lo a m /\ lines_ok src m b hi.
Proof.
  unfold lines_ok. rewrite Forall_app, chain_app. firstorder.
Qed.

(** The lines of the source partition it. *)
Fixpoint partition_of (lo : nat) (ls : list span) (hi : nat) : Prop :=
  match ls with
  | [] => lo = hi
  | l :: ls' => ss l = lo /\ ss l < se l /\ partition_of (se l) ls' hi
  end.
Lemma partition_chain lo ls hi : partition_of lo ls hi -> chain lo ls hi.
Proof. revert lo; induction ls as [|l ls IH]; cbn; intros lo H; [lia|]. destruct H as (H1 & H2 & H3). repeat split; try lia. auto. Qed.

Lemma lines_from_spec rest : forall src start pos, skipn pos src = rest -> start <= pos -> pos <= length src ->
  (forall i, start <= i -> i < pos -> nth_error src i <> Some NL) ->
  partition_of start (lines_from rest start pos) (length src) /\
  Forall (fun l => eol src (se l) /\ one_line src l) (lines_from rest start pos).
Proof.
  induction rest as [|c rest IH]; intros src start pos Hr H1 H2 Hnl.
  - assert (pos = length src) as -> by (apply skipn_nil_iff in Hr; lia). cbn [lines_from].
    destruct (Nat.ltb start (length src)) eqn:E.
    + apply Nat.ltb_lt in E. split; [cbn; lia|]. constructor; [|constructor]. split; [left; reflexivity|].
      intros i Hi1 Hi2. cbn in *. apply Hnl; lia.
    + apply Nat.ltb_ge in E. split; [cbn; lia|constructor].
  - destruct (skipn_cons_nth _ _ _ _ Hr) as [Hn Hs]. pose proof (nth_error_Some src pos) as Hlt. rewrite Hn in Hlt.
    assert (pos < length src) by (apply Hlt; discriminate). cbn [lines_from]. destruct (beq c NL) eqn:E.
    + apply beq_eq in E. subst c. destruct (IH src (S pos) (S pos)) as [IH1 IH2]; auto; try lia.
      split; [cbn; repeat split; auto; lia|]. constructor; auto. split.
      * right. cbn. split; [lia|]. rewrite Nat.sub_0_r. auto.
      * intros i Hi1 Hi2. cbn in *. apply Hnl; lia.
    + destruct (IH src start (S pos)) as [IH1 IH2]; auto; try lia.
      intros i Hi1 Hi2. destruct (Nat.eq_dec i pos) as [->|]; [|apply Hnl; lia]. rewrite Hn. apply beq_neq in E. congruence.
Qed.
Lemma eol_boundary src e : wfb src -> e <= length src -> eol src e -> boundary src e = true.
Proof.
  intros Hw He [->|[H0 H]]; [apply boundary_end|]. replace e with (S (e - 1)) by lia. eapply wfb_after; eauto.
Qed.
Lemma partition_bounds lo ls hi : partition_of lo ls hi -> Forall (fun l => lo <= ss l /\ ss l < se l /\ se l <= hi) ls.
Proof.
  revert lo; induction ls as [|l ls IH]; cbn; intros lo H; [constructor|]. destruct H as (H1 & H2 & H3).
  assert (chain (se l) ls hi) by (apply partition_chain; auto). apply chain_le in H.
  constructor; [lia|]. apply IH in H3. eapply Forall_impl; [|exact H3]. cbn. lia.
Qed.
Lemma partition_start lo ls hi : partition_of lo ls hi -> Forall (fun l => ss l = lo \/ exists l', List.In l' ls /\ ss l = se l') ls.
Proof.
  revert lo; induction ls as [|l ls IH]; cbn; intros lo H; [constructor|]. destruct H as (H1 & H2 & H3).
  constructor; [auto|]. apply IH in H3. rewrite Forall_forall in *. intros x Hx. destruct (H3 x Hx) as [E|(l' & Hl' & E)].
  - right. exists l. auto.
  - right. exists l'. auto.
Qed.
Lemma lines_spec src : partition_of 0 (lines src) (length src) /\ Forall (fun l => eol src (se l) /\ one_line src l) (lines src).
Proof. unfold lines. apply lines_from_spec; auto; try lia. Qed.
Lemma lines_lines_ok src : wfb src -> lines_ok src 0 (lines src) (length src).
Proof.
  intros Hw. destruct (lines_spec src) as [H1 H2]. split; [|apply partition_chain; auto].
  pose proof (partition_bounds _ _ _ H1) as Hb. pose proof (partition_start _ _ _ H1) as Hs. rewrite Forall_forall in *.
  intros l Hl. specialize (Hb l Hl). destruct (H2 l Hl) as [He Ho]. split; [|auto].
  repeat split; try lia; [|apply eol_boundary; auto; lia].
  destruct (Hs l Hl) as [->|(l' & Hl' & ->)]; [apply Hw|]. destruct (H2 l' Hl'). apply eol_boundary; auto.
  pose proof (partition_bounds _ _ _ H1) as Hb'. rewrite Forall_forall in Hb'. destruct (Hb' l' Hl') as (? & ? & ?). lia.
Qed.
(** Total size of lines: bytes and number of lines. *)
Definition size (ls : list span) : nat := length ls + list_sum (map sp_len ls).
Lemma size_cons l ls : size (l :: ls) = S (sp_len l) + size ls.
Proof. unfold size. cbn [length map]. change (list_sum (sp_len l :: map sp_len ls)) with (sp_len l + list_sum (map sp_len ls)). lia. Qed.
Lemma size_app a b : size (a ++ b) = size a + size b.
Proof. unfold size. rewrite app_length, map_app, list_sum_app. lia. Qed.
Lemma size_skipn n ls : size (skipn n ls) <= size ls.
Proof. rewrite <- (firstn_skipn n ls) at 2. rewrite size_app. lia. Qed.
Lemma size_firstn n ls : size (firstn n ls) <= size ls.
Proof. rewrite <- (firstn_skipn n ls) at 2. rewrite size_app. lia. Qed.
Lemma partition_size lo ls hi : partition_of lo ls hi -> size ls <= 2 * (hi - lo).
Proof.
  revert lo; induction ls as [|l ls IH]; cbn [partition_of]; intros lo H; [cbn; lia|]. destruct H as (H1 & H2 & H3).
  assert (Hc : chain (se l) ls hi) by (apply partition_chain; auto). apply chain_le in Hc. apply IH in H3. rewrite size_cons. unfold sp_len. lia.
Qed.
Lemma lines_size src : size (lines src) <= 2 * length src.
Proof. destruct (lines_spec src) as [H _]. apply partition_size in H. lia. Qed.

(** ** Identification of a block from its first line *)
Definition attrs_text (s : bytes) : Prop := exists a, gsets (trim_end_m is_ws s) a.

(** A line that ends with a bar that is not escaped. *)
Definition row_end (l : bytes) : Prop := ends_with (trim_m is_ws l) (B "|") = true /\ ends_with (trim_m is_ws l) [BSL; "|"%char] = false.
Definition ident_ok (l : bytes) (k : bkind) (sp : span) : Prop :=
  ss sp <= se sp /\ se sp <= length l /\ okpos l (ss sp) /\ okpos l (se sp) /\
  match k with
  | KAtom BBlankline => se sp = length l \/ (0 < se sp /\ nth_error l (se sp - 1) = Some NL)
  | KAtom BThematicBreak => forallb is_ws (skipn (se sp) l) = true
  | KAtom BAttributes => se sp = length l /\ attrs_text (skipn (ss sp) l)
  | KParagraph => is_blank_line l = false /\ se sp = ss sp /\ ss sp < length l
  | KHeading level =>
      1 <= level /\ se sp = ss sp + level /\ ss sp = count_while is_ws l /\
      level = count_while (fun c => beq c "#") (skipn (ss sp) l)
  | KFenced indent flen fk spec closing nested =>
      closing = false /\ nested = None /\ se sp = length l /\ ss sp = indent /\ ss sp + 3 <= se sp /\ 3 <= flen
  | KDefinition indent fn label lb => ss sp = 0 /\ indent + 3 <= se sp /\ lb = false
  | KBlockquote => se sp = ss sp + 1
  | KListItem indent ty lb =>
      lb = false /\ ss sp = indent /\ ss sp < se sp /\ lt_ok ty /\
      match ty with
      | LTask _ => se sp = ss sp + 5
      | LDescription => se sp = ss sp + 1 /\ nth_error l (ss sp) = Some ":"%char
      | _ => True
      end
  | KTable caption blank =>
      caption = false /\ blank = false /\ se sp = ss sp /\ is_blank_line l = false /\ starts_c (trim_start_m is_ws l) "|" = true /\ ss sp = count_while is_ws l /\ row_end l
  end.

Lemma attr_valid_ok s : exists n, attr_valid s = Ok n /\ n <= length s /\ (0 < n -> exists a, gset (firstn n s) a).
Proof.
  rewrite C16_valid_agrees. destruct (C16_recogniser_exact s) as (r & st & -> & H). cbn [bind].
  destruct r as [[|n]|]; eexists; (split; [reflexivity|]); try (split; lia).
  split; [apply H|]. intros _. apply H.
Qed.

Lemma forallb_trim f s : forallb f s = true -> trim_start_m f s = [].
Proof. induction s as [|c s IH]; cbn; [auto|]. intros H. apply andb_prop in H. destruct H as [-> H]. auto. Qed.
Lemma trim_end_nil f s : trim_end_m f s = [] <-> forallb f s = true.
Proof.
  induction s as [|c s IH]; cbn; [tauto|]. destruct (trim_end_m f s) as [|x t].
  - destruct (f c); cbn; [tauto|]. split; discriminate.
  - split; [discriminate|]. intros H. apply andb_prop in H. destruct H as [_ H]. apply IH in H. discriminate H.
Qed.
Lemma blank_iff l : is_blank_line l = true <-> forallb is_ws l = true.
Proof.
  unfold is_blank_line, trim_m. split.
  - destruct (trim_end_m is_ws (trim_start_m is_ws l)) eqn:E; [|discriminate]. intros _. apply trim_end_nil in E.
    rewrite trim_start_skipn in E. rewrite <- (firstn_skipn (count_while is_ws l) l), forallb_app, E, count_while_firstn. reflexivity.
  - intros H. rewrite forallb_trim by auto. reflexivity.
Qed.
Lemma not_blank_nonws l c i : nth_error l i = Some c -> is_ws c = false -> is_blank_line l = false.
Proof.
  intros H Hc. destruct (is_blank_line l) eqn:E; [|auto]. apply blank_iff in E. rewrite forallb_forall in E.
  rewrite (E c) in Hc; [discriminate|]. eapply nth_error_In; eauto.
Qed.
Lemma okpos_after l i c : nth_error l i = Some c -> ascii7 c = true -> okpos l (S i).
Proof. intros H Ha. right; right. exists c. cbn. rewrite Nat.sub_0_r. repeat split; auto. lia. Qed.
Lemma okpos_count f l : (forall c, f c = true -> ascii7 c = true) -> okpos l (count_while f l).
Proof.
  intros Hf. destruct (count_while f l) as [|n] eqn:E; [left; auto|].
  destruct (count_while_lt f l n) as (x & Hx & Hfx); [lia|]. apply (okpos_after l n x); auto.
Qed.

Lemma skipn_nth_hd {A} n (l : list A) x r i : skipn n l = x :: r -> nth_error (x :: r) i = nth_error l (n + i).
Proof. intros <-. apply nth_error_skipn. Qed.

Lemma count_ws_nl l x r : skipn (count_while ws_not_nl l) l = x :: r -> is_ws x = false -> count_while is_ws l = count_while ws_not_nl l.
Proof.
  induction l as [|c l IH]; cbn; [discriminate|]. destruct (ws_not_nl c) eqn:E; cbn.
  - rewrite (ws_not_nl_ws c E). intros H1 H2. f_equal. auto.
  - intros [= -> ->] ->. reflexivity.
Qed.

Lemma thematic_loop_chars s n : thematic_loop s n = true -> Forall (fun c => (beq c "-" || beq c "*") = true \/ is_ws c = true) s.
Proof.
  revert n; induction s as [|c s IH]; intros n H; [constructor|]. cbn in H.
  destruct (beq c "-" || beq c "*") eqn:E; [constructor; eauto|]. destruct (is_ws c) eqn:E2; [constructor; eauto|discriminate].
Qed.
Lemma dash_ascii c : (beq c "-" || beq c "*") = true \/ is_ws c = true -> ascii7 c = true.
Proof. intros [H|H]; [|apply ws_ascii; auto]. destruct c as [[][][][][][][][]]; try discriminate H; reflexivity. Qed.
Lemma Forall_nth {A} (P : A -> Prop) l i x : Forall P l -> nth_error l i = Some x -> P x.
Proof. intros H Hn. rewrite Forall_forall in H. apply H. eapply nth_error_In; eauto. Qed.
Lemma position_spec {A} (f : A -> bool) l n : position f l = Some n -> exists x, nth_error l n = Some x /\ f x = true.
Proof.
  revert n; induction l as [|y l IH]; cbn; intros n H; [discriminate|]. destruct (f y) eqn:E.
  - injection H as <-. exists y. auto.
  - destruct (position f l); [|discriminate]. injection H as <-. apply IH. auto.
Qed.
Lemma trim_end_nth f s i c : nth_error (trim_end_m f s) i = Some c -> nth_error s i = Some c.
Proof. intros H. destruct (trim_end_spec f s) as (t & E & _). rewrite E. rewrite nth_error_app1; auto. apply nth_error_Some. congruence. Qed.
Lemma number_len nb ds v : number_denotes nb ds v -> ds <> [].
Proof. destruct nb; cbn; try tauto; intros (c & -> & _); discriminate. Qed.
Lemma marker_last st ds : exists m c, marker_text st ds = m ++ [c] /\ ascii7 c = true.
Proof. destruct st; cbn; [exists ds, "."%char|exists ds, ")"%char|exists ("("%char :: ds), ")"%char]; auto. Qed.

Lemma identify_ok l : exists k sp, identify l = Ok (k, sp) /\ ident_ok l k sp.
Proof.
  unfold identify. set (n := count_while ws_not_nl l).
  assert (Hline : trim_start_m ws_not_nl l = skipn n l) by apply trim_start_skipn.
  assert (Hn : n <= length l) by apply count_while_le.
  assert (Hind : length l - length (trim_start_m ws_not_nl l) = n) by (rewrite trim_start_len; fold n; qlia).
  rewrite Hind, Hline. set (line := skipn n l) in *.
  assert (Hll : length line = length l - n) by apply skipn_length.
  assert (Hp0 : okpos l n) by (apply okpos_count; intros c Hc; apply ws_ascii, ws_not_nl_ws; auto).
  assert (Hnth : forall i, nth_error line i = nth_error l (n + i)) by (intros i; apply nth_error_skipn).
  assert (Hat : forall i c, nth_error line i = Some c -> ascii7 c = true -> okpos l (n + S i) /\ n + S i <= length l).
  { intros i c Hc Ha. rewrite Hnth in Hc. replace (n + S i) with (S (n + i)) by qlia. split; [eapply okpos_after; eauto|].
    assert (n + i < length l) by (apply nth_error_Some; congruence). qlia. }
  assert (Hpara : forall c, nth_error line 0 = Some c -> is_ws c = false ->
     exists k sp, Ok (KParagraph, Sp n n) = Ok (k, sp) /\ ident_ok l k sp).
  { intros c Hc Hw. do 2 eexists. split; [reflexivity|]. assert (n + 0 < length l) by (rewrite Hnth in Hc; apply nth_error_Some; congruence). repeat split; cbn [ss se]; auto; try qlia. rewrite Hnth in Hc. eapply not_blank_nonws; eauto. }
  destruct line as [|first chars] eqn:El.
  { do 2 eexists. split; [reflexivity|]. cbn [ss se]. repeat split; cbn [ss se]; auto; try qlia. left. cbn [length] in Hll. qlia. }
  assert (Hfirst : ws_not_nl first = false).
  { pose proof (count_while_skipn ws_not_nl l) as H. fold n in H. change (skipn n l) with line in H. rewrite El in H. auto. }
  pose proof (Hat 0 first eq_refl) as Hat0.
  destruct (beq first NL) eqn:E1.
  { apply beq_eq in E1. subst first. destruct (Hat0 eq_refl). do 2 eexists. split; [reflexivity|]. repeat split; cbn [ss se]; auto; try qlia. right. split; [qlia|]. replace (n + 1 - 1) with (n + 0) by qlia. rewrite <- Hnth. reflexivity. }
  assert (Hfw : is_ws first = false).
  { unfold ws_not_nl in Hfirst. rewrite E1 in Hfirst. rewrite andb_true_r in Hfirst. auto. }
  specialize (Hpara first eq_refl Hfw).
  assert (Hcw : count_while is_ws l = n) by (apply (count_ws_nl l first chars); auto).
  assert (Hlchars : length chars = length l - n - 1) by (cbn in Hll; qlia).
  destruct (beq first "#") eqn:E2.
  { destruct (hd_none_or _ _); [|auto]. apply beq_eq in E2. subst first.
    set (level := count_while (fun c => beq c "#") ("#"%char :: chars)).
    assert (Hlev : 1 <= level) by (cbn; qlia).
    assert (Hlev2 : level <= length ("#"%char :: chars)) by apply count_while_le.
    destruct (count_while_lt (fun c => beq c "#") ("#"%char :: chars) (level - 1)) as (x & Hx & Hbx); [fold level; qlia|].
    destruct (Hat (level - 1) x Hx) as [Ha1 Ha2]; [eapply beq_ascii; [|exact Hbx]; reflexivity|].
    replace (n + S (level - 1)) with (n + level) in * by qlia.
    do 2 eexists. split; [reflexivity|]. repeat split; cbn [ss se]; auto; try qlia. change (skipn n l) with line. rewrite El. reflexivity. }
  destruct (beq first ">") eqn:E3.
  { destruct (hd_none_or _ _); [|auto]. apply beq_eq in E3. subst first. destruct (Hat0 eq_refl).
    do 2 eexists. split; [reflexivity|]. repeat split; cbn [ss se]; auto; try qlia. }
  destruct (beq first "{") eqn:E4.
  { destruct (attr_valid_ok (first :: chars)) as (v & -> & Hv1 & Hv2). cbn [bind].
    destruct (Nat.eqb v _) eqn:Ev; [|auto]. apply Nat.eqb_eq in Ev. rewrite <- El in Hv1, Hv2, Ev. rewrite Hll in *.
    do 2 eexists. split; [reflexivity|]. repeat split; cbn [ss se]; auto; try qlia.
    - right; left. qlia.
    - change (skipn n l) with line. unfold attrs_text. destruct Hv2 as (a & t & Ht & Hg).
      { rewrite Ev, El. cbn. destruct (trim_end_m is_ws chars); [rewrite Hfw|]; cbn; qlia. }
      exists a. rewrite (trim_end_prefix is_ws line), <- Ev, Ht. apply gs_one. auto. }
  destruct (beq first "|") eqn:E5.
  { destruct (_ && _) eqn:Eq; [|auto]. do 2 eexists. split; [reflexivity|]. repeat split; cbn [ss se]; auto; try qlia.
    - eapply (not_blank_nonws l first n); auto. rewrite <- (Nat.add_0_r n), <- Hnth. reflexivity.
    - rewrite trim_start_skipn, Hcw. change (skipn n l) with line. rewrite El. exact E5.
    - unfold trim_m. rewrite trim_start_skipn, Hcw. change (skipn n l) with line. rewrite El. apply andb_prop in Eq. destruct Eq as [Eq _]. apply andb_prop in Eq. apply Eq.
    - unfold trim_m. rewrite trim_start_skipn, Hcw. change (skipn n l) with line. rewrite El. apply andb_prop in Eq. destruct Eq as [_ Eq]. apply negb_true_iff in Eq. exact Eq. }
  destruct (beq first "[") eqn:E6.
  { destruct (position _ chars) as [m|] eqn:Em; [|auto].
    destruct (starts_c (skipn (m + 1) chars) ":") eqn:Ec; [|auto].
    destruct (skipn (m + 1) chars) as [|x r] eqn:Es; [discriminate|]. cbn in Ec. apply beq_eq in Ec. subst x.
    destruct (skipn_cons_nth _ _ _ _ Es) as [Hx _]. destruct (Hat (S (m + 1)) ":"%char Hx eq_refl) as [Ha1 Ha2].
    replace (n + S (S (m + 1))) with (n + 3 + m) in * by qlia.
    do 2 eexists. split; [reflexivity|]. repeat split; cbn [ss se]; auto; try qlia. left; auto. }
  destruct ((beq first "-" || beq first "*") && is_thematic_break chars) eqn:E7.
  { apply andb_prop in E7. destruct E7 as [E7 E8]. apply thematic_loop_chars in E8.
    set (lt := length (trim_end_m is_ws (first :: chars))).
    assert (Hall : Forall (fun c => (beq c "-" || beq c "*") = true \/ is_ws c = true) (first :: chars)) by (constructor; auto).
    assert (Hlt : lt <= length (first :: chars)) by apply trim_end_le. rewrite Hll in Hlt.
    assert (Hok : okpos l (n + lt) /\ n + lt <= length l).
    { split; [|qlia]. destruct lt as [|m] eqn:Em; [rewrite Nat.add_0_r; auto|].
      destruct (nth_error (first :: chars) m) as [c|] eqn:Ec.
      - apply (Hat m c Ec). apply dash_ascii. exact (Forall_nth _ _ m c Hall Ec).
      - apply nth_error_None in Ec. rewrite Hll in Ec. qlia. }
    destruct Hok. do 2 eexists. split; [reflexivity|]. repeat split; cbn [ss se]; auto; try qlia.
    rewrite <- skipn_skipn. change (skipn n l) with line. rewrite El. unfold lt. destruct (trim_end_spec is_ws (first :: chars)) as (t & Et & Ht & _).
    rewrite Et at 2. rewrite skipn_app, skipn_all2, Nat.sub_diag by auto. exact Ht. }
  destruct (beq first "-" || beq first "*" || beq first "+") eqn:E9.
  { assert (Hb : first = "-"%char \/ first = "*"%char \/ first = "+"%char).
    { apply orb_prop in E9. destruct E9 as [E9|E9]; [apply orb_prop in E9; destruct E9 as [E9|E9]|]; apply beq_eq in E9; auto. }
    assert (Ha0 : ascii7 first = true) by (destruct Hb as [->|[->| ->]]; reflexivity).
    destruct (Hat0 Ha0). destruct (hd_none_or _ _); [|auto].
    destruct (match chars with _ :: b :: x :: e :: rest => _ | _ => false end) eqn:Et.
    - destruct chars as [|c1 [|c2 [|c3 [|c4 rest]]]]; try discriminate Et.
      apply andb_prop in Et. destruct Et as [Et _]. apply andb_prop in Et. destruct Et as [Et Ee].
      destruct (Hat 4 c4 eq_refl) as [Ha1 Ha2]; [eapply beq_ascii; [|exact Ee]; reflexivity|].
      do 2 eexists. split; [reflexivity|]. repeat split; cbn [ss se]; auto; try qlia.
    - do 2 eexists. split; [reflexivity|]. repeat split; cbn [ss se]; auto; try qlia. }
  destruct (beq first ":" && hd_none_or is_ws chars) eqn:E10.
  { apply andb_prop in E10. destruct E10 as [E10 _]. apply beq_eq in E10. subst first. destruct (Hat0 eq_refl).
    do 2 eexists. split; [reflexivity|]. repeat split; cbn [ss se]; auto; try qlia. rewrite <- (Nat.add_0_r n), <- Hnth. reflexivity. }
  destruct (beq first "`" || beq first ":" || beq first "~") eqn:E11.
  { destruct (_ && Nat.leb 3 _) eqn:E12; [|auto]. apply andb_prop in E12. destruct E12 as [_ E12]. apply Nat.leb_le in E12.
    assert (Hlen3 : 3 <= length (first :: chars)) by (pose proof (count_while_le (fun c => beq c first) chars); cbn; qlia).
    rewrite Hll in *.
    do 2 eexists. split; [reflexivity|]. repeat split; cbn [ss se]; auto; try qlia. right; left; qlia. }
  destruct (maybe_ordered_ok (first :: chars)) as (r & -> & Hr). cbn [bind].
  destruct r as [[[num st] len]|]; [|auto]. destruct Hr as (ds & after & Hl & -> & Hden & Hbd & Hds & Haft).
  destruct (marker_last st ds) as (m & c & Hm & Hc). rewrite Hm, <- app_assoc in Hl.
  destruct (Hat (length m) c) as [Ha1 Ha2]; [rewrite Hl, nth_error_app2, Nat.sub_diag by qlia; reflexivity|auto|].
  rewrite Hm, app_length. cbn [length]. replace (length m + 1) with (S (length m)) by qlia.
  do 2 eexists. split; [reflexivity|]. repeat split; cbn [ss se]; auto; try qlia.
Qed.
