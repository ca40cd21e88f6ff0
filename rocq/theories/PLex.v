(** * PLex: the scanner partitions its input into tokens *)
From Verif Require Import Base Lex SpecLex Lib PSafe PAttr PBlock2.
Local Open Scope nat_scope.

(** [n] is a place where the input may be cut. *)
Definition tend (r : bytes) (n : nat) : Prop :=
  n = length r \/ (exists c, nth_error r n = Some c /\ ascii7 c = true)
  \/ (0 < n /\ exists c, nth_error r (n - 1) = Some c /\ ascii7 c = true).
Definition tok_ok (r : bytes) (t : token) : Prop :=
  1 <= tlen t /\ tlen t <= length r /\ tend r (tlen t) /\
  kind_text (tk t) (firstn (tlen t) r) (skipn (tlen t) r).

Lemma special_ascii c : is_special c = true -> ascii7 c = true.
Proof. destruct c as [[][][][][][][][]]; intros H; try discriminate H; reflexivity. Qed.
Lemma wp_ascii c : (is_ws c || is_punct c) = true -> ascii7 c = true.
Proof. destruct c as [[][][][][][][][]]; intros H; try discriminate H; reflexivity. Qed.
Lemma blank_ascii c : is_blank c = true -> ascii7 c = true.
Proof. destruct c as [[][][][][][][][]]; intros H; try discriminate H; reflexivity. Qed.
Lemma hd_is_inv f r : hd_is f r = true -> exists c r', r = c :: r' /\ f c = true.
Proof. destruct r as [|c r]; cbn; [discriminate|eauto]. Qed.

Lemma tok_cons r t c w : 1 <= tlen t -> tlen t <= length r -> nth_error r (tlen t - 1) = Some c -> ascii7 c = true ->
  firstn (tlen t) r = w -> kind_text (tk t) w (skipn (tlen t) r) -> tok_ok r t.
Proof. intros H1 H2 H3 H4 <- H5. repeat split; auto. right; right. eauto. Qed.

Lemma forallb_firstn_count {A} (f : A -> bool) l n : n <= count_while f l -> forallb f (firstn n l) = true.
Proof.
  revert n; induction l as [|x l IH]; intros [|n] H; cbn in *; auto.
  destruct (f x) eqn:E; [|qlia]. cbn. apply IH. qlia.
Qed.
Lemma hyphen_run_ok r : hyphen_run r <= length r /\ forallb (fun c => beq c "-") (firstn (hyphen_run r) r) = true.
Proof.
  induction r as [|c r [IH1 IH2]]; cbn; [auto|]. destruct (beq c "-") eqn:E; cbn; [|split; [qlia|auto]].
  destruct (hd_is _ r); cbn; [split; [qlia|auto]|]. rewrite E. cbn. split; [qlia|auto].
Qed.
Lemma forallb_last {A} (f : A -> bool) l n x : forallb f (firstn (S n) l) = true -> nth_error l n = Some x -> f x = true.
Proof.
  intros H Hn. rewrite forallb_forall in H. apply H. apply (nth_error_In _ n). rewrite nth_error_firstn by qlia. auto.
Qed.

Lemma maybe_close_ok k d c r : close_text d = [c; "}"%char] -> ascii7 c = true -> kind_text k [c] r ->
  tok_ok (c :: r) (maybe_close k d r).
Proof.
  intros Hd Hc Hk. unfold maybe_close. destruct (hd_is _ r) eqn:E.
  - apply hd_is_inv in E. destruct E as (x & r' & -> & E). apply beq_eq in E. subst x.
    eapply (tok_cons _ _ "}"%char); cbn; try reflexivity; try qlia. symmetry. auto.
  - eapply (tok_cons _ _ c); cbn; try reflexivity; auto; qlia.
Qed.

Lemma open_brace_text c d : open_brace c = Some d -> open_text d = ["{"%char; c] /\ ascii7 c = true.
Proof. unfold open_brace. destruct c as [[][][][][][][][]]; cbn; intros H; try discriminate H; injection H as <-; split; reflexivity. Qed.

Lemma open_brace_none c : open_brace c = None -> existsb (beq c) after_brace = false.
Proof. unfold open_brace. destruct c as [[][][][][][][][]]; cbn; intros H; try discriminate H; reflexivity. Qed.
Lemma open_brace_not c d : open_brace c = Some d -> d <> Brace.
Proof. unfold open_brace. destruct c as [[][][][][][][][]]; cbn; intros H; try discriminate H; injection H as <-; discriminate. Qed.

Definition esc_ok (r : bytes) : Prop := hd_is (fun c => is_ws c || is_punct c) r = true.

Lemma special_token_ok verb c r : is_special c = true ->
  let (t, e) := special_token verb c r in
  tok_ok (c :: r) t /\ (e = true -> tk t = LEscape /\ tlen t = 1 /\ esc_ok r).
Proof.
  intros Hs. unfold special_token. pose proof (special_ascii c Hs) as Ha.
  assert (Hone : forall k, kind_text k [c] r -> tok_ok (c :: r) (Tok k 1)).
  { intros k Hk. eapply (tok_cons _ _ c); cbn; try reflexivity; auto; qlia. }
  assert (Hsplit : forall t, tok_ok (c :: r) t -> tok_ok (c :: r) t /\ (false = true -> tk t = LEscape /\ tlen t = 1 /\ esc_ok r)).
  { intros t Ht. split; [exact Ht|discriminate]. }
  destruct (beq c NL) eqn:E1. { apply beq_eq in E1; subst c. apply Hsplit, Hone. reflexivity. }
  destruct (beq c BSL) eqn:E2.
  { apply beq_eq in E2; subst c. destruct (hd_is _ r) eqn:E3.
    - split; [apply Hone; split; auto|auto].
    - apply Hsplit, Hone. exact I. }
  destruct (beq c "[") eqn:E3. { apply beq_eq in E3; subst c. apply Hsplit, Hone. split; [reflexivity|discriminate]. }
  destruct (beq c "]") eqn:E4. { apply beq_eq in E4; subst c. apply Hsplit, Hone. reflexivity. }
  destruct (beq c "(") eqn:E5. { apply beq_eq in E5; subst c. apply Hsplit, Hone. split; [reflexivity|discriminate]. }
  destruct (beq c ")") eqn:E6. { apply beq_eq in E6; subst c. apply Hsplit, Hone. reflexivity. }
  destruct (beq c "{") eqn:E7.
  { apply beq_eq in E7; subst c. destruct r as [|c' r]; [apply Hsplit, Hone; split; reflexivity|].
    destruct (open_brace c') as [d|] eqn:E; [|apply Hsplit, Hone; split; [reflexivity|intros _; apply open_brace_none; exact E]].
    destruct (open_brace_text _ _ E) as [Ht Hc']. apply Hsplit. eapply (tok_cons _ _ c'); cbn [tlen tk]; try reflexivity; auto; cbn; try qlia.
    split; [symmetry; exact Ht|]. intros ->. exfalso. eapply open_brace_not; eauto. }
  destruct (beq c "}") eqn:E8. { apply beq_eq in E8; subst c. apply Hsplit, Hone. reflexivity. }
  destruct (beq c "*") eqn:E9. { apply beq_eq in E9; subst c. apply Hsplit, maybe_close_ok; reflexivity. }
  destruct (beq c "^") eqn:E10. { apply beq_eq in E10; subst c. apply Hsplit, maybe_close_ok; reflexivity. }
  destruct (beq c "=") eqn:E11. { apply beq_eq in E11; subst c. apply Hsplit, maybe_close_ok; try reflexivity. }
  destruct (beq c "+") eqn:E12. { apply beq_eq in E12; subst c. apply Hsplit, maybe_close_ok; try reflexivity. }
  destruct (beq c "~") eqn:E13. { apply beq_eq in E13; subst c. apply Hsplit, maybe_close_ok; reflexivity. }
  destruct (beq c "_") eqn:E14. { apply beq_eq in E14; subst c. apply Hsplit, maybe_close_ok; reflexivity. }
  destruct (beq c "'") eqn:E15. { apply beq_eq in E15; subst c. apply Hsplit, maybe_close_ok; reflexivity. }
  destruct (beq c DQ) eqn:E16. { apply beq_eq in E16; subst c. apply Hsplit, maybe_close_ok; reflexivity. }
  destruct (beq c "-") eqn:E17.
  { apply beq_eq in E17; subst c. destruct (hd_is _ r) eqn:E.
    - apply hd_is_inv in E. destruct E as (x & r' & -> & E). apply beq_eq in E. subst x.
      apply Hsplit. eapply (tok_cons _ _ "}"%char); cbn; try reflexivity; qlia.
    - apply Hsplit. destruct (hyphen_run_ok r) as [H1 H2].
      assert (H3 : forallb (fun c => beq c "-") (firstn (S (hyphen_run r)) ("-"%char :: r)) = true) by (cbn; auto).
      destruct (nth_error ("-"%char :: r) (hyphen_run r)) as [x|] eqn:Ex; [|apply nth_error_None in Ex; cbn in Ex; qlia].
      pose proof (forallb_last _ _ _ _ H3 Ex) as Hx. apply beq_eq in Hx. subst x.
      apply (tok_cons _ (Tok (LSeq Hyphen) (S (hyphen_run r))) "-"%char (firstn (S (hyphen_run r)) ("-"%char :: r))); cbn [tlen tk length]; try qlia; auto.
      + replace (S (hyphen_run r) - 1) with (hyphen_run r) by qlia. auto.
      + split; [cbn; discriminate|auto]. }
  destruct (beq c "!") eqn:E18.
  { apply beq_eq in E18; subst c. destruct (hd_is _ r) eqn:E.
    - apply hd_is_inv in E. destruct E as (x & r' & -> & E). apply beq_eq in E. subst x.
      apply Hsplit. eapply (tok_cons _ _ "["%char); cbn; try reflexivity; qlia.
    - apply Hsplit, Hone. exact I. }
  destruct (beq c "<") eqn:E19. { apply beq_eq in E19; subst c. apply Hsplit, Hone. reflexivity. }
  destruct (beq c "|") eqn:E20. { apply beq_eq in E20; subst c. apply Hsplit, Hone. reflexivity. }
  destruct (beq c ":") eqn:E21. { apply beq_eq in E21; subst c. apply Hsplit, Hone. reflexivity. }
  assert (Hrun : forall q, beq c (seq_char q) = true -> tok_ok (c :: r) (Tok (LSeq q) (S (count_while (fun c => beq c (seq_char q)) r)))).
  { intros q Hq. set (n := count_while _ r).
    assert (H1 : n <= length r) by apply count_while_le.
    assert (H3 : forallb (fun c => beq c (seq_char q)) (firstn (S n) (c :: r)) = true).
    { apply forallb_firstn_count. cbn. rewrite Hq. unfold n. qlia. }
    destruct (nth_error (c :: r) n) as [x|] eqn:Ex; [|apply nth_error_None in Ex; cbn in Ex; qlia].
    pose proof (forallb_last _ _ _ _ H3 Ex) as Hx. apply beq_eq in Hx. subst x.
    apply (tok_cons _ (Tok (LSeq q) (S n)) (seq_char q) (firstn (S n) (c :: r))); cbn [tlen tk length]; try qlia; auto.
    + replace (S n - 1) with n by qlia. auto.
    + destruct q; reflexivity.
    + split; [cbn; discriminate|auto]. }
  destruct (beq c "`") eqn:E22. { apply Hsplit, (Hrun Backtick E22). }
  destruct (beq c ".") eqn:E23. { apply Hsplit, (Hrun Period E23). }
  apply Hsplit, Hone. exact I.
Qed.

Lemma firstn_snoc {A} n (l : list A) x : nth_error l n = Some x -> firstn (S n) l = firstn n l ++ [x].
Proof. revert n; induction l as [|y l IH]; intros [|n] H; cbn in *; try discriminate; [congruence|]. f_equal. auto. Qed.
Lemma escaped_token_ok c r : ascii7 c = true -> tok_ok (c :: r) (escaped_token c r).
Proof.
  intros Ha. unfold escaped_token.
  destruct (beq c NL) eqn:E1.
  { apply beq_eq in E1. subst c. eapply (tok_cons _ _ NL); cbn; try reflexivity; try qlia. exists []. auto. }
  destruct (is_blank c && hd_is _ _) eqn:E2.
  { apply andb_prop in E2. destruct E2 as [E2 E3]. apply hd_is_inv in E3. destruct E3 as (x & r' & E3 & E4). apply beq_eq in E4. subst x.
    set (n := count_while is_blank r) in *. destruct (skipn_cons_nth _ _ _ _ E3) as [Hn _].
    assert (n < length r) by (apply nth_error_Some; congruence).
    apply (tok_cons _ (Tok LHardbreak (2 + n)) NL (firstn (2 + n) (c :: r))); cbn [tlen tk length]; try qlia; try reflexivity.
    - replace (2 + n - 1) with (S n) by qlia. auto.
    - exists (c :: firstn n r). split.
      + cbn [Nat.add firstn app]. f_equal. apply firstn_snoc. exact Hn.
      + cbn. rewrite E2. apply forallb_firstn_count. qlia. }
  destruct (beq c SP) eqn:E3.
  { apply beq_eq in E3. subst c. eapply (tok_cons _ _ SP); cbn; try reflexivity; qlia. }
  eapply (tok_cons _ _ c); cbn; try reflexivity; auto; qlia.
Qed.


Lemma scan_ok verb esc r : (esc = true -> esc_ok r) ->
  match scan verb esc r with
  | (None, e) => r = [] /\ e = false
  | (Some t, e) => tok_ok r t /\ (e = true -> tk t = LEscape /\ esc_ok (skipn (tlen t) r))
  end.
Proof.
  intros He. unfold scan. destruct r as [|c r]; [auto|]. destruct esc.
  - split; [|discriminate]. apply escaped_token_ok. specialize (He eq_refl). cbn in He. apply wp_ascii. auto.
  - set (n := count_while _ _). assert (Hn : n <= length (c :: r)) by apply count_while_le.
    destruct (Nat.ltb 0 n) eqn:E.
    + apply Nat.ltb_lt in E. split; [|discriminate]. repeat split; cbn [tlen tk]; auto; try qlia.
      destruct (nth_error (c :: r) n) as [x|] eqn:Ex.
      * right; left. exists x. split; auto. apply count_while_nth in Ex. apply negb_false_iff in Ex. apply special_ascii. auto.
      * left. apply nth_error_None in Ex. qlia.
    + apply Nat.ltb_ge in E. assert (E0 : n = 0) by qlia.
      assert (Hs : is_special c = true).
      { unfold n in E0. cbn in E0. destruct (is_special c); cbn in E0; auto; qlia. }
      pose proof (special_token_ok verb c r Hs) as H. destruct (special_token verb c r) as [t e].
      destruct H as [H1 H2]. split; auto. intros Ee. destruct (H2 Ee) as (H3 & H4 & H5). split; auto. rewrite H4. exact H5.
Qed.

(** ** Lexer states *)
Definition pend (l : lexer) : nat := match lx_next l with Some t => tlen t | None => 0 end.
(** Position of the next token to be handed out, and the input from there. *)
Definition lx_c (l : lexer) : nat := lx_pos l - pend l.
Definition lx_rest (l : lexer) : bytes := skipn (lx_c l) (lx_src l).
Definition lex_wf (l : lexer) : Prop :=
  lx_pos l <= length (lx_src l) /\ pend l <= lx_pos l /\
  (lx_esc l = true -> esc_ok (skipn (lx_pos l) (lx_src l))) /\
  match lx_next l with Some t => tok_ok (lx_rest l) t /\ (lx_esc l = true -> tk t = LEscape) | None => True end.

Lemma lex_wf_new src : lex_wf (lex_new src).
Proof. unfold lex_wf, lex_new, pend. cbn. split; [qlia|]. split; [qlia|]. split; [discriminate|exact I]. Qed.
Lemma lex_token_ok l : lex_wf l -> lx_next l = None ->
  exists o l', lex_token l = (o, l') /\ lx_src l' = lx_src l /\ lx_verb l' = lx_verb l /\ lx_next l' = None /\
  lex_wf l' /\
  match o with
  | None => lx_rest l = [] /\ lx_pos l' = lx_pos l /\ lx_esc l' = false
  | Some t => tok_ok (lx_rest l) t /\ lx_pos l' = lx_pos l + tlen t /\ (lx_esc l' = true -> tk t = LEscape)
  end.
Proof.
  intros (H1 & H2 & H3 & _) Hn. unfold lex_token. unfold lx_rest, lx_c, pend. rewrite Hn, Nat.sub_0_r.
  pose proof (scan_ok (lx_verb l) (lx_esc l) _ H3) as H.
  destruct (scan _ _ _) as [[t|] e].
  - destruct H as [Ht He]. do 2 eexists. split; [reflexivity|]. cbn [lx_src lx_verb lx_next lx_pos lx_esc].
    split; [auto|]. split; [auto|]. split; [auto|]. split.
    + split; [cbn [lx_pos lx_src]; destruct Ht as (_ & Ht & _); rewrite skipn_length in Ht; qlia|].
      split; [unfold pend; cbn; qlia|]. split; [|exact I].
      cbn. intros E. destruct (He E) as [_ He']. rewrite skipn_skipn in He'. exact He'.
    + split; [exact Ht|]. split; [auto|]. intros E. apply He. auto.
  - destruct H as [Ht ->]. do 2 eexists. split; [reflexivity|]. cbn [lx_src lx_verb lx_next lx_pos lx_esc]. rewrite Nat.add_0_r.
    split; [auto|]. split; [auto|]. split; [auto|]. split; [|auto].
    split; [exact H1|]. split; [unfold pend; cbn; qlia|]. split; [discriminate|exact I].
Qed.

Lemma tend_skip r n m : n <= length r -> tend (skipn n r) m -> m <> 0 -> tend r (n + m).
Proof.
  intros Hn [H|[(c & H1 & H2)|(H0 & c & H1 & H2)]] Hm.
  - left. rewrite skipn_length in H. qlia.
  - right; left. exists c. rewrite nth_error_skipn in H1. auto.
  - right; right. split; [qlia|]. exists c. rewrite nth_error_skipn in H1. replace (n + m - 1) with (n + (m - 1)) by qlia. auto.
Qed.

Lemma text_run_ok f : forall l len c, lex_wf l -> lx_next l = None -> length (lx_src l) - lx_pos l < f ->
  c + len = lx_pos l -> 1 <= len -> tend (skipn c (lx_src l)) len -> lx_esc l = false ->
  exists t l', text_run f l len = Ok (t, l') /\ tok_ok (skipn c (lx_src l)) t /\ tk t = LText /\
    lx_src l' = lx_src l /\ lx_verb l' = lx_verb l /\ lex_wf l' /\ lx_c l' = c + tlen t /\
    (lx_next l' = None -> lx_rest l' = []) /\ match lx_next l' with Some t => tk t <> LText | None => True end.
Proof.
  induction f as [|f IH]; intros l len c Hw Hn Hf Hc Hlen Ht Hesc; [qlia|].
  destruct (lex_token_ok l Hw Hn) as (o & l' & E & Hs & Hv & Hn' & Hw' & Ho). cbn [text_run]. rewrite E.
  assert (Hrest : lx_rest l = skipn (c + len) (lx_src l)).
  { unfold lx_rest, lx_c, pend. rewrite Hn, Nat.sub_0_r. f_equal. qlia. }
  assert (Hwl : lx_pos l <= length (lx_src l)) by apply Hw.
  assert (Hdone : tok_ok (skipn c (lx_src l)) (Tok LText len)).
  { split; [exact Hlen|]. split; [cbn [tlen]; rewrite skipn_length; qlia|]. split; [exact Ht|exact I]. }
  destruct o as [[k n]|].
  - destruct Ho as (Hto & Hp & He). cbn [tlen] in *.
    assert (Hn1 : 1 <= n <= length (lx_rest l)) by (split; apply Hto).
    assert (Hlr : length (lx_rest l) = length (lx_src l) - lx_pos l) by (rewrite Hrest, skipn_length; qlia).
    assert (Hnt : k <> LText -> exists t l'0, Ok (Tok LText len, lex_set_next l' (Some (Tok k n))) = Ok (t, l'0) /\
       tok_ok (skipn c (lx_src l)) t /\ tk t = LText /\ lx_src l'0 = lx_src l /\ lx_verb l'0 = lx_verb l /\ lex_wf l'0 /\ lx_c l'0 = c + tlen t /\
       (lx_next l'0 = None -> lx_rest l'0 = []) /\ match lx_next l'0 with Some t => tk t <> LText | None => True end).
    { intros Hk. do 2 eexists. split; [reflexivity|]. split; [exact Hdone|]. split; [reflexivity|].
      assert (Hcc : lx_c (lex_set_next l' (Some (Tok k n))) = c + len).
      { unfold lx_c, pend. cbn. qlia. }
      split; [exact Hs|]. split; [exact Hv|]. split.
      - destruct Hw' as (A & B' & C & D). split; [exact A|]. split; [unfold pend; cbn; qlia|]. split; [exact C|].
        cbn [lx_next lex_set_next]. split.
        + unfold lx_rest. rewrite Hcc. cbn [lx_src lex_set_next]. rewrite Hs, <- Hrest. exact Hto.
        + exact He.
      - split; [exact Hcc|]. split; [discriminate|exact Hk]. }
    destruct k; try (apply Hnt; discriminate).
    + (* text *) assert (Hesc' : lx_esc l' = false).
      { destruct (lx_esc l') eqn:E1; auto. specialize (He eq_refl). discriminate. }
      destruct (IH l' (len + n) c) as (t & l2 & E2 & A1 & A2 & A3 & A4 & A5 & A6 & A7 & A8); auto; try (rewrite ?Hs; qlia).
      { rewrite Hs. rewrite Hrest in Hto. destruct Hto as (_ & _ & Hto & _). cbn [tlen] in Hto.
        rewrite <- skipn_skipn in Hto. apply tend_skip; [rewrite skipn_length; qlia|exact Hto|qlia]. }
      rewrite Hs, Hv in *. exists t, l2. auto 10.
  - destruct Ho as (Hr & Hp & He). do 2 eexists. split; [reflexivity|]. split; [exact Hdone|]. split; [reflexivity|].
    assert (Hcc : lx_c (lex_set_next l' None) = c + len) by (unfold lx_c, pend; cbn; qlia).
    split; [exact Hs|]. split; [exact Hv|]. split.
    + destruct Hw' as (A & B' & C & D). split; [exact A|]. split; [unfold pend; cbn; qlia|]. split; [exact C|exact I].
    + split; [exact Hcc|]. split; [|exact I]. intros _. unfold lx_rest. rewrite Hcc. cbn [lx_src lex_set_next]. rewrite Hs, <- Hrest. exact Hr.
Qed.

(** [lex_next] hands out the next token and advances past it. *)
Lemma lex_next_ok l : lex_wf l ->
  exists o l', lex_next l = Ok (o, l') /\ lx_src l' = lx_src l /\ lx_verb l' = lx_verb l /\ lex_wf l' /\
  match o with
  | None => lx_rest l = [] /\ lx_rest l' = [] /\ lx_c l' = lx_c l /\ lx_next l' = None
  | Some t => tok_ok (lx_rest l) t /\ lx_c l' = lx_c l + tlen t /\ (tk t <> LText -> lx_next l' = None) /\
              (tk t = LText -> lx_next l' = None -> lx_next l = None -> lx_rest l' = []) /\
              (tk t = LText -> lx_next l = None -> match lx_next l' with Some t => tk t <> LText | None => True end)
  end.
Proof.
  intros Hw. unfold lex_next. destruct (lx_next l) as [t|] eqn:En.
  - do 2 eexists. split; [reflexivity|]. split; [reflexivity|]. split; [reflexivity|].
    destruct Hw as (A & B' & C & D). rewrite En in D. destruct D as [D1 D2].
    assert (Hc : lx_c (lex_set_next l None) = lx_pos l) by (unfold lx_c, pend; cbn; qlia).
    assert (Hc2 : lx_c l + tlen t = lx_pos l) by (unfold lx_c, pend in *; rewrite En in *; qlia).
    split; [split; [exact A|]; split; [unfold pend; cbn; qlia|]; split; [exact C|exact I]|].
    split; [exact D1|]. split; [qlia|]. split; [reflexivity|]. split; [discriminate|discriminate].
  - destruct (lex_token_ok l Hw En) as (o & l' & E & Hs & Hv & Hn' & Hw' & Ho). unfold next_token. rewrite E.
    assert (Hc : lx_c l = lx_pos l) by (unfold lx_c, pend; rewrite En; qlia).
    assert (Hc' : lx_c l' = lx_pos l') by (unfold lx_c, pend; rewrite Hn'; qlia).
    destruct o as [[k n]|].
    + destruct Ho as (Hto & Hp & He). cbn [tlen] in Hp.
      assert (Hnt : k <> LText -> exists o l'0, Ok (Some (Tok k n), l') = Ok (o, l'0) /\ lx_src l'0 = lx_src l /\ lx_verb l'0 = lx_verb l /\ lex_wf l'0 /\
        match o with
        | None => lx_rest l = [] /\ lx_rest l'0 = [] /\ lx_c l'0 = lx_c l /\ lx_next l'0 = None
        | Some t => tok_ok (lx_rest l) t /\ lx_c l'0 = lx_c l + tlen t /\ (tk t <> LText -> lx_next l'0 = None) /\
              (tk t = LText -> lx_next l'0 = None -> None = @None token -> lx_rest l'0 = []) /\
              (tk t = LText -> None = @None token -> match lx_next l'0 with Some t => tk t <> LText | None => True end)
        end).
      { intros Hk. do 2 eexists. split; [reflexivity|]. split; [exact Hs|]. split; [exact Hv|]. split; [exact Hw'|].
        split; [exact Hto|]. cbn [tlen tk]. split; [qlia|]. split; [auto|]. split; intros; contradiction. }
      destruct k; try (apply Hnt; discriminate).
      assert (Hesc' : lx_esc l' = false) by (destruct (lx_esc l') eqn:E1; auto; specialize (He eq_refl); discriminate).
      destruct (text_run_ok (S (length (lx_src l))) l' n (lx_pos l)) as (t & l2 & E2 & A1 & A2 & A3 & A4 & A5 & A6 & A7 & A8); auto; try (rewrite ?Hs; qlia).
      { apply Hto. }
      { rewrite Hs. destruct Hto as (_ & _ & Hto & _). unfold lx_rest in Hto. rewrite Hc in Hto. exact Hto. }
      rewrite E2. cbn [bind]. do 2 eexists. split; [reflexivity|]. rewrite A3, A4. split; [exact Hs|]. split; [exact Hv|]. split; [exact A5|].
      rewrite Hs in A1. unfold lx_rest at 1. rewrite Hc. split; [exact A1|]. split; [qlia|]. split; [congruence|]. auto.
    + destruct Ho as (Hr & Hp & He). do 2 eexists. split; [reflexivity|]. split; [exact Hs|]. split; [exact Hv|]. split; [exact Hw'|].
      split; [exact Hr|]. split; [|split; [qlia|exact Hn']]. unfold lx_rest in *. rewrite Hc', Hp, Hs, <- Hc. exact Hr.
Qed.

Lemma lex_peek_ok l : lex_wf l ->
  exists o l', lex_peek l = (o, l') /\ lx_src l' = lx_src l /\ lx_verb l' = lx_verb l /\ lex_wf l' /\ lx_c l' = lx_c l /\ lx_next l' = o /\
  match o with None => lx_rest l = [] | Some t => tok_ok (lx_rest l) t end /\ (lx_next l <> None -> l' = l).
Proof.
  intros Hw. unfold lex_peek. destruct (lx_next l) as [t|] eqn:En.
  - do 2 eexists. split; [reflexivity|]. do 2 (split; [reflexivity|]). split; [exact Hw|]. split; [reflexivity|]. split; [exact En|].
    split; [|auto]. destruct Hw as (_ & _ & _ & D). rewrite En in D. apply D.
  - destruct (lex_token_ok l Hw En) as (o & l' & E & Hs & Hv & Hn' & Hw' & Ho). rewrite E.
    assert (Hc : lx_c l = lx_pos l) by (unfold lx_c, pend; rewrite En; qlia).
    do 2 eexists. split; [reflexivity|]. split; [exact Hs|]. split; [exact Hv|].
    destruct Hw' as (A & B' & C & _).
    destruct o as [t|].
    + destruct Ho as (Hto & Hp & He).
      assert (Hc' : lx_c (lex_set_next l' (Some t)) = lx_c l) by (unfold lx_c at 1, pend; cbn; qlia).
      split; [|split; [exact Hc'|split; [reflexivity|split; [exact Hto|congruence]]]].
      split; [exact A|]. split; [unfold pend; cbn; qlia|]. split; [exact C|]. cbn [lex_set_next lx_next]. split; [|exact He].
      unfold lx_rest in *. rewrite Hc'. cbn [lx_src lex_set_next]. rewrite Hs. exact Hto.
    + destruct Ho as (Hr & Hp & He).
      assert (Hc' : lx_c (lex_set_next l' None) = lx_c l) by (unfold lx_c at 1, pend; cbn; qlia).
      split; [|split; [exact Hc'|split; [reflexivity|split; [exact Hr|congruence]]]].
      split; [exact A|]. split; [unfold pend; cbn; qlia|]. split; [exact C|exact I].
Qed.
Lemma lex_ahead_ok l : lex_wf l -> lex_ahead l = Ok (lx_rest l).
Proof.
  intros (A & B' & _). unfold lex_ahead. fold (pend l). rewrite usub_yes by auto. cbn [bind].
  replace (Nat.leb _ _) with true by (symmetry; apply Nat.leb_le; qlia). reflexivity.
Qed.
Lemma lex_set_verb_wf l v : lex_wf l -> lex_wf (lex_set_verb l v).
Proof. intros H. exact H. Qed.
Lemma lex_rest_le l : lex_wf l -> lx_c l <= length (lx_src l).
Proof. intros (A & B' & _). unfold lx_c. qlia. Qed.
Lemma lex_skip_ok l n : lx_next l = None -> lex_wf l -> n <= length (lx_rest l) ->
  lex_skip_ahead l n = Ok (lex_new (skipn n (lx_rest l))).
Proof.
  intros Hn (A & B' & _) H. unfold lex_skip_ahead. unfold lx_rest, lx_c, pend in *. rewrite Hn, Nat.sub_0_r in *.
  rewrite skipn_length in H. replace (Nat.leb _ _) with true by (symmetry; apply Nat.leb_le; qlia). rewrite skipn_skipn. reflexivity.
Qed.
