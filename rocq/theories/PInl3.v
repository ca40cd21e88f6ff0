(** * PInl3: the input of the inline parser; states *)
From Verif Require Import Base Lex Attr Block Inline Doc SpecLex Lib SpecAttr SpecSrc PAttr PAttr3 PAttr4 PSafe PBlock2 PLex PBlock3 PBlock4 PInl1 PInl2.
Local Open Scope nat_scope.

(** The lexer stands at [se (i_span i)] in the current line; [P] are the lines not fed yet. *)
Record LexI (src : bytes) (P : list span) (hi : nat) (i : input) : Prop := mkLexI {
  li_span : span_ok src (Sp (se (i_span i)) (se (i_line i)));
  li_wf : lex_wf (i_lex i);
  li_rest : lx_rest (i_lex i) = slice src (Sp (se (i_span i)) (se (i_line i)));
  li_lines : Forall (span_ok src) (i_ahead i ++ P);
  li_chain : chain (se (i_line i)) (i_ahead i ++ P) hi;
  li_eols : eolsx src (i_line i :: i_ahead i ++ P);
  li_compl : i_complete i = is_nil P;
  li_low : ss (i_line i) <= se (i_span i) \/ two_sets src
}.
Arguments li_span {src P hi i}. Arguments li_wf {src P hi i}. Arguments li_rest {src P hi i}. Arguments li_lines {src P hi i}.
Arguments li_chain {src P hi i}. Arguments li_eols {src P hi i}. Arguments li_compl {src P hi i}. Arguments li_low {src P hi i}.

Lemma skipn_slice src a b n : n <= b - a -> skipn n (slice src (Sp a b)) = slice src (Sp (a + n) b).
Proof.
  intros H. unfold slice. cbn [ss se]. rewrite skipn_firstn_comm, skipn_skipn. f_equal. lia.
Qed.
Lemma firstn_slice src a b n : n <= b - a -> firstn n (slice src (Sp a b)) = slice src (Sp a (a + n)).
Proof. intros H. unfold slice. cbn [ss se]. rewrite firstn_firstn. f_equal. lia. Qed.
Lemma tend_boundary src a b n : wfb src -> span_ok src (Sp a b) -> n <= b - a -> tend (slice src (Sp a b)) n -> boundary src (a + n) = true.
Proof.
  intros Hw Hs Hn [E|[(c & Hc & Ha)|(H0 & c & Hc & Ha)]].
  - rewrite span_ok_len in E by auto. cbn in E. subst n. destruct Hs as (H1 & H2 & H3 & H4). cbn in *. replace (a + (b - a)) with b by lia. auto.
  - assert (Hlt : n < b - a).
    { apply nth_error_some_lt in Hc || assert (n < length (slice src (Sp a b))) by (apply nth_error_Some; congruence).
      rewrite span_ok_len in * by auto. cbn in *. lia. }
    rewrite slice_nth in Hc by (cbn; lia). cbn in Hc. eapply wfb_ascii_at; eauto.
  - rewrite slice_nth in Hc by (cbn; lia). cbn in Hc. replace (a + n) with (S (a + (n - 1))) by lia. eapply wfb_after; eauto.
Qed.
Lemma span_sub src a b c : span_ok src (Sp a b) -> a <= c <= b -> boundary src c = true -> span_ok src (Sp a c) /\ span_ok src (Sp c b).
Proof. intros (H1 & H2 & H3 & H4) Hc Hb. cbn in *. repeat split; cbn; auto; lia. Qed.
Lemma span_join src a b c : span_ok src (Sp a b) -> span_ok src (Sp b c) -> span_ok src (Sp a c).
Proof. intros (H1 & H2 & H3 & H4) (H5 & H6 & H7 & H8). cbn in *. repeat split; cbn; auto; lia. Qed.
Lemma span_point src a b : span_ok src (Sp a b) -> span_ok src (Sp a a).
Proof. intros (H1 & H2 & H3 & H4). cbn in *. repeat split; cbn; auto; lia. Qed.
Lemma span_point_r src a b : span_ok src (Sp a b) -> span_ok src (Sp b b).
Proof. intros (H1 & H2 & H3 & H4). cbn in *. repeat split; cbn; auto; lia. Qed.

Lemma LexI_reset_span src P hi i : LexI src P hi i -> LexI src P hi (in_reset_span i).
Proof. intros [H1 H2 H3 H4 H5 H6 H7 H8]. constructor; auto. Qed.
Lemma LexI_start src P hi i x : LexI src P hi i -> LexI src P hi (in_set_span i (Sp x (se (i_span i)))).
Proof. intros [H1 H2 H3 H4 H5 H6 H7 H8]. constructor; auto. Qed.
Lemma LexI_len src P hi i : LexI src P hi i -> length (lx_rest (i_lex i)) = se (i_line i) - se (i_span i).
Proof. intros H. rewrite (li_rest H). apply span_ok_len. apply H. Qed.

Definition same_in (i i' : input) : Prop :=
  i_line i' = i_line i /\ i_ahead i' = i_ahead i /\ i_complete i' = i_complete i.
Lemma same_in_refl i : same_in i i.
Proof. repeat split. Qed.

Lemma in_eat_ok src P hi i : wfb src -> LexI src P hi i ->
  exists o i', in_eat i = Ok (o, i') /\ LexI src P hi i' /\ same_in i i' /\
  match o with
  | None => se (i_span i) = se (i_line i) /\ i_span i' = i_span i /\ lx_rest (i_lex i') = []
  | Some t => i_span i' = Sp (ss (i_span i)) (se (i_span i) + tlen t) /\ 1 <= tlen t /\
      se (i_span i) + tlen t <= se (i_line i) /\ span_ok src (Sp (se (i_span i)) (se (i_span i) + tlen t)) /\
      kind_text (tk t) (slice src (Sp (se (i_span i)) (se (i_span i) + tlen t))) (lx_rest (i_lex i')) /\
      (tk t <> LText -> lx_next (i_lex i') = None)
  end.
Proof.
  intros Hw HL. unfold in_eat. destruct (lex_next_ok _ (li_wf HL)) as (o & l' & -> & Hs & Hv & Hwf & Ho). cbn [bind].
  do 2 eexists. split; [reflexivity|]. pose proof (LexI_len _ _ _ _ HL) as Hlen. destruct HL as [H1 H2 H3 H4 H5 H6 H7 H8].
  destruct o as [t|].
  - destruct Ho as ((T1 & T2 & T3 & T4) & Hc & Hn & _). rewrite Hlen in T2.
    assert (Hb : boundary src (se (i_span i) + tlen t) = true) by (apply (tend_boundary src _ (se (i_line i))); auto; rewrite <- H3; auto).
    destruct (span_sub _ _ _ (se (i_span i) + tlen t) H1) as [S1 S2]; [destruct H1; cbn in *; lia|auto|].
    assert (Hrest : lx_rest l' = slice src (Sp (se (i_span i) + tlen t) (se (i_line i)))).
    { rewrite <- skipn_slice by lia. rewrite <- H3. unfold lx_rest. rewrite Hs, Hc, skipn_skipn. reflexivity. }
    split; [constructor; cbn; auto; clear - H8; destruct H8; [left; lia|auto]|]. split; [repeat split|].
    cbn [in_set_span in_set_lex i_span i_lex]. split; [reflexivity|]. split; [auto|]. destruct H1 as (H1 & _). cbn in H1. split; [lia|]. split; [auto|].
    split; [|auto]. rewrite H3, firstn_slice, skipn_slice in T4 by lia. rewrite Hrest. exact T4.
  - destruct Ho as (R1 & R2 & R3 & R4).
    assert (E : se (i_span i) = se (i_line i)).
    { rewrite R1 in Hlen. destruct H1 as (H1 & _). cbn in *. lia. }
    split; [constructor; cbn [in_set_span in_set_lex i_span i_lex i_line i_ahead i_complete]; auto; congruence|]. split; [repeat split|]. cbn. auto.
Qed.
Lemma in_peek_ok src P hi i : wfb src -> LexI src P hi i ->
  exists o i', in_peek i = (o, i') /\ LexI src P hi i' /\ same_in i i' /\ i_span i' = i_span i /\ lx_next (i_lex i') = o /\
  match o with None => True | Some t => tok_ok (lx_rest (i_lex i)) t end /\ lx_rest (i_lex i') = lx_rest (i_lex i).
Proof.
  intros Hw HL. unfold in_peek. destruct (lex_peek_ok _ (li_wf HL)) as (o & l' & -> & Hs & Hv & Hwf & Hc & Hn & Ho & _).
  do 2 eexists. split; [reflexivity|].
  assert (Hr : lx_rest l' = lx_rest (i_lex i)) by (unfold lx_rest; rewrite Hs, Hc; reflexivity).
  destruct HL as [H1 H2 H3 H4 H5 H6 H7 H8]. split; [constructor; cbn [in_set_span in_set_lex i_span i_lex i_line i_ahead i_complete]; auto; congruence|]. split; [repeat split|].
  split; [reflexivity|]. split; [exact Hn|]. split; [destruct o; auto|exact Hr].
Qed.
(** Jump [n] bytes ahead. *)
Lemma LexI_jump src P hi i n x : LexI src P hi i -> n <= se (i_line i) - se (i_span i) -> boundary src (se (i_span i) + n) = true ->
  LexI src P hi (in_set_span (in_set_lex i (lex_new (skipn n (lx_rest (i_lex i))))) (Sp x (se (i_span i) + n))).
Proof.
  intros [H1 H2 H3 H4 H5 H6 H7 H8] Hn Hb. destruct (span_sub _ _ _ (se (i_span i) + n) H1) as [S1 S2]; [destruct H1; cbn in *; lia|auto|].
  constructor; cbn [in_set_span in_set_lex i_span i_lex i_line i_ahead i_complete ss se]; auto; [apply lex_wf_new| |clear - H8; destruct H8; [left; lia|auto]]. change (skipn n (lx_rest (i_lex i)) = slice src (Sp (se (i_span i) + n) (se (i_line i)))). rewrite H3, skipn_slice by auto. reflexivity.
Qed.
Lemma lx_rest_new b : lx_rest (lex_new b) = b.
Proof. reflexivity. Qed.
Lemma scan_until_ok stop l n o c : scan_until stop l = (n, o) -> stopped_at o c = true -> n < length l /\ nth_error l n = Some c.
Proof.
  unfold scan_until. intros H. injection H as <- <-. unfold stopped_at. destruct (nth_error l _) as [d|] eqn:E; [|discriminate].
  intros Hd. apply beq_eq in Hd. subst d. split; [apply nth_error_Some; congruence|auto].
Qed.
Lemma scan_until_free stop l n o : scan_until stop l = (n, o) -> Forall (fun c => stop c = false) (firstn n l).
Proof.
  unfold scan_until. intros H. injection H as <- _. apply Forall_forall. intros c Hc.
  assert (X := count_while_firstn (fun c => negb (stop c)) l). rewrite forallb_forall in X. specialize (X c Hc). apply negb_true_iff in X. exact X.
Qed.
(** The place after an ASCII byte of the rest, and of that byte. *)
Lemma rest_boundary src P hi i n c : wfb src -> LexI src P hi i -> nth_error (lx_rest (i_lex i)) n = Some c -> ascii7 c = true ->
  n < se (i_line i) - se (i_span i) /\ nth_error src (se (i_span i) + n) = Some c /\
  boundary src (se (i_span i) + n) = true /\ boundary src (se (i_span i) + n + 1) = true.
Proof.
  intros Hw HL Hn Hc. assert (Hlt : n < length (lx_rest (i_lex i))) by (apply nth_error_Some; congruence).
  rewrite (LexI_len _ _ _ _ HL) in Hlt. rewrite (li_rest HL), slice_nth in Hn by (cbn; lia). cbn in Hn.
  split; [auto|]. split; [auto|]. split; [eapply wfb_ascii_at; eauto|]. rewrite Nat.add_1_r. eapply wfb_after; eauto.
Qed.
(** The next line becomes the current one. *)
Lemma set_current_ok src P hi i l ls : LexI src P hi i -> i_ahead i = l :: ls ->
  exists i', set_current_line src (in_set_ahead i ls) l = Ok i' /\ LexI src P hi i' /\ i_ahead i' = ls /\ i_span i' = Sp (ss l) (ss l) /\
    i_complete i' = i_complete i /\ se (i_line i) <= ss l.
Proof.
  intros [H1 H2 H3 H4 H5 H6 H7 H8] E. rewrite E in *. cbn in H4. inv H4. cbn in H5. destruct H5 as (C1 & C2 & C3). destruct H6 as [E1 E2].
  unfold set_current_line. rewrite span_ok_bsub by auto. cbn [bind]. eexists. split; [reflexivity|].
  split; [|cbn; auto]. constructor; cbn [in_set_ahead i_span i_lex i_line i_ahead i_complete ss se]; auto using lex_wf_new; rewrite ?span_eta; auto.
Qed.

(** ** Weights *)
Definition iwt (e : iev) : nat :=
  match ik e with IStr => 1 + sp_len (isp e) | IAttributes false _ => 2 | _ => 1 end.
Fixpoint wsum (E : list iev) : nat := match E with [] => 0 | e :: E' => iwt e + wsum E' end.
Lemma wsum_app E F : wsum (E ++ F) = wsum E + wsum F.
Proof. induction E; cbn; lia. Qed.

(** ** States *)
Definition pos (s : istate) : nat := se (s_span s).
(** The start of the current line, if there is anything on it. *)
Definition lstart (s : istate) : nat := if sp_empty (i_line (s_in s)) then 0 else ss (i_line (s_in s)).
Definition evz (src : bytes) (lo : nat) (s : istate) (m : nat) : Prop :=
  zip src (s_cow s) (s_attrs s) (lstart s) lo (s_openers s) (s_events s) m.
(** The last event, if a text, is not empty unless it follows a run of periods. *)
Definition lastok (src : bytes) (E : list iev) : Prop :=
  match last_opt E with
  | Some (IE IStr sp) => ss sp < se sp \/ (0 < ss sp /\ nth_error src (ss sp - 1) = Some "."%char)
  | _ => True
  end.
Definition ext (s s' : istate) : Prop :=
  (exists c, s_cow s' = s_cow s ++ c) /\ (exists a, s_attrs s' = s_attrs s ++ a).
Lemma ext_refl s : ext s s.
Proof. split; exists []; rewrite app_nil_r; reflexivity. Qed.
Lemma ext_trans a b c : ext a b -> ext b c -> ext a c.
Proof. intros [[x H1] [y H2]] [[z H3] [w H4]]. split; eexists; rewrite ?H3, ?H4, ?H1, ?H2, <- app_assoc; reflexivity. Qed.

(** Ready for the next token. *)
Record Rdy (src : bytes) (P : list span) (lo hi W : nat) (s : istate) : Prop := mkRdy {
  r_lex : LexI src P hi (s_in s);
  r_verb : s_verb s = None;
  r_attr : s_attr s = None;
  r_zip : evz src lo s (pos s);
  r_last : lastok src (s_events s);
  r_wt : wsum (s_events s) + 4 * (length src - pos s) <= W
}.
(** The containers of verbatim text, before a format is read. *)
Definition plain_verb (c : icont) : bool := match c with CVerbatim | CInlineMath | CDisplayMath => true | _ => false end.
Lemma plain_is_verb c : plain_verb c = true -> is_verb_cont c = true.
Proof. destruct c; auto. Qed.
(** Inside verbatim text. *)
(** The opening delimiter of verbatim text, with [n] backticks. *)
Definition vfence (nc : list bytes) (ty : icont) (o : bytes) (n : nat) : Prop :=
  opens_with (pub nc ty) o /\ 1 <= n /\ exists d, Forall (fun c => c = "$"%char) d /\ o = d ++ repeat "`"%char n.
Record Vrb (src : bytes) (P : list span) (lo hi W : nat) (s : istate) (v : vstate) : Prop := mkVrb {
  v_lex : LexI src P hi (s_in s);
  v_verb : s_verb s = Some v;
  v_attr : s_attr s = None;
  v_evs : exists A a ph ty sp Z, s_events s = A ++ IE IPlaceholder (Sp ph ph) :: IE (IEnter ty) sp :: Z /\
    vs_opener v = S (length A) /\ zip src (s_cow s) (s_attrs s) (lstart s) lo (s_openers s) A a /\ a <= ph /\
    span_ok src (Sp ph ph) /\ ph <= ss sp /\ span_ok src sp /\ plain_verb ty = true /\ vfence (s_cow s) ty (slice src sp) (vs_len v) /\ strs Z /\
    bal src (s_cow s) (s_attrs s) (se sp) Z (pos s) /\
    (forall k skip, vs_last v = Some (k, skip) -> length A + 2 <= skip <= length (s_events s));
  v_wt : wsum (s_events s) + 1 + 4 * (length src - pos s) <= W
}.
(** The element that the attributes at [q] belong to. *)
Definition elem_at (src : bytes) (nc : list bytes) (al : list attrs) (ls lo : nat) (ops : list (opener * nat)) (evs : list iev) (q : nat) (ty : elem_type) : Prop :=
  match ty with
  | ElemWord => True
  | ElemContainer p =>
      exists A a ph kx sx Z b ky sy, evs = A ++ IE IPlaceholder (Sp ph ph) :: IE kx sx :: Z ++ [IE ky sy] /\ p = length A /\
        zip src nc al ls lo ops A a /\ a <= ph /\ span_ok src (Sp ph ph) /\ ph <= ss sx /\ span_ok src sx /\
        bal src nc al (se sx) Z b /\ b <= ss sy /\ span_ok src sy /\ se sy = q /\
        ((kx = IStr /\ ky = IStr /\ (exists t, op_text (OpSpan t) (slice src sx)) /\ slice src sy = B "]") \/
         exists c, kx = IEnter c /\ ky = IExit c /\ cidx c nc /\ (texty_cont c = false \/ strs Z) /\
           opens_with (pub nc c) (slice src sx) /\ icloser src nc c (vopen c (slice src sx) ++ itexts src Z) (slice src sy) /\ iattr c = true /\ c <> CSpan)
  end.
(** Between [{] and the end of an attribute set, more lines needed. *)
Record Wat (src : bytes) (P : list span) (lo hi W : nat) (s : istate) (st : attr_state) (fed : bool) : Prop := mkWat {
  w_lex : LexI src P hi (s_in s);
  w_verb : s_verb s = None;
  w_attr : s_attr s = Some st;
  w_zip : evz src lo s (pos s);
  w_last : lastok src (s_events s);
  w_wt : wsum (s_events s) + 4 * (length src - pos s) <= W;
  w_tok : exists l', lex_next (i_lex (s_in s)) = Ok (Some (Tok (LOpen Brace) 1), l');
  w_elem : elem_at src (s_cow s) (s_attrs s) (lstart s) lo (s_openers s) (s_events s) (pos s) (as_elem st);
  w_more : fed = false -> P <> [];
  w_scan : exists ah l, i_ahead (s_in s) = (if fed then ah ++ [l] else ah) /\
     let LL := Sp (pos s) (se (i_line (s_in s))) :: ah in
     acc_at src LL (pos s) st /\ nth_error src (as_end st) = Some "{"%char /\ as_lines st <= length ah /\ answer src LL (length ah) 0 None (as_val st)
}.
(** A token has been read: the span is the token. *)
Record Mid (src : bytes) (P : list span) (lo hi W q : nat) (first : token) (s : istate) : Prop := mkMid {
  m_lex : LexI src P hi (s_in s);
  m_verb : s_verb s = None;
  m_attr : s_attr s = None;
  m_pos : ss (s_span s) = q;
  m_zip : evz src lo s q;
  m_last : lastok src (s_events s);
  m_wt : wsum (s_events s) + 4 * (length src - q) <= W;
  m_len : q < pos s;
  m_span : span_ok src (Sp q (pos s));
  m_low : ss (i_line (s_in s)) <= q \/ two_sets src;
  m_brk : tk first = LOpen Bracket -> op_text (OpSpan SpGeneral) (slice src (Sp q (pos s)));
  m_tok : tk first <> LOpen Bracket ->
     pos s = q + tlen first /\ kind_text (tk first) (slice src (Sp q (pos s))) (lx_rest (i_lex (s_in s))) /\
     (tk first <> LText -> lx_next (i_lex (s_in s)) = None)
}.
Definition Buf src P lo hi W s : Prop := Rdy src P lo hi W s \/ exists v, Vrb src P lo hi W s v.

(** Result of one of the [parse_*] functions started in [s0] at position [q]. *)
Definition Post (src : bytes) (P : list span) (lo hi W q : nat) (first : token) (s0 : istate) (r : option flow * istate) : Prop :=
  let (o, s) := r in
  ext s0 s /\ length (i_ahead (s_in s)) <= length (i_ahead (s_in s0)) /\
  match o with
  | None => Mid src P lo hi W q first s
  | Some FContinue => Buf src P lo hi W s /\ q < pos s
  | Some FMore => exists st, Wat src P lo hi W s st false
  | Some _ => False
  end.
