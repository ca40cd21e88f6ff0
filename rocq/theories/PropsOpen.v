(** * PropsOpen: what looks like a block start is one (C45) *)
From Verif Require Import Base Lex Attr Block Inline Doc SpecAttr SpecBlock SpecOpen SpecSrc SpecMark SpecDoc Lib PAttr PMark POpen PropsDoc PropsMark.
Local Open Scope nat_scope.

(** ** C45: the line of a block has the syntax of such a block *)
Theorem C45_begins : forall src evs c a sp, utf8 src -> parse_spans src = Ok evs -> List.In (Start c a, sp) evs -> inline_box c = false ->
  exists m, begun src a sp m /\ begins src c (Sp m (se sp)).
Proof.
  intros src evs c a sp Hu E Hin Hb. destruct (closed _ _ _ _ _ Hu E Hin) as (A & M & sp' & Z & He & Hn).
  destruct (C40_marked _ _ _ _ _ _ _ _ _ Hu E He Hn Hb) as (m & H1 & _ & _ & H2). eauto.
Qed.
(** The first line of a paragraph begins with a character that is no blank, and begins no other block: a line that has
    the syntax of another block is never the first line of a paragraph. *)
Theorem C45_paragraph : forall src evs a sp, utf8 src -> parse_spans src = Ok evs -> List.In (Start Paragraph a, sp) evs ->
  exists e, se sp <= e /\ line_end src e /\ (forall i, se sp <= i -> S i < e -> nth_error src i <> Some NL) /\
    inked (slice src (Sp (se sp) e)) /\ ~ opener (slice src (Sp (se sp) e)).
Proof.
  intros src evs a sp Hu E Hin. destruct (C45_begins _ _ _ _ _ Hu E Hin eq_refl) as (m & _ & e & H1 & H2 & H3 & H4 & H5). exists e. auto.
Qed.
(** The line of a list item: the marker is that of its list (C40), whitespace follows it, the line is no thematic
    break, and a check box makes a task. *)
Theorem C45_item : forall src evs c a sp, utf8 src -> parse_spans src = Ok evs -> List.In (Start c a, sp) evs -> c = ListItem \/ (exists b, c = TaskListItem b) ->
  exists m e, begun src a sp m /\ se sp <= e /\ line_end src e /\ (forall i, se sp <= i -> S i < e -> nth_error src i <> Some NL) /\
    item_rest (slice src (Sp m (se sp))) (slice src (Sp (se sp) e)).
Proof.
  intros src evs c a sp Hu E Hin Hc. assert (Hb : inline_box c = false) by (destruct Hc as [-> | (b & ->)]; reflexivity).
  destruct (C45_begins _ _ _ _ _ Hu E Hin Hb) as (m & H0 & H). exists m. destruct Hc as [-> | (b & ->)]; destruct H as (e & H1 & H2 & H3 & H4); exists e; auto.
Qed.

(** Lines that look nearly like another block, each a paragraph. *)
Definition op_doc := nls [B "#tag"; []; B "1.5 is a number"; []; B ":x"; []; B ">no quote"; []; B "|half a row"; []; B "**bold"; []; B "[a] b"; []; B "`` code ``"; [];
  B "# head"; []; B "> quote"; []; B "- [ ] task"; []; B "- - -"; []; B "(iv) four"; []; B "| a |"].
Definition op_evs : list (event * span) := Eval vm_compute in match parse_spans op_doc with Ok e => e | _ => [] end.
Lemma op_utf8 : utf8 op_doc.
Proof. unfold op_doc, nls. cbn. repeat first [apply u_nil | apply u_1; [vm_compute; split; discriminate|] ]. Qed.
Definition starts_of (evs : list (event * span)) : list event :=
  flat_map (fun p => match fst p with Start Paragraph _ => [] | Start c a => if inline_box c then [] else [fst p] | ThematicBreak _ => [fst p] | _ => [] end) evs.
Definition line_of (src : bytes) (p : nat) : bytes := firstn (count_while (fun c => negb (beq c NL)) (skipn p src)) (skipn p src).
Example C45_ex : utf8 op_doc /\ parse_spans op_doc = Ok op_evs /\
  flat_map (fun p => match fst p with Start Paragraph _ => [line_of op_doc (se (snd p))] | _ => [] end) op_evs =
    [B "#tag"; B "1.5 is a number"; B ":x"; B ">no quote"; B "|half a row"; B "**bold"; B "[a] b"; B "`` code ``"; B "quote"; B "task"; B "four"] /\
  skipn 2 (starts_of op_evs) =
    [Start (Heading 1 true (B "head")) []; Start Blockquote []; Start (ListC (LkTask BuDash) true) []; Start (TaskListItem false) [];
     ThematicBreak []; Start (ListC (LkOrdered RomanLower OParenParen 4) true) []; Start ListItem []; Start Table []; Start (TableRow false) []; Start (TableCell AlUnspecified false) []].
Proof. split; [apply op_utf8|]. split; [vm_compute; reflexivity|]. split; vm_compute; reflexivity. Qed.
(** Lines of the other kind: each is a line that begins another block. *)
Example C45_openers : Forall opener [B "> quote"; B "## head"; B "* * *"; B "-"; B ": term"; B "(iv) four"; B "~~~ rust"; B "::: note"; B "[a b]: c"; B "| a | b |"].
Proof.
  repeat apply Forall_cons; [| | | | | | | | | | apply Forall_nil].
  - apply (op_quote (B " quote")). right. exists SP, (B "quote"). auto.
  - apply (op_heading 1 (B " head")). right. exists SP, (B "head"). auto.
  - apply (op_break "*"%char (B " * *")); [auto|]. split; [|vm_compute; auto]. repeat (apply Forall_cons; [first [left; reflexivity | right; right; reflexivity]|]). apply Forall_nil.
  - apply (op_bullet "-"%char []); [left; reflexivity|auto].
  - apply (op_term (B " term")). right. exists SP, (B "term"). auto.
  - apply (op_number RomanLower (B "iv") 4 OParenParen (B " four")); [|cbn; auto 20 with arith|right; exists SP, (B "four"); auto].
    split; [discriminate|]. split; [repeat constructor|vm_compute; reflexivity].
  - apply (op_code "~"%char 3 (B "rust")); [auto|auto| |repeat constructor; discriminate]. exists (B " "), []. repeat split; repeat constructor.
  - apply (op_div 3 (B "note")); [auto| |repeat constructor]. exists (B " "), []. repeat split; repeat constructor.
  - apply (op_def (B "a b") (B " c")). cbn. intros H. repeat destruct H as [H|H]; try discriminate H. exact H.
  - apply op_row. exists (B " a | b "), []. split; [reflexivity|]. split; [constructor|]. intros m' H. destruct (rev_case m') as [-> | (x & y & ->)]; apply (f_equal (@rev ascii)) in H; rewrite !rev_app_distr in H; discriminate H.
Qed.

(** *** What one would expect, and does not hold *)
(** A bullet before a line break is a list item, as it is at the end of the document. *)
Definition op2_doc := nls [B "-"; B "b"].
Definition op2_evs : list (event * span) := Eval vm_compute in match parse_spans op2_doc with Ok e => e | _ => [] end.
Theorem C45_bullet_refuted : ~ (forall src evs a sp c r, utf8 src -> parse_spans src = Ok evs -> List.In (Start Paragraph a, sp) evs ->
  bullet_at c -> gapped r -> skipn (se sp) src <> c :: r).
Proof.
  intros H. assert (Hu : utf8 op2_doc) by (unfold op2_doc, nls; cbn; repeat first [apply u_nil | apply u_1; [vm_compute; split; discriminate|] ]).
  apply (H op2_doc op2_evs [] (Sp 0 0) "-"%char (NL :: "b"%char :: [NL]) Hu); [vm_compute; reflexivity|vm_compute; auto|left; reflexivity|right; exists NL; eexists; split; reflexivity|reflexivity].
Qed.
(** A line of several attribute sets gives the next block its attributes, as a line with one does. *)
Definition op3_doc := nls [B "{.a}{.b}"; B "b"].
Definition op3_evs : list (event * span) := Eval vm_compute in match parse_spans op3_doc with Ok e => e | _ => [] end.
Theorem C45_sets_refuted : ~ (forall src evs a sp t s r, utf8 src -> parse_spans src = Ok evs -> List.In (Start Paragraph a, sp) evs ->
  gsets t s -> t <> [] -> skipn (se sp) src <> t ++ NL :: r).
Proof.
  intros H. assert (Hu : utf8 op3_doc) by (unfold op3_doc, nls; cbn; repeat first [apply u_nil | apply u_1; [vm_compute; split; discriminate|] ]).
  apply (H op3_doc op3_evs [] (Sp 0 0) (B "{.a}{.b}") ([(KClass, B "a")] ++ [(KClass, B "b")]) (B "b" ++ [NL]) Hu); [vm_compute; reflexivity|vm_compute; auto| |discriminate|reflexivity].
  assert (Hn : forall c, gname [c] -> gitems ("."%char :: [c] ++ B "}") ([(KClass, [c])] ++ [])) by (intros c Hc; apply gi_class; [exact Hc|right; reflexivity|apply gi_close]).
  assert (Hg : forall c, is_alnum c = true -> gname [c]) by (intros c Hc; split; [discriminate|constructor; [left; exact Hc|constructor] ]).
  apply (gs_more (B ".a}")); [apply (Hn "a"%char); apply Hg; reflexivity|]. apply (gs_one (B ".b}")); apply (Hn "b"%char); apply Hg; reflexivity.
Qed.
Definition PropsOpen_all := (@C45_begins, @C45_paragraph, @C45_item, @C45_ex, @C45_openers, @C45_bullet_refuted, @C45_sets_refuted).
Print Assumptions PropsOpen_all.
