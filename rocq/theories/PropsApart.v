(** * PropsApart: consecutive blocks are separated as the syntax says (C44) *)
From Verif Require Import Base Lex Attr Block Inline Doc Lib SpecAttr SpecBlock SpecDoc SpecSrc SpecApart PAttr PSafe PBlock2 PDoc2 PDoc4 PDoc5 PropsDoc PApart.
Local Open Scope nat_scope.

(** Leaving out the sections without attributes, what comes right after the end of a block may follow it: after a paragraph
    a blank line, or the end of what it stands in; after a heading neither a paragraph nor a heading of the
    same level; after a quote neither a paragraph nor a quote; after a table no table; after a list no list
    of the same kind (ordered lists apart) -- unless attributes stand in between. *)
Theorem C44_apart : forall src evs A c sp e sp' Z, utf8 src -> parse_spans src = Ok evs ->
  filter (shown src) evs = A ++ (End_ c, sp) :: (e, sp') :: Z -> after_block src c e sp'.
Proof.
  intros src evs A c sp e sp' Z Hu HP E. pose proof (doc_apart src evs (utf8_wfb _ Hu) HP) as H. rewrite E in H. apply pwalk_app in H.
  destruct H as [_ (_ & H & _)]. exact H.
Qed.

(** *** Non-trivial cases *)
Definition ap_doc := nls [B "# h"; B "> a"; B "> b"; B "- c"; B "* d"; B ""; B "| e |"; B ""; B "| f |"].
Definition ap_evs : list (event * span) := Eval vm_compute in match parse_spans ap_doc with Ok e => e | _ => [] end.
Lemma ap_utf8 : utf8 ap_doc.
Proof. unfold ap_doc, nls. cbn. repeat first [apply u_nil | apply u_1; [vm_compute; split; discriminate|] ]. Qed.
(** What follows the end of the heading, the first paragraph, the quote, the lists, the tables. *)
Fixpoint ends_with (c : container -> bool) (l : list (event * span)) : list event :=
  match l with
  | (End_ x, _) :: (((e, _) :: _) as r) => (if c x then [e] else []) ++ ends_with c r
  | _ :: r => ends_with c r
  | [] => []
  end.
Example C44_ex : utf8 ap_doc /\ parse_spans ap_doc = Ok ap_evs /\
  let F := filter (shown ap_doc) ap_evs in
  ends_with (fun c => match c with Heading _ _ _ => true | _ => false end) F = [Start Blockquote []] /\
  ends_with (fun c => match c with Paragraph => true | _ => false end) F = [End_ Blockquote; End_ ListItem; Blankline] /\
  ends_with (fun c => match c with Blockquote => true | _ => false end) F = [Start (ListC (LkUnordered BuDash) true) []] /\
  ends_with (fun c => match c with ListC _ _ => true | _ => false end) F = [Start (ListC (LkUnordered BuStar) true) []; Start Table []] /\
  ends_with (fun c => match c with Table => true | _ => false end) F = [Blankline; End_ Document].
Proof. split; [apply ap_utf8|]. split; [vm_compute; reflexivity|]. cbv zeta. repeat split; vm_compute; reflexivity. Qed.

(** *** What one would expect, and does not hold *)
(** Attributes separate headings of the same level. *)
Definition ap2_doc := nls [B "> # a"; B "> {.x}"; B "> # b"].
Definition ap2_evs : list (event * span) := Eval vm_compute in match parse_spans ap2_doc with Ok e => e | _ => [] end.
Theorem C44_attributes_refuted : ~ (forall src evs A lv h i sp c a sp' Z, utf8 src -> parse_spans src = Ok evs ->
  filter (shown src) evs = A ++ (End_ (Heading lv h i), sp) :: (Start c a, sp') :: Z -> forall h' i', c <> Heading lv h' i').
Proof.
  intros H. assert (Hu : utf8 ap2_doc) by (unfold ap2_doc, nls; cbn; repeat first [apply u_nil | apply u_1; [vm_compute; split; discriminate|] ]).
  specialize (H ap2_doc ap2_evs (firstn 4 ap2_evs) 1 false (B "a") (Sp 6 6) (Heading 1 false (B "b")) [(KClass, B "x")] (Sp 8 16) (skipn 6 ap2_evs) Hu ltac:(vm_compute; reflexivity) ltac:(vm_compute; reflexivity)).
  exact (H false (B "b") eq_refl).
Qed.
(** Two ordered lists of the same kind can follow each other: in the first, [w.] continues [v.] as a letter,
    and [i.] does not continue [w.]. *)
Definition ap3_doc := nls [B "i. a"; B "v. b"; B "w. c"; B "i. d"].
Definition ap3_evs : list (event * span) := Eval vm_compute in match parse_spans ap3_doc with Ok e => e | _ => [] end.
Theorem C44_ordered_refuted : ~ (forall src evs A k t sp e sp' Z, utf8 src -> parse_spans src = Ok evs ->
  filter (shown src) evs = A ++ (End_ (ListC k t), sp) :: (e, sp') :: Z -> attributed src sp' \/ forall t' a, e <> Start (ListC k t') a).
Proof.
  intros H. assert (Hu : utf8 ap3_doc) by (unfold ap3_doc, nls; cbn; repeat first [apply u_nil | apply u_1; [vm_compute; split; discriminate|] ]).
  specialize (H ap3_doc ap3_evs (firstn 17 ap3_evs) (LkOrdered RomanLower OPeriod 1%N) true (Sp 15 15) (Start (ListC (LkOrdered RomanLower OPeriod 1%N) true) []) (Sp 15 15) (skipn 19 ap3_evs) Hu
    ltac:(vm_compute; reflexivity) ltac:(vm_compute; reflexivity)).
  destruct H as [H|H]; [discriminate H|exact (H true [] eq_refl)].
Qed.
Definition PropsApart_all := (@C44_apart, @C44_ex, @C44_attributes_refuted, @C44_ordered_refuted).
Print Assumptions PropsApart_all.
