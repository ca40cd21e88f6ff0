(** * PropsView: the lines of code blocks (C29) *)
From Verif Require Import Base Lex Attr Block Inline Doc Lib SpecAttr SpecBlock SpecDoc SpecSrc SpecMark SpecView PSafe PAttr PBlock2 PBlock3 PDoc2 PDoc4 PDoc5 PDoc6 PropsDoc PropsMark.
Local Open Scope nat_scope.

(** The views of the open containers. *)
Fixpoint vst (src : bytes) (b : list view) (st : list (container * nat)) : list view :=
  match st with
  | [] => b
  | (c, q) :: r => narrow src (box_of c) q (hd from_start (vst src b r)) :: vst src b r
  end.
Definition based (b : list view) : Prop := b = [] \/ b = [from_start].
Lemma vst_hd src b st : based b -> hd from_start (vst src b st) = fold_right (fun x v => narrow src (box_of (fst x)) (snd x) v) from_start st.
Proof. intros Hb. induction st as [|[c q] st IH]; cbn [vst fold_right hd fst snd]; [destruct Hb as [-> | ->]; reflexivity|]. rewrite IH. reflexivity. Qed.
Lemma vrun_split src B A : forall t st b, based b -> vrun src (A ++ B) t (vst src b st) ->
  exists t' b', based b' /\ vrun src B t' (vst src b' (open_boxes A t st)).
Proof.
  induction A as [|[e sp] A IH]; intros t st b Hb H; cbn [open_boxes]; [exists t, b; auto|].
  cbn [app vrun] in H. destruct e; try (eapply IH; eauto; fail).
  - apply proj2 in H. eapply IH; [exact Hb|exact H].
  - destruct st as [|[c0 q0] st]; [|eapply IH; [exact Hb|exact H]].
    apply (IH t [] []); [left; reflexivity|]. destruct Hb as [-> | ->]; exact H.
Qed.
Lemma doc_views src evs : utf8 src -> parse_spans src = Ok evs -> vrun src evs 0 [from_start].
Proof.
  intros Hu E. destruct (doc_ok src (utf8_wfb _ Hu)) as [(bl & D & H & hd & O & HD)|(m & E' & _)].
  - pose proof (d_spans _ _ _ _ _ _ HD) as E2. rewrite E in E2. injection E2 as ->. apply (d_views _ _ _ _ _ _ HD).
  - congruence.
Qed.
Lemma same_body c : forall M Z sp M' Z' sp', Forall is_str M -> nest [] (map fst M') = Some [] ->
  M ++ (End_ c, sp) :: Z = M' ++ (End_ c, sp') :: Z' -> M = M' /\ sp = sp'.
Proof.
  induction M as [|[e s] M IH]; intros Z sp M' Z' sp' HM Hn E.
  - destruct M' as [|[e' s'] M']; [injection E as <- _; auto|]. injection E as <- _ _. discriminate Hn.
  - destruct M' as [|[e' s'] M']; cbn [app] in E.
    + injection E as -> _ _. inversion HM as [|? ? X _]; contradiction.
    + injection E as <- <- E. inversion HM as [|? ? X Y]; subst. destruct e; try contradiction.
      destruct (IH Z sp M' Z' sp' Y Hn E) as [-> ->]. auto.
Qed.

(** ** C29: the lines of a code block are the source lines between its fences, each from where the content of the enclosing blocks
    begins, less the indentation of the fence, up to the end of the line *)
Theorem C29_lines : forall src evs A c a sp M sp' Z raw, utf8 src -> parse_spans src = Ok evs ->
  evs = A ++ (Start c a, sp) :: M ++ (End_ c, sp') :: Z -> nest [] (map fst M) = Some [] ->
  (exists w, c = CodeBlock w) /\ raw = false \/ (exists f, c = RawBlock f) /\ raw = true ->
  map snd M = code_content src (view_at src A) raw (se sp) (ss sp').
Proof.
  intros src evs A c a sp M sp' Z raw Hu E He Hn Hc. pose proof (doc_views _ _ Hu E) as H. rewrite He in H.
  change [from_start] with (vst src [from_start] []) in H.
  destruct (vrun_split src _ A 0 [] [from_start] (or_intror eq_refl) H) as (t & b & Hb & H1). cbn [vrun] in H1. destruct H1 as [H1 _].
  rewrite (vst_hd src b _ Hb) in H1. fold (view_at src A) in H1.
  destruct (H1 raw) as (M1 & sp1 & Z1 & E1 & S1 & V1); [destruct Hc as [[[w ->] ->]|[[f ->] ->]]; reflexivity|].
  symmetry in E1. destruct (same_body c _ _ _ _ _ _ S1 Hn E1) as [-> ->]. exact V1.
Qed.
(** Concretely: code blocks in a quote, a list item and a div, and in description details; here the views are not trivial. *)
Definition view_doc : bytes := nls
  [ B "> 1. a"; B ">"; B ">    ::: x"; B ">      ~~~ rs"; B ">        one"; B ">    two"; B ">"; B ">      ~~~"; B "- : t"; B ""; B "     ```=html"; B "    <b>"; B "      <c> "; B "" ].
Definition view_evs : list (event * span) := Eval vm_compute in match parse_spans view_doc with Ok e => e | _ => [] end.
Lemma view_utf8 : utf8 view_doc.
Proof. unfold view_doc, nls. cbn. repeat first [apply u_nil | apply u_1; [vm_compute; split; discriminate|] ]. Qed.
Lemma view_parse : parse_spans view_doc = Ok view_evs.
Proof. vm_compute. reflexivity. Qed.
Definition nth_sp (i : nat) : span := snd (nth i view_evs (Blankline, Sp 0 0)).
Example C29_lines_ex : 
  view_evs = firstn 9 view_evs ++ (Start (CodeBlock (B "rs")) [], nth_sp 9) :: firstn 3 (skipn 10 view_evs) ++ (End_ (CodeBlock (B "rs")), nth_sp 13) :: skipn 14 view_evs /\
  nest [] (map fst (firstn 3 (skipn 10 view_evs))) = Some [] /\
  map (slice view_doc) (code_content view_doc (view_at view_doc (firstn 9 view_evs)) false (se (nth_sp 9)) (ss (nth_sp 13))) = [ B " one" ++ [NL]; B "two" ++ [NL]; [NL] ] /\
  view_evs = firstn 26 view_evs ++ (Start (RawBlock (B "html")) [], nth_sp 26) :: firstn 2 (skipn 27 view_evs) ++ (End_ (RawBlock (B "html")), nth_sp 29) :: skipn 30 view_evs /\
  nest [] (map fst (firstn 2 (skipn 27 view_evs))) = Some [] /\
  map (slice view_doc) (code_content view_doc (view_at view_doc (firstn 26 view_evs)) true (se (nth_sp 26)) (ss (nth_sp 29))) = [ B "<b>" ++ [NL]; B " <c> " ++ [NL] ].
Proof. split; [vm_compute; reflexivity|]. split; [vm_compute; reflexivity|]. split; [vm_compute; reflexivity|]. split; [vm_compute; reflexivity|]. split; vm_compute; reflexivity. Qed.
(** The indentation of the fence is not always what is taken off: in a div, the indentation of the first line is not taken off
    (block.rs:589), so a fence on that line counts as deeper than it is.  Here the fence and the code are indented by one and three
    blanks, the div by one, but the text has one blank and not two. *)
Definition first_doc : bytes := nls [ B " :::"; B " ```"; B "   x"; B " ```"; B " :::" ].
Theorem C29_first_refuted : exists evs A a sp t s Z, parse_spans first_doc = Ok evs /\
  evs = A ++ (Start (CodeBlock []) a, sp) :: (Str t, s) :: (End_ (CodeBlock []), Sp 16 20) :: Z /\
  slice first_doc (Sp 5 10) = B " ```" ++ [NL] /\ se sp = 10 /\ slice first_doc (Sp 10 14) = B "   x" /\ t = B " x" ++ [NL].
Proof.
  exists (match parse_spans first_doc with Ok e => e | _ => [] end), (match parse_spans first_doc with Ok e => firstn 2 e | _ => [] end), [], (Sp 6 10), (B " x" ++ [NL]), (Sp 12 15), (match parse_spans first_doc with Ok e => skipn 5 e | _ => [] end).
  split; [vm_compute; reflexivity|]. split; [vm_compute; reflexivity|]. split; [vm_compute; reflexivity|]. split; [reflexivity|]. split; vm_compute; reflexivity.
Qed.
Definition PropsView_all := (@C29_lines, @C29_lines_ex, @C29_first_refuted).
Print Assumptions PropsView_all.
