(** * PropsOut: the HTML of every event (C41) *)
From Verif Require Import Base Lex Attr Block Inline Doc Html Lib SpecAttr SpecDoc SpecHtml SpecOut PHtml6 PDoc6 PropsDoc PropsHtml POut.
Local Open Scope nat_scope.

(** For every nested event sequence that keeps to the containment rules: the minified page is made of the HTML of
    its events, in order, and of the endnotes, where the footnotes are numbered by the order of first reference. *)
Theorem C41_page : forall evs, document evs -> well_placed [] evs = true ->
  exists s a inner order,
    evs = Start Document a :: inner ++ [End_ Document] /\
    (let (body, notes) := separate [] inner in numbered notes (add_new [] (labels_of (drop_defs false body))) 0 order) /\
    render_events (r_new None) evs = Ok (s, page order inner).
Proof.
  intros evs (a & inner & -> & Hnd & Hn) Hw. destruct (out_document a inner Hnd Hn Hw) as (s & final & H1 & H2).
  exists s, a, inner, final. split; [reflexivity|]. split; [|exact H2]. rewrite (surjective_pairing (separate [] inner)). exact H1.
Qed.
(** For documents: every source is rendered to the page of its events. *)
Theorem C41_document : forall src evs, utf8 src -> parse src = Ok evs ->
  exists s a inner order,
    evs = Start Document a :: inner ++ [End_ Document] /\
    (let (body, notes) := separate [] inner in numbered notes (add_new [] (labels_of (drop_defs false body))) 0 order) /\
    render_events (r_new None) evs = Ok (s, page order inner).
Proof. intros src evs Hu E. apply C41_page; [eapply C04_renderable; eauto|eapply C10_containment; eauto]. Qed.

(** The default rendering is the page with line breaks inserted around block tags and line breaks. *)
Theorem C41_default : forall src evs out, utf8 src -> parse src = Ok evs -> html_of src = Ok out ->
  exists a inner order oms os,
    evs = Start Document a :: inner ++ [End_ Document] /\
    (let (body, notes) := separate [] inner in numbered notes (add_new [] (labels_of (drop_defs false body))) 0 order) /\
    page order inner = concat oms /\ out = concat os /\ lays [] evs oms os.
Proof.
  intros src evs out Hu E H. destruct (C41_document _ _ Hu E) as (s & a & inner & order & H1 & H2 & H3).
  unfold html_of in H. rewrite E in H. cbn [bind] in H. unfold render_to_string in H. apply bind_ok in H as ([s' o] & H & Ho). injection Ho as <-.
  destruct (C27_layout [] 0 evs s' o H) as (m & om & oms & os & L1 & L2 & L3 & L4). rewrite H3 in L1. injection L1 as <- <-.
  exists a, inner, order, oms, os. auto.
Qed.

(** A document with most constructs, and its page. *)
Definition out_doc : bytes := nls [ B "{#i k=""<v>""}"; B "# a *b*"; []; B "::: c"; B "{.k}"; B "- [x] t & u"; B "- [ ] v"; B ":::"; []; B "a[^n] ![x<y _z_](/z){t=u} :s: [q](r)\"; B "``c``... $`x`"; []; B "[^n]: f[^m]"; [];
  B "  ``` rs"; B "  i<j"; B "  ```"; []; B "| a | b |"; B "|---|:-:|"; B "| c | d |"; []; B "iv) p"; []; B "    q"; []; B "***"; []; B "[z]: y"; []; B "<a@b>" ].
Definition out_html : bytes :=
  B "<section id=""i"" k=""&lt;v&gt;""><h1>a <strong>b</strong></h1><div class=""c""><ul class=""ktask-list""><li><input disabled="""" type=""checkbox"" checked=""""/>t &amp; u</li>"
  ++ B "<li><input disabled="""" type=""checkbox""/>v</li></ul></div><p>a<a id=""fnref1"" href=""#fn1"" role=""doc-noteref""><sup>1</sup></a> <img t=""u"" alt=""x&lt;y z"" src=""/z""> :s: <a href=""r"">q</a><br>"
  ++ B "<code>c</code>… <span class=""math inline"">\(x\)</span></p><table><tr><th>a</th><th style=""text-align: center;"">b</th></tr><tr><td>c</td><td style=""text-align: center;"">d</td></tr></table>"
  ++ B "<ol start=""4"" type=""i""><li>p" ++ B "q</li></ol><hr><p><a href=""mailto:a@b"">a@b</a></p></section>"
  ++ B "<section role=""doc-endnotes""><hr><ol><li id=""fn1""><p>f<a id=""fnref2"" href=""#fn2"" role=""doc-noteref""><sup>2</sup></a></p><pre><code class=""language-rs"">i&lt;j" ++ [NL] ++ B "</code></pre><p><a href=""#fnref1"" role=""doc-backlink"">↩︎</a></p></li><li id=""fn2""><p><a href=""#fnref2"" role=""doc-backlink"">↩︎</a></p></li></ol></section>".
Definition out_evs : list event := Eval vm_compute in match parse out_doc with Ok evs => evs | _ => [] end.
Example C41_ex : utf8 out_doc /\ parse out_doc = Ok out_evs /\ (exists s, render_events (r_new None) out_evs = Ok (s, out_html)) /\
  page [B "n"; B "m"] (removelast (tl out_evs)) = out_html.
Proof.
  split; [unfold out_doc, nls; cbn; repeat first [apply u_nil | apply u_1; [vm_compute; split; discriminate|] ]|].
  split; [vm_compute; reflexivity|]. split; [|vm_compute; reflexivity].
  assert (H : match render_events (r_new None) out_evs with Ok (_, o) => Some o | _ => None end = Some out_html) by (vm_compute; reflexivity).
  destruct (render_events (r_new None) out_evs) as [[s o]| |]; try discriminate H. injection H as ->. eauto.
Qed.

(** *** What one would expect, and does not hold *)
(** The class of a math span or task list is not separated from its written one: [.a] gives [class="amath inline"]. *)
Theorem C41_class_refuted : exists out, html_of (B "$`x`{.a}") = Ok out /\
  out = B "<p><span class=""amath inline"">\(x\)</span></p>" ++ [NL] /\ out <> B "<p><span class=""a math inline"">\(x\)</span></p>" ++ [NL].
Proof. exists (B "<p><span class=""amath inline"">\(x\)</span></p>" ++ [NL]). split; [vm_compute; reflexivity|]. split; [reflexivity|]. discriminate. Qed.

Definition PropsOut_all := (@C41_page, @C41_document, @C41_default, @C41_ex, @C41_class_refuted).
Print Assumptions PropsOut_all.
