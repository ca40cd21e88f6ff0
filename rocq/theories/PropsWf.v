(** * PropsWf: rendered HTML is well-formed (C23) *)
From Verif Require Import Base Lex Attr Block Inline Doc Html Lib SpecAttr SpecDoc SpecHtml SpecWf PHtml6 PWf PWf4.
Local Open Scope nat_scope.

(** For every nested event sequence that keeps to the containment rules and whose names are name characters, and
    for every indentation, minified or not: if the indentation string itself has no markup, the output is a
    sequence of text and of elements with matching tags and quoted attributes. *)
Theorem C23_well_formed : forall indent evs s out,
  document evs -> well_placed [] evs = true -> Forall event_names evs ->
  match indent with Some (i, _) => Forall (fun c => c <> "<"%char /\ c <> ">"%char /\ c <> DQ) i | None => True end ->
  render_events (r_new indent) evs = Ok (s, out) -> well_formed out.
Proof.
  intros ind evs s o HD HP HN HI HR. eapply wf_document; eauto. destruct ind as [[i n]|]; [exact HI|constructor].
Qed.

Definition ex_list := ListC (LkUnordered BuDash) true.
Definition ex_img := Image (B "u") LInline.
Definition ex_body : list event :=
  [Start (Div (B "warn")) [(KId, B "a<b"); (KPair (B "data-x"), B "<q>")];
   Start ex_list []; Start ListItem []; Start Paragraph []; Str (B "a <b> & c"); FootnoteReference (B "n"); End_ Paragraph; End_ ListItem; End_ ex_list;
   Start Paragraph []; Start ex_img []; Str (B "al"); Start Strong []; Str (B "t"); End_ Strong; End_ ex_img; Symbol (B "smile"); End_ Paragraph; ThematicBreak [];
   End_ (Div (B "warn"));
   Start (Footnote (B "n")) []; Start Paragraph []; Str (B "note"); End_ Paragraph; End_ (Footnote (B "n"))].
Example C23_ex : exists evs s out, evs = Start Document [] :: ex_body ++ [End_ Document] /\
  document evs /\ well_placed [] evs = true /\ Forall event_names evs /\ render_events (r_new (Some (B "  ", 1))) evs = Ok (s, out) /\ 300 <= length out.
Proof.
  eexists _, _, _. split; [reflexivity|]. split; [|split; [reflexivity|split; [|split; [vm_compute; reflexivity|apply Nat.leb_le; vm_compute; reflexivity]]]].
  - exists [], ex_body. split; [reflexivity|]. split; [|reflexivity]. intros e He. cbn in He. repeat (destruct He as [<-|He]; [try split; discriminate|]). destruct He.
  - assert (K0 : keys_ok []) by (intros ? ? []).
    assert (K1 : keys_ok [(KId, B "a<b"); (KPair (B "data-x"), B "<q>")]).
    { intros k v [H|[H|[]]]; [discriminate|]. injection H as <- _. split; [discriminate|]. repeat (apply Forall_cons; [first [left; reflexivity | right; right; right; reflexivity]|]). constructor. }
    assert (KD : Forall name_char (B "warn")) by (repeat (apply Forall_cons; [left; reflexivity|]); constructor).
    assert (KS : event_names (Symbol (B "smile"))) by (repeat (apply Forall_cons; [left; left; reflexivity|]); constructor).
    cbn [app ex_body]. repeat (apply Forall_cons; [first [exact I | exact K0 | exact (conj K0 I) | exact (conj K1 KD) | exact KS]|]).
    constructor.
Qed.

Print Assumptions C23_well_formed.
