(** * PropsHtml: the theorems about rendering (C22, C24-C27, C30, C31, C37) *)
From Verif Require Import Base Attr Block Inline Doc Html Lib SpecAttr SpecDoc SpecHtml PHtml PHtml2 PHtml3 PHtml4 PHtml5 PHtml6 PHtml7 PropsAttr.
Local Open Scope nat_scope.

(** ** C22: text is inert *)
Theorem C22_text_inert s : inert false (write_text s) /\ decode (write_text s) = s.
Proof. split; [apply inert_escape|apply decode_escape]. Qed.
Print Assumptions C22_text_inert.
Theorem C22_attribute_inert s : inert true (write_attr s) /\ decode (write_attr s) = s.
Proof. split; [apply inert_escape|apply decode_escape]. Qed.
Print Assumptions C22_attribute_inert.
(** An attribute of an element: the value between the quotes is inert and denotes the displayed value. *)
Lemma escape_concat q l : concat (map (escape q) l) = escape q (concat l).
Proof. induction l as [|x l IH]; [reflexivity|]. cbn [map concat]. rewrite IH, escape_app. reflexivity. Qed.
Theorem C22_attribute_value k v :
  exists w, write_pair (fun _ => []) (k, v) = [SP] ++ k ++ B "=" ++ [DQ] ++ w ++ [DQ] /\
            inert true w /\ decode w = concat (parts v).
Proof.
  exists (write_attr (concat (parts v))). unfold write_pair. cbn [fst snd app].
  unfold write_attr. rewrite escape_concat. split; [reflexivity|]. split; [apply inert_escape|apply decode_escape].
Qed.
Print Assumptions C22_attribute_value.
Example C22_ex : write_attr (B "a<b & ""c"">") = B "a&lt;b &amp; &quot;c&quot;&gt;".
Proof. reflexivity. Qed.

(** ** C37: rendering a document never fails, whatever the indentation *)
Theorem C37_render_total ind evs : document evs -> exists s o, render_events (r_new ind) evs = Ok (s, o).
Proof.
  intros (a & inner & -> & H1 & H2).
  destruct (render_document ind a inner H1 H2) as (s & o & outs & tail & final & H & _). eauto.
Qed.
Print Assumptions C37_render_total.

(** ** C25: rendering terminates, for any events *)
Theorem C25_terminates ind evs : render_events (r_new ind) evs <> Fuel.
Proof. apply render_events_nofuel. split; intros ? ? []. Qed.
Print Assumptions C25_terminates.

(** The order of the notes is determined by the events. *)
Theorem C25_order_unique notes refs i f1 f2 : numbered notes refs i f1 -> numbered notes refs i f2 -> f1 = f2.
Proof.
  intros H. revert f2. induction H; intros f2 H2.
  - inversion H2; subst; auto. assert (length refs < length refs); [apply nth_error_Some; congruence|lia].
  - inversion H2; subst.
    + assert (length f2 < length f2); [apply nth_error_Some; congruence|lia].
    + apply IHnumbered. congruence.
Qed.
Print Assumptions C25_order_unique.

(** ** C24, C25, C30: the output of a document *)
(** The output is the concatenation of the outputs of the events outside footnotes, followed by the
    endnotes: one item for each referenced label, in the order [final], with the number of the label. *)
Theorem C25_endnotes ind a inner : no_document inner -> nestd [] inner = Some [] ->
  let body := fst (separate [] inner) in
  let notes := snd (separate [] inner) in
  exists s o outs tail final t,
    render_events (r_new ind) (Start Document a :: inner ++ [End_ Document]) = Ok (s, o) /\
    render_list (r_new ind) body = Ok (t, outs) /\
    o = concat outs ++ tail /\
    numbered notes (add_new [] (labels_of (drop_defs false body))) 0 final /\
    tail_spec (ind_of (r_new ind)) notes final tail.
Proof.
  intros H1 H2 body notes.
  destruct (render_document ind a inner H1 H2) as (s & o & outs & tail & final & E1 & (t & E2) & E3 & E4 & E5 & E6 & E7).
  exists s, o, outs, tail, final, t. auto 10.
Qed.
Print Assumptions C25_endnotes.

(** The number printed for a reference is the position of its label in a list without repetitions that
    starts with the labels referenced in the text, in order of first reference. *)
Theorem C24_numbers ind a inner : no_document inner -> nestd [] inner = Some [] ->
  let body := fst (separate [] inner) in
  let notes := snd (separate [] inner) in
  exists s o outs tail final t,
    render_events (r_new ind) (Start Document a :: inner ++ [End_ Document]) = Ok (s, o) /\
    render_list (r_new ind) body = Ok (t, outs) /\
    o = concat outs ++ tail /\
    NoDup final /\ prefix (add_new [] (labels_of (drop_defs false body))) final /\
    Forall2 (ref_out final) body outs /\ texts_ok [] body outs /\
    tail_spec (ind_of (r_new ind)) notes final tail.
Proof.
  intros H1 H2 body notes.
  destruct (render_document ind a inner H1 H2) as (s & o & outs & tail & final & E1 & (t & E2) & E3 & E4 & E5 & E6 & E7).
  exists s, o, outs, tail, final, t. repeat (split; [eassumption|]).
  split; [eapply numbered_nodup; [exact E4|apply add_new_nodup; constructor]|].
  split; [eapply numbered_prefix; exact E4|]. auto.
Qed.
Print Assumptions C24_numbers.
(** Different labels get different numbers: [final] has no repetitions. *)
Theorem C24_distinct (final : list bytes) (i j : nat) (l : bytes) : NoDup final -> nth_error final i = Some l -> nth_error final j = Some l -> i = j.
Proof. intros H H1 H2. apply (proj1 (NoDup_nth_error _) H); [apply nth_error_Some; congruence|congruence]. Qed.
Print Assumptions C24_distinct.
(** [add_new] lists the labels in order of first appearance. *)
Theorem C24_first_order (ls1 : list bytes) (l : bytes) (ls2 : list bytes) : ~ List.In l ls1 ->
  exists x y, add_new [] (ls1 ++ l :: ls2) = x ++ l :: y /\ (forall k, List.In k x <-> List.In k ls1) /\ ~ List.In l y.
Proof.
  intros H. rewrite add_new_app. cbn [add_new].
  destruct (in_dec (list_eq_dec ascii_dec) l (add_new [] ls1)) as [Hin|Hin].
  { apply add_new_in in Hin. destruct Hin as [[]|Hin]. contradiction. }
  destruct (add_new_ext (add_new [] ls1 ++ [l]) ls2) as (y & E & _).
  assert (Hn : NoDup (add_new (add_new [] ls1 ++ [l]) ls2)).
  { apply add_new_nodup. pose proof (add_new_nodup [] (ls1 ++ [l]) (NoDup_nil _)) as Hn. rewrite add_new_app in Hn.
    cbn [add_new] in Hn. destruct (in_dec (list_eq_dec ascii_dec) l (add_new [] ls1)); [contradiction|exact Hn]. }
  exists (add_new [] ls1), y. rewrite E in *. rewrite <- app_assoc in *. split; [reflexivity|]. split.
  - intros k. rewrite add_new_in. cbn. tauto.
  - apply NoDup_remove_2 in Hn. intros Hy. apply Hn. apply in_app_iff. auto.
Qed.
Print Assumptions C24_first_order.

(** A document with circular footnotes: [a[^x] [^y]], where the note of [x] refers to [y] and [z], and the
    note of [y] to [x]. *)
Definition ex_para (evs : list event) : list event := [Start Paragraph []] ++ evs ++ [End_ Paragraph].
Definition ex_notes : list event :=
  ex_para [Str (B "a"); FootnoteReference (B "x"); FootnoteReference (B "y")]
  ++ [Start (Footnote (B "x")) []] ++ ex_para [FootnoteReference (B "y"); FootnoteReference (B "z")] ++ [End_ (Footnote (B "x"))]
  ++ [Start (Footnote (B "y")) []] ++ ex_para [FootnoteReference (B "x")] ++ [End_ (Footnote (B "y"))].
Example C25_ex_hyp : no_document ex_notes /\ nestd [] ex_notes = Some [].
Proof.
  split; [|vm_compute; reflexivity]. intros e He. vm_compute in He. repeat (destruct He as [<-|He]; [exact I|]). destruct He.
Qed.
Example C25_ex_order :
  numbered (snd (separate [] ex_notes)) (add_new [] (labels_of (drop_defs false (fst (separate [] ex_notes))))) 0 [B "x"; B "y"; B "z"].
Proof.
  replace (add_new [] _) with [B "x"; B "y"] by (vm_compute; reflexivity).
  eapply num_step; [reflexivity|].
  replace (add_new [B "x"; B "y"] _) with [B "x"; B "y"; B "z"] by (vm_compute; reflexivity).
  eapply num_step; [reflexivity|].
  replace (add_new [B "x"; B "y"; B "z"] _) with [B "x"; B "y"; B "z"] by (vm_compute; reflexivity).
  eapply num_step; [reflexivity|].
  replace (add_new [B "x"; B "y"; B "z"] _) with [B "x"; B "y"; B "z"] by (vm_compute; reflexivity).
  apply (num_done _ [B "x"; B "y"; B "z"]).
Qed.

(** ** C30: raw text *)
(** Every text event outside footnotes, and every text event of a footnote that is written (in the item
    of the footnote), is written as [text_out] says, according to the containers it is in. *)
Theorem C30_text_out ind a inner : no_document inner -> nestd [] inner = Some [] ->
  exists s o outs tail final t,
    render_events (r_new ind) (Start Document a :: inner ++ [End_ Document]) = Ok (s, o) /\
    render_list (r_new ind) (fst (separate [] inner)) = Ok (t, outs) /\
    o = concat outs ++ tail /\ texts_ok [] (fst (separate [] inner)) outs /\
    tail_spec (ind_of (r_new ind)) (snd (separate [] inner)) final tail.
Proof.
  intros H1 H2.
  destruct (render_document ind a inner H1 H2) as (s & o & outs & tail & final & E1 & (t & E2) & E3 & E4 & E5 & E6 & E7).
  exists s, o, outs, tail, final, t. auto 10.
Qed.
Print Assumptions C30_text_out.
(** Unescaped text comes from a raw container with format html. *)
Theorem C30_unescaped_only_raw_html st t :
  (exists st', (st = RawBlock (B "html") :: st' \/ st = RawInline (B "html") :: st') /\ text_out st t = t) \/
  text_out st t = [] \/
  (exists q, inert q (text_out st t) /\ decode (text_out st t) = t).
Proof.
  assert (He : forall q, exists q', inert q' (escaped q t) /\ decode (escaped q t) = t).
  { intros q. exists q. rewrite <- escape_escaped. split; [apply inert_escape|apply decode_escape]. }
  destruct st as [|c st]; [right; right; apply He|].
  destruct c; try (right; right; apply He); try (right; left; reflexivity); cbn [text_out];
    (destruct (in_image st); [right; right; apply He|]); destruct (list_eq_dec ascii_dec format (B "html")) as [->|];
    try (right; left; reflexivity); left; eauto.
Qed.
Print Assumptions C30_unescaped_only_raw_html.
(** Raw text of another format is not written, except inside the text of an image, where raw text of any
    format is written, escaped. *)
Theorem C30_raw_other_hidden st f t : f <> B "html" -> in_image st = false ->
  text_out (RawBlock f :: st) t = [] /\ text_out (RawInline f :: st) t = [].
Proof. intros Hf Hi. cbn [text_out]. rewrite Hi. destruct (list_eq_dec ascii_dec f (B "html")); [contradiction|auto]. Qed.
Print Assumptions C30_raw_other_hidden.
Theorem C30_raw_in_image st f t : in_image st = true ->
  text_out (RawBlock f :: st) t = escaped true t /\ text_out (RawInline f :: st) t = escaped true t.
Proof. intros Hi. cbn [text_out]. rewrite Hi. auto. Qed.
Print Assumptions C30_raw_in_image.
Theorem C30_raw_in_image_refuted :
  ~ (forall src o pre f a t post, html_of src = Ok o ->
       parse src = Ok (pre ++ Start (RawInline f) a :: Str t :: post) -> f <> B "html" ->
       ~ exists x y, o = x ++ t ++ y).
Proof.
  intros H.
  assert (E : html_of (B "![`zz`{=latex}](u)") = Ok (B "<p><img alt=""zz"" src=""u""></p>" ++ [NL])) by (vm_compute; reflexivity).
  assert (P : exists post a, parse (B "![`zz`{=latex}](u)") =
    Ok ([Start Document []; Start Paragraph []; Start (Image (B "u") LInline) []] ++ Start (RawInline (B "latex")) a :: Str (B "zz") :: post))
    by (do 2 eexists; vm_compute; reflexivity).
  destruct P as (post & a & P). apply (H _ _ _ _ _ _ _ E P); [discriminate|].
  exists (B "<p><img alt="""), (B """ src=""u""></p>" ++ [NL]). vm_compute. reflexivity.
Qed.
Print Assumptions C30_raw_in_image_refuted.

(** ** C26: composition *)
Theorem C26_composition s a b :
  render_events s (a ++ b) =
  (let! (s1, o1) := render_events s a in let! (s2, o2) := render_events s1 b in Ok (s2, o1 ++ o2)).
Proof. apply render_events_app. Qed.
Print Assumptions C26_composition.
(** What has been written is not changed by later events, and an earlier success is not undone. *)
Theorem C26_prefix s a b s2 o : render_events s (a ++ b) = Ok (s2, o) ->
  exists s1 o1 o2, render_events s a = Ok (s1, o1) /\ render_events s1 b = Ok (s2, o2) /\ o = o1 ++ o2.
Proof.
  rewrite render_events_app. intros H. apply bind_ok in H. destruct H as ([s1 o1] & H1 & H).
  apply bind_ok in H. destruct H as ([s2' o2] & H2 & H). injection H as <- <-. eauto 10.
Qed.
Print Assumptions C26_prefix.
(** One event at a time. *)
Theorem C26_one_by_one s evs :
  render_events s evs = (let! (s', os) := render_list s evs in Ok (s', concat os)).
Proof. apply render_list_events. Qed.
Print Assumptions C26_one_by_one.

(** ** C27: indentation *)
Theorem C27_layout ind level evs s o : render_events (r_new (Some (ind, level))) evs = Ok (s, o) ->
  exists m om oms os, render_events (r_new None) evs = Ok (m, om) /\
    om = concat oms /\ o = concat os /\ lays ind evs oms os.
Proof.
  rewrite !render_list_events. intros H. apply bind_ok in H. destruct H as ([s' os] & H1 & H). injection H as <- <-.
  destruct (render_list_sim ind evs (r_new (Some (ind, level))) 0 _ _ eq_refl H1) as (m' & oms & E & L).
  exists m', (concat oms), oms, os. change (r_new None) with (mini (r_new (Some (ind, level))) 0). rewrite E. auto.
Qed.
Print Assumptions C27_layout.
Example C27_ex :
  let evs := Start Document [] :: ex_notes ++ [End_ Document] in
  (exists s o, render_events (r_new (Some (B "  ", 1))) evs = Ok (s, o) /\ starts_with o (B "  <p>a<a id=") = true) /\
  (exists s o, render_events (r_new None) evs = Ok (s, o) /\ starts_with o (B "<p>a<a id=") = true).
Proof. split; do 2 eexists; (split; [vm_compute; reflexivity|vm_compute; reflexivity]). Qed.

(** ** C31: link definitions and footnotes leave no trace in place *)
Definition is_note_event (e : event) : bool :=
  match e with Start (Footnote _) _ | End_ (Footnote _) => true | _ => false end.
Definition is_def_event (e : event) : bool :=
  match e with Start (LinkDefinition _) _ | End_ (LinkDefinition _) => true | _ => false end.

Lemma pre_state ind pre s o : no_doc_end pre = true -> forallb (fun e => negb (is_note_event e)) pre = true ->
  render_events (r_new ind) pre = Ok (s, o) -> f_open (r_foot s) = [] /\ r_ignore s = ign_after false pre.
Proof.
  intros Hd Hn H. apply render_refs in H; auto.
  - destruct H as (_ & -> & ->). auto.
  - intros e l Hin. rewrite forallb_forall in Hn. specialize (Hn e Hin).
    destruct e as [c a|c| | | | | | | | | | | | | | | | |]; try destruct c; cbn in *; congruence.
Qed.
Lemma ign_none pre b : forallb (fun e => negb (is_def_event e)) pre = true -> ign_after b pre = b.
Proof.
  revert b; induction pre as [|e pre IH]; intros b H; [reflexivity|]. cbn [forallb] in H. apply andb_prop in H. destruct H as [H1 H2].
  rewrite ign_after_cons. destruct e as [c a|c| | | | | | | | | | | | | | | | |]; try destruct c; cbn in *; try discriminate; auto.
Qed.
Lemma ignored s mid : f_open (r_foot s) = [] -> r_ignore s = true ->
  forallb (fun e => negb (is_note_event e || is_def_event e || doc_end e)) mid = true -> render_events s mid = Ok (s, []).
Proof.
  intros Ho Hi. induction mid as [|e mid IH]; intros H; [reflexivity|]. cbn [forallb] in H. apply andb_prop in H. destruct H as [H1 H2].
  apply negb_true_iff, orb_false_elim in H1. destruct H1 as [H1 Hd].
  cbn [render_events]. rewrite render_event_body by auto.
  replace (rbody s e) with (Ok (s, @nil ascii)).
  - cbn [bind]. rewrite IH by auto. reflexivity.
  - unfold rbody, rview. rewrite Ho, Hi. destruct e as [c a|c| | | | | | | | | | | | | | | | |]; try destruct c; cbn in *; try discriminate; auto.
Qed.

(** A link definition outside footnotes can be taken out of the events without any effect. *)
Theorem C31_definition ind pre l a mid l' post :
  forallb (fun e => negb (is_note_event e || is_def_event e || doc_end e)) pre = true ->
  forallb (fun e => negb (is_note_event e || is_def_event e || doc_end e)) mid = true ->
  render_events (r_new ind) (pre ++ (Start (LinkDefinition l) a :: mid ++ [End_ (LinkDefinition l')]) ++ post) =
  render_events (r_new ind) (pre ++ post).
Proof.
  intros Hp Hm. rewrite !render_events_app.
  assert (Hp1 : no_doc_end pre = true /\ forallb (fun e => negb (is_note_event e)) pre = true /\ forallb (fun e => negb (is_def_event e)) pre = true).
  { unfold no_doc_end. rewrite !forallb_forall in *. repeat split; intros e He; specialize (Hp e He);
    apply negb_true_iff, orb_false_elim in Hp; destruct Hp as [Hp1 Hp2]; apply orb_false_elim in Hp1; destruct Hp1; apply negb_true_iff; auto. }
  destruct Hp1 as (P1 & P2 & P3).
  apply bind_ext. intros [s o] E. destruct (pre_state _ _ _ _ P1 P2 E) as [Ho Hi]. rewrite (ign_none pre false P3) in Hi.
  assert (Ed : render_events s (Start (LinkDefinition l) a :: mid ++ [End_ (LinkDefinition l')]) = Ok (s, [])).
  { cbn [render_events]. rewrite render_event_body by reflexivity. unfold rbody at 1, rview. cbn [kind_of]. rewrite Ho. cbn [bind].
    rewrite render_events_app, (ignored (r_set_ignore s true)) by auto. cbn [bind render_events]. rewrite render_event_body by reflexivity.
    unfold rbody, rview. cbn [kind_of r_set_ignore r_foot]. rewrite Ho. cbn [bind app].
    change (R (r_indent s) (r_depth s) (r_raw s) (r_img s) (r_tight s) (r_first s) true (r_foot s)) with (r_set_ignore s true).
    rewrite r_set_ignore_twice, <- Hi, r_set_ignore_id. reflexivity. }
  rewrite render_events_app, Ed. cbn [bind]. rewrite bind_id. reflexivity.
Qed.
Print Assumptions C31_definition.

(** The events of a footnote produce no output at that point: the output of the events up to the end of
    the document is that of the events outside footnotes. *)
Theorem C31_footnotes ind evs s o : no_doc_end evs = true -> render_events (r_new ind) evs = Ok (s, o) ->
  exists s', render_events (r_new ind) (fst (separate [] evs)) = Ok (s', o).
Proof.
  intros Hd H. rewrite (render_separate evs (r_new ind) Hd) in H.
  change (f_open (r_foot (r_new ind))) with (@nil (bytes * list event)) in H.
  change (set_notes (r_new ind) [] (f_events (r_foot (r_new ind)))) with (r_new ind) in H.
  apply bind_ok in H. destruct H as ([s1 o1] & H1 & H). cbn in H. injection H as <- <-. eauto.
Qed.
Print Assumptions C31_footnotes.
Example C31_ex : fst (separate [] ex_notes) = ex_para [Str (B "a"); FootnoteReference (B "x"); FootnoteReference (B "y")].
Proof. reflexivity. Qed.
