(** * PropsDoc: the theorems about whole documents (C01-C10, C14, C29, C33, C37) *)
From Verif Require Import Base Lex Attr Block Inline Doc Html Lib SpecAttr SpecDoc PAttr PSafe PBlock2 PDoc4 PDoc5 PDoc6 PropsHtml.
From Verif Require PTree3.
Local Open Scope nat_scope.

(** A document with headings of several levels, a section with attributes, nested lists, a table with a
    caption, a code block, a footnote, references and multi-byte text. *)
Definition nls (ls : list bytes) : bytes := concat (map (fun l => l ++ [NL]) ls).
Definition ex_doc : bytes := nls
  [ B "{.c}"; B "# One *a*"; []; B "para [t][r] `v` x[^n] a--b {=m=}"; []; B "## Two"; []; B "- a"; []; B "  > q";
    []; B "- [ ] b"; []; B "| h | i |"; B "|---|--:|"; B "| c | d |"; B "^ cap _e_"; []; B "```"; B " co*de*"; B "```"; [];
    B "[^n]: note"; []; B "[r]: /u"; []; B ": t"; []; B "  d"; []; B "# One *a*"; []; ["227"; "129"; "130"]%char ].
Lemma ex_doc_utf8 : utf8 ex_doc.
Proof.
  unfold ex_doc, nls. cbn. repeat first [apply u_nil | apply u_1; [vm_compute; split; discriminate|] ].
  apply u_3b; [left|..]; try (vm_compute; split; discriminate). apply u_1; [vm_compute; split; discriminate|]. apply u_nil.
Qed.
Definition ex_evs : list (event * span) := match parse_spans ex_doc with Ok l => l | _ => [] end.
Lemma ex_parse : parse_spans ex_doc = Ok ex_evs.
Proof. unfold ex_evs. destruct (parse_spans ex_doc) eqn:E; [reflexivity|exfalso; revert E; vm_compute; discriminate..]. Qed.

(** ** C01: parsing fails only at two integer widths *)
(** The level of a heading is 16 bits wide, and so is the depth of a list: for a document with a run of
    65536 '#', or one that is long enough to open 65535 containers at once, the theorem allows the
    conversions at block.rs:428 and block.rs:630 to panic. Nothing else panics, whatever the document. *)
Theorem C01_no_panic : forall src, utf8 src ->
  (exists evs, parse_spans src = Ok evs) \/
  (parse_spans src = Panic "block.rs:428" /\ exists a n b, src = a ++ repeat "#"%char n ++ b /\ (65536 <= N.of_nat n)%N) \/
  (parse_spans src = Panic "block.rs:630" /\ (65536 <= N.of_nat (2 * length src + 3))%N).
Proof.
  intros src Hu. destruct (doc_ok src (utf8_wfb _ Hu)) as [(bl & D & H & hd & O & HD)|(m & E & [[-> L]|[-> L]])].
  - left. exists O. apply (d_spans _ _ _ _ _ _ HD).
  - right; left. auto.
  - right; right. auto.
Qed.
Corollary C01_small : forall src, utf8 src -> (N.of_nat (length src) <= 32766)%N -> exists evs, parse_spans src = Ok evs.
Proof.
  intros src Hu Hl. destruct (C01_no_panic src Hu) as [H|[(_ & a & n & b & -> & H)|(_ & H)]]; [auto|exfalso..].
  - rewrite !app_length, repeat_length in Hl. lia.
  - lia.
Qed.
Example C01_ex : utf8 ex_doc /\ (N.of_nat (length ex_doc) <= 32766)%N.
Proof. split; [apply ex_doc_utf8|vm_compute; discriminate]. Qed.

(** ** C02: the events of every document end *)
Theorem C02_terminates : forall src, utf8 src -> parse_spans src <> Fuel.
Proof. intros src Hu E. destruct (C01_no_panic src Hu) as [[evs H]|[[H _]|[H _]]]; congruence. Qed.

(** The link definitions and headings found before the events are reported. *)
Definition pre_of (src : bytes) : prepass := match p_new src with Ok (pp, _) => pp | _ => PP [] [] [] end.
Lemma spans_ok src evs : utf8 src -> parse_spans src = Ok evs -> gq src (pre_of src) GRoot 0 evs GDone (length src).
Proof.
  intros Hu E. destruct (doc_ok src (utf8_wfb _ Hu)) as [(bl & D & H & hd & O & HD)|(m & E' & _)].
  - pose proof (d_spans _ _ _ _ _ _ HD) as E2. rewrite E in E2. injection E2 as ->. destruct (d_new _ _ _ _ _ _ HD) as (s & En). unfold pre_of. rewrite En. apply (d_gq _ _ _ _ _ _ HD).
  - congruence.
Qed.
Lemma parse_evs src evs : utf8 src -> parse src = Ok evs -> exists O, evs = map fst O /\ gq src (pre_of src) GRoot 0 O GDone (length src).
Proof.
  intros Hu E. unfold parse in E. apply bind_ok in E. destruct E as (O & E & E2). injection E2 as <-. exists O. split; [auto|]. apply spans_ok; auto.
Qed.

(** ** C03, C04: nesting *)
Theorem C03_nesting : forall src evs, utf8 src -> parse src = Ok evs -> nest [] evs = Some [].
Proof.
  intros src evs Hu E. destruct (parse_evs _ _ Hu E) as (O & -> & G). apply nestd_nest.
  pose proof (gq_nestd _ _ _ _ _ _ _ G [] [] I) as H. rewrite app_nil_r in H. exact H.
Qed.
Theorem C04_document : forall src evs, utf8 src -> parse src = Ok evs ->
  exists inner, evs = Start Document [] :: inner ++ [End_ Document] /\ no_document inner.
Proof.
  intros src evs Hu E. destruct (parse_evs _ _ Hu E) as (O & -> & G). destruct (gq_root _ _ _ _ _ G) as (sp & inner & m & q & sp' & -> & G1).
  exists (map fst inner). split; [cbn [map fst]; rewrite map_app; reflexivity|]. intros e He.
  destruct (gq_nodoc _ _ _ _ _ _ _ G1) as [H _]; [discriminate|]. rewrite Forall_forall in H. apply H in He. exact He.
Qed.
(** The form that the theorems about rendering ask for. *)
Lemma nestd_bottom l : no_document l -> forall st X, nestd (st ++ [Document]) l = Some X -> exists st', X = st' ++ [Document] /\ nestd st l = Some st'.
Proof.
  induction l as [|e l IH]; intros Hn st X H; [injection H as <-; eauto|].
  assert (Hn' : no_document l) by (intros x Hx; apply Hn; right; auto). pose proof (Hn e (or_introl eq_refl)) as He.
  destruct e; cbn [nestd] in *; try (apply (IH Hn' st X H)).
  - destruct st as [|p st]; cbn [app] in H.
    + apply (IH Hn' [c] X H).
    + destruct p; try discriminate H; apply (IH Hn' (c :: _ :: st) X H).
  - destruct st as [|p st]; cbn [app] in H.
    + destruct (container_eq_dec c Document) as [-> |]; [contradiction|discriminate].
    + destruct (container_eq_dec c p); [|discriminate]. apply (IH Hn' st X H).
Qed.
Theorem C04_renderable : forall src evs, utf8 src -> parse src = Ok evs -> document evs.
Proof.
  intros src evs Hu E. destruct (parse_evs _ _ Hu E) as (O & -> & G). destruct (gq_root _ _ _ _ _ G) as (sp & inner & m & q & sp' & -> & G1).
  assert (Hn : no_document (map fst inner)).
  { intros e He. destruct (gq_nodoc _ _ _ _ _ _ _ G1) as [H _]; [discriminate|]. rewrite Forall_forall in H. apply H in He. exact He. }
  exists [], (map fst inner). split; [cbn [map fst]; rewrite map_app; reflexivity|]. split; [auto|].
  pose proof (gq_nestd _ _ _ _ _ _ _ G1 [Document] [] eq_refl) as H1. rewrite app_nil_r in H1. cbn [nestd] in H1.
  destruct (nestd_bottom _ Hn [] _ H1) as (st' & E1 & E2). destruct st' as [|x st']; [auto|]. destruct st'; discriminate.
Qed.
(** The whole way from the source to HTML: it fails only where parsing fails. *)
Theorem C37_html_total : forall src, utf8 src -> (N.of_nat (length src) <= 32766)%N -> exists out, html_of src = Ok out.
Proof.
  intros src Hu Hl. destruct (C01_small src Hu Hl) as [O E]. unfold html_of.
  assert (Ep : parse src = Ok (map fst O)) by (unfold parse; rewrite E; reflexivity). rewrite Ep. cbn [bind].
  pose proof (C04_renderable src _ Hu Ep) as HD. unfold render_to_string. destruct (C37_render_total (Some ([], 0)) _ HD) as (s & o & H).
  change r_default with (r_new (Some ([], 0))). rewrite H. cbn [bind]. eauto.
Qed.

(** ** C05-C09: ranges and text *)
Theorem C05_ranges_valid : forall src evs, utf8 src -> parse_spans src = Ok evs ->
  forall e sp, List.In (e, sp) evs -> ss sp <= se sp /\ se sp <= length src.
Proof.
  intros src evs Hu E e sp Hin. pose proof (gq_ok _ _ _ _ _ _ _ (spans_ok _ _ Hu E)) as H. rewrite Forall_forall in H.
  destruct (H _ Hin) as [(H1 & H2 & _) _]. auto.
Qed.
(** Captions apart, each range starts at or after the end of every earlier one; within a caption too. *)
Lemma ordered_later lo a e sp b : ordered lo (a ++ (e, sp) :: b) -> lo <= ss sp /\ ss sp <= se sp /\ ordered (se sp) b.
Proof.
  revert lo. induction a as [|[e' sp'] a IH]; intros lo H; cbn [app ordered] in H; [auto|]. destruct H as (H1 & H2 & H3).
  destruct (IH _ H3) as (H4 & H5 & H6). repeat split; auto; lia.
Qed.
Theorem C06_ranges_ordered : forall src evs, utf8 src -> parse_spans src = Ok evs ->
  forall a e1 sp1 b e2 sp2 c, without_captions false evs = a ++ (e1, sp1) :: b ++ (e2, sp2) :: c -> se sp1 <= ss sp2.
Proof.
  intros src evs Hu E a e1 sp1 b e2 sp2 c H. pose proof (gq_ordered _ _ _ _ _ _ _ (spans_ok _ _ Hu E) [] I) as HO. rewrite app_nil_r in HO.
  rewrite H in HO. apply ordered_later in HO. destruct HO as (_ & _ & HO). apply ordered_later in HO. apply HO.
Qed.
Lemma caps_later a : forall at_ sp r, caps_ordered (a ++ (Start Caption at_, sp) :: r) -> ss sp <= se sp /\ ordered (se sp) (caption_at r).
Proof. induction a as [|[e s] a IH]; intros at_ sp r H; cbn [app caps_ordered] in H; destruct H as [H1 H2]; [auto|]. eapply IH; eauto. Qed.
Theorem C06_caption_ordered : forall src evs, utf8 src -> parse_spans src = Ok evs ->
  forall a at_ sp r, evs = a ++ (Start Caption at_, sp) :: r ->
  forall b e1 sp1 c e2 sp2 d, (Start Caption at_, sp) :: caption_at r = b ++ (e1, sp1) :: c ++ (e2, sp2) :: d -> se sp1 <= ss sp2.
Proof.
  intros src evs Hu E a at_ sp r -> b e1 sp1 c e2 sp2 d H. pose proof (gq_caps _ _ _ _ _ _ _ (spans_ok _ _ Hu E) [] I) as HO. rewrite app_nil_r in HO.
  apply caps_later in HO. destruct HO as [H1 H2]. assert (HO : ordered (ss sp) ((Start Caption at_, sp) :: caption_at r)) by (cbn [ordered]; auto).
  rewrite H in HO. apply ordered_later in HO. destruct HO as (_ & _ & HO). apply ordered_later in HO. apply HO.
Qed.
(** The source can be cut at both ends of a range: the parts are UTF-8 again. *)
Lemma is_cont_rng lo hi c : rng lo hi c -> (128 <= lo)%N -> (hi <= 191)%N -> is_cont c = true.
Proof. unfold rng, is_cont, in_range. intros [H1 H2] H3 H4. apply andb_true_intro. split; apply N.leb_le; lia. Qed.
Lemma boundary_S c r i : boundary (c :: r) (S i) = boundary r i.
Proof. reflexivity. Qed.
Lemma utf8_cut src : utf8 src -> forall i, boundary src i = true -> utf8 (firstn i src) /\ utf8 (skipn i src).
Proof.
  assert (HC : forall lo hi c (r : bytes), rng lo hi c -> (128 <= lo)%N -> (hi <= 191)%N -> boundary (c :: r) 0 = true -> False).
  { intros lo hi c r H1 H2 H3 H4. cbn in H4. rewrite (is_cont_rng _ _ _ H1 H2 H3) in H4. discriminate. }
  induction 1 as [|c s Hc Hs IH|c d s Hc Hd Hs IH|c d e s Hc Hd He Hs IH|c d e s Hc Hd He Hs IH|c d e s Hc Hd He Hs IH
    |c d e f s Hc Hd He Hf Hs IH|c d e f s Hc Hd He Hf Hs IH|c d e f s Hc Hd He Hf Hs IH]; intros i Hb.
  { rewrite firstn_nil, skipn_nil. split; constructor. }
  all: destruct i as [|i]; [split; [constructor|cbn [skipn]; first [apply u_1; assumption | apply u_2; assumption | apply u_3a; assumption | apply u_3b; assumption | apply u_3c; assumption | apply u_4a; assumption | apply u_4b; assumption | apply u_4c; assumption]]|]; rewrite boundary_S in Hb.
  { destruct (IH i Hb). split; [apply u_1|]; auto. }
  all: destruct i as [|i]; [exfalso; eapply HC; [exact Hd|..|exact Hb]; discriminate|]; rewrite boundary_S in Hb.
  { destruct (IH i Hb). split; [apply u_2|]; auto. }
  all: destruct i as [|i]; [exfalso; eapply HC; [exact He|..|exact Hb]; discriminate|]; rewrite boundary_S in Hb.
  1,2,3: destruct (IH i Hb); split; [|auto]; [first [apply u_3a; assumption | apply u_3b; assumption | apply u_3c; assumption]].
  all: destruct i as [|i]; [exfalso; eapply HC; [exact Hf|..|exact Hb]; discriminate|]; rewrite boundary_S in Hb;
    destruct (IH i Hb); split; [|auto]; first [apply u_4a; assumption | apply u_4b; assumption | apply u_4c; assumption].
Qed.
Lemma boundary_skipn (src : bytes) : forall a b, a <= b -> boundary src b = true -> boundary (skipn a src) (b - a) = true.
Proof.
  induction src as [|c r IH]; intros a b Hab H.
  - unfold boundary in H. destruct b; cbn in H; [|discriminate]. replace a with 0 by lia. reflexivity.
  - destruct a as [|a]; [rewrite Nat.sub_0_r; exact H|]. destruct b as [|b]; [lia|]. cbn [skipn Nat.sub]. apply IH; [lia|exact H].
Qed.
Theorem C07_character_boundaries : forall src evs, utf8 src -> parse_spans src = Ok evs ->
  forall e sp, List.In (e, sp) evs -> exists a b c, src = a ++ b ++ c /\ length a = ss sp /\ length (a ++ b) = se sp /\ utf8 a /\ utf8 b /\ utf8 c.
Proof.
  intros src evs Hu E e sp Hin. pose proof (gq_ok _ _ _ _ _ _ _ (spans_ok _ _ Hu E)) as H. rewrite Forall_forall in H.
  destruct (H _ Hin) as [(H1 & H2 & H3 & H4) _]. cbn [snd] in *.
  destruct (utf8_cut src Hu _ H3) as [U1 U2]. pose proof (boundary_skipn _ _ _ H1 H4) as H5. destruct (utf8_cut _ U2 _ H5) as [U3 U4].
  exists (firstn (ss sp) src), (firstn (se sp - ss sp) (skipn (ss sp) src)), (skipn (se sp - ss sp) (skipn (ss sp) src)).
  rewrite !firstn_skipn. repeat split; auto; rewrite ?app_length, !firstn_length, ?skipn_length; lia.
Qed.
Theorem C08_no_empty_text : forall src evs, utf8 src -> parse src = Ok evs -> ~ List.In (Str []) evs.
Proof.
  intros src evs Hu E Hin. destruct (parse_evs _ _ Hu E) as (O & -> & G). apply in_map_iff in Hin. destruct Hin as ([e sp] & He & Hin). cbn in He. subst e.
  pose proof (gq_ok _ _ _ _ _ _ _ G) as H. rewrite Forall_forall in H. destruct (H _ Hin) as [_ [_ H1]]. congruence.
Qed.
Theorem C09_text_is_source : forall src evs, utf8 src -> parse_spans src = Ok evs ->
  forall t sp, List.In (Str t, sp) evs -> exists a b, src = a ++ t ++ b /\ length a = ss sp /\ length (a ++ t) = se sp.
Proof.
  intros src evs Hu E t sp Hin. pose proof (gq_ok _ _ _ _ _ _ _ (spans_ok _ _ Hu E)) as H. rewrite Forall_forall in H.
  destruct (H _ Hin) as [(H1 & H2 & _) [H3 _]]. cbn [snd] in *. subst t. unfold slice.
  exists (firstn (ss sp) src), (skipn (se sp - ss sp) (skipn (ss sp) src)).
  rewrite !firstn_skipn. repeat split; auto; rewrite ?app_length, !firstn_length, ?skipn_length; lia.
Qed.

(** ** C10, C14, C33: what may stand where *)
Theorem C10_containment : forall src evs, utf8 src -> parse src = Ok evs -> well_placed [] evs = true.
Proof.
  intros src evs Hu E. destruct (parse_evs _ _ Hu E) as (O & -> & G).
  pose proof (gq_wp _ _ _ _ _ _ _ G [] [] I) as H. rewrite app_nil_r in H. exact H.
Qed.
(** Reading [well_placed] at one event: the open containers are those of [nest]. *)
Lemma well_placed_at a : forall st e b st', well_placed st (a ++ e :: b) = true -> nest st a = Some st' ->
  match st' with [] => exists x, e = Start Document x | p :: _ => may_contain p e = true end.
Proof.
  induction a as [|x a IH]; intros st e b st' H Hn; cbn [app well_placed nest] in *.
  - injection Hn as <-. apply andb_true_iff in H. destruct H as [H _]. destruct st; [|auto]. destruct e; try discriminate. destruct c; try discriminate. eauto.
  - apply andb_true_iff in H. destruct H as [H1 H2]. destruct x; try (eapply IH; eauto; fail). destruct st as [|p st]; [discriminate|]. destruct (container_eq_dec c p); [|discriminate].
    eapply IH; eauto.
Qed.
(** What comes directly inside what: for any prefix of the events, with [p] the innermost container
    open after it, the next event may stand in [p]. *)
Theorem C10_directly_inside : forall src a e b p st, utf8 src -> parse src = Ok (a ++ e :: b) -> nest [] a = Some (p :: st) -> may_contain p e = true.
Proof. intros src a e b p st Hu E Hn. exact (well_placed_at a [] e b (p :: st) (C10_containment _ _ Hu E) Hn). Qed.
Theorem C33_cell_head : forall src a al h at_ b p st, utf8 src -> parse src = Ok (a ++ Start (TableCell al h) at_ :: b) -> nest [] a = Some (p :: st) ->
  p = TableRow h.
Proof.
  intros src a al h at_ b p st Hu E Hn. pose proof (C10_directly_inside _ _ _ _ _ _ Hu E Hn) as H. cbn in H. destruct p; try discriminate.
  apply Bool.eqb_prop in H. congruence.
Qed.
(** Inside a code block, a raw block and a link definition there is only text. *)
Theorem C29_only_text : forall src a e b p st, utf8 src -> parse src = Ok (a ++ e :: b) -> nest [] a = Some (p :: st) -> literal_leaf p = true ->
  (exists t, e = Str t) \/ e = End_ p.
Proof.
  intros src a e b p st Hu E Hn Hl. pose proof (C10_directly_inside _ _ _ _ _ _ Hu E Hn) as H.
  destruct p; try discriminate Hl; destruct e; try discriminate H; eauto; try (destruct c; try discriminate H; destruct has_section; discriminate H).
  all: pose proof (C03_nesting _ _ Hu E) as H3; rewrite nest_app, Hn in H3; cbn [nest] in H3; destruct (container_eq_dec c _) as [-> |]; [auto|discriminate].
Qed.
Theorem C14_sections : forall src evs, utf8 src -> parse src = Ok evs -> sections [] None evs = true.
Proof.
  intros src evs Hu E. destruct (parse_evs _ _ Hu E) as (O & -> & G). destruct (gq_root _ _ _ _ _ G) as (sp & inner & m & q & sp' & -> & G1).
  pose proof (gq_sections _ _ _ _ _ _ _ G1) as (m' & _ & H). cbn [map fst]. rewrite map_app.
  change (sections [] None (Start Document [] :: ?r)) with (sections [] None r). specialize (H [] [End_ Document] eq_refl). unfold PDoc6.evs in H.
  cbn [map fst]. rewrite H. reflexivity.
Qed.
Example Doc_ex : exists evs, parse ex_doc = Ok evs /\ length evs = 121 /\ well_placed [] evs = true /\ sections [] None evs = true /\ nest [] evs = Some [].
Proof.
  exists (map fst ex_evs). assert (E : parse ex_doc = Ok (map fst ex_evs)) by (unfold parse; rewrite ex_parse; reflexivity).
  split; [auto|]. split; [vm_compute; reflexivity|]. pose proof ex_doc_utf8 as Hu.
  split; [eapply C10_containment; eauto|]. split; [eapply C14_sections; eauto|eapply C03_nesting; eauto].
Qed.

Definition PropsDoc_all := (@C01_no_panic, @C01_small, @C02_terminates, @C03_nesting, @C04_document, @C04_renderable, @C37_html_total, @C05_ranges_valid, @C06_ranges_ordered, @C06_caption_ordered, @C07_character_boundaries, @C08_no_empty_text, @C09_text_is_source, @C10_containment, @C10_directly_inside, @C33_cell_head, @C29_only_text, @C14_sections).
Print Assumptions PropsDoc_all.
