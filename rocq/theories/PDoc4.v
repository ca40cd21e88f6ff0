(** * PDoc4: the grammar of the public events, and the trace of a whole document *)
From Verif Require Import Base Lex Attr Block Inline Doc SpecLex Lib SpecAttr PAttr PAttr3 PSafe SpecBlock PBlock1 PBlock2 PBlock3 PBlock4 PInl1 PInl2 PInl3 PInl4 PInl12 PGram PDoc1 PDoc2 PDoc3 SpecSrc SpecMark SpecView.
Local Open Scope nat_scope.

(** Where a public event stands (see [PGram.ctx]): a section's heading must have the section's id, a
    row's cells its head flag. *)
Inductive gctx :=
| GRoot | GDone | GTop (l : nat) (m : option nat) | GSec (L : nat) (id : bytes) | GFlow
| GList (cl : lclass) | GDesc | GTable (cap : bool) (als : list align) (due : tst) | GRow (head : bool) (als : list align).
Definition gflow (g : gctx) : Prop := g = GFlow \/ exists l, g = GTop l None.
Definition gokend (g : gctx) : Prop := match g with GSec _ _ | GRoot | GTable _ _ TDue => False | _ => True end.
Definition kclass (k : list_kind) : lclass := lt_class (kind_type k).
Definition item_class (c : lclass) : Prop := match c with LcUnordered _ | LcOrdered _ => True | _ => False end.
Definition class_mark (cl : lclass) (c : container) (t : bytes) : Prop :=
  match cl with
  | LcUnordered ch => t = [ch]
  | LcOrdered st => exists nb ds v, t = marker_text st ds /\ number_denotes nb ds v
  | LcTask ch => exists y, t = [ch; SP; "["%char; y; "]"%char] /\ (y = SP \/ y = "x"%char \/ y = "X"%char) /\ c = TaskListItem (negb (beq y SP))
  | LcDescription => True
  end.
Lemma class_item k c t : class_mark (kclass k) c t -> item_mark k c t.
Proof. destruct k; auto. Qed.

Inductive gleaf : gctx -> container -> attrs -> gctx -> Prop :=
| gl_para g a : gflow g -> gleaf g Paragraph a g
| gl_def g l a : gflow g -> gleaf g (LinkDefinition l) a g
| gl_code g l a : gflow g -> gleaf g (CodeBlock l) a g
| gl_raw g l a : gflow g -> gleaf g (RawBlock l) a g
| gl_head lv id a : 1 <= lv -> gleaf GFlow (Heading lv false id) a GFlow
| gl_sec L id : 1 <= L -> gleaf (GSec L id) (Heading L true id) [] (GTop L None)
| gl_cell als h : gleaf (GRow h als) (TableCell (hd AlUnspecified als) h) [] (GRow h (tl als)).
Inductive gcont : gctx -> container -> attrs -> gctx -> gctx -> Prop :=
| gc_doc : gcont GRoot Document [] (GTop 0 None) GDone
| gc_quote g a : gflow g -> gcont g Blockquote a GFlow g
| gc_div g c a : gflow g -> gcont g (Div c) a GFlow g
| gc_note g l a : gflow g -> gcont g (Footnote l) a GFlow g
| gc_list g k t a : gflow g -> gcont g (ListC k t) a (GList (kclass k)) g
| gc_desc g a : gflow g -> gcont g DescriptionList a GDesc g
| gc_item cl : item_class cl -> gcont (GList cl) ListItem [] GFlow (GList cl)
| gc_task ch b : gcont (GList (LcTask ch)) (TaskListItem b) [] GFlow (GList (LcTask ch))
| gc_table g a : gflow g -> gcont g Table a (GTable true [] T0) g
| gc_row b als d h als' : (h = false -> als' = als) -> d <> TDue -> gcont (GTable b als d) (TableRow h) [] (GRow h als') (GTable false als' (if h then TDue else TNone))
| gc_sec l m L id a : l < L -> (forall k, m = Some k -> L <= k) ->
    gcont (GTop l m) (Section_ id) a (GSec L id) (GTop l (Some L)).

Definition verbatim_leaf (c : container) : bool :=
  match c with LinkDefinition _ | CodeBlock _ | RawBlock _ => true | _ => false end.
Definition is_str (e : event * span) : Prop := match fst e with Str _ => True | _ => False end.
(** The events inside a leaf block. *)
Definition body (src : bytes) (pp : prepass) (c : container) (lo : nat) (O : list (event * span)) (hi : nat) : Prop :=
  (exists m, m <= hi /\ qsteps src pp (lo, []) O (m, [])) /\ (verbatim_leaf c = true -> Forall is_str O).
Definition blanks (l : list span) : list (event * span) := map (fun sp => (Blankline, sp)) l.

Inductive gq (src : bytes) (pp : prepass) : gctx -> nat -> list (event * span) -> gctx -> nat -> Prop :=
| g_nil g lo hi : lo <= hi -> gq src pp g lo [] g hi
| g_blank g lo sp r y hi : gflow g -> lo <= ss sp -> span_ok src sp -> gq src pp g (se sp) r y hi -> blanks_only (slice src sp) /\ line_end src (se sp) -> gq src pp g lo ((Blankline, sp) :: r) y hi
| g_break g lo a sp r y hi : gflow g -> lo <= ss sp -> span_ok src sp -> gq src pp g (se sp) r y hi -> written src a ->
    (exists m, begun src a sp m /\ break_text (slice src (Sp m (se sp))) /\ line_over src (se sp)) -> gq src pp g lo ((ThematicBreak a, sp) :: r) y hi
| g_attr g lo a sp r y hi : gflow g \/ (exists l m, g = GTop l m) -> lo <= ss sp -> span_ok src sp -> gq src pp g (se sp) r y hi -> written src a -> sets_text (slice src sp) ->
    gq src pp g lo ((Attributes a, sp) :: r) y hi
| g_leaf g lo c a sp O sp' g' r y hi : gleaf g c a g' -> lo <= ss sp -> span_ok src sp -> body src pp c (se sp) O (ss sp') -> span_ok src sp' ->
    gq src pp g' (se sp') r y hi -> written src a -> marked src c a sp O sp' -> gq src pp g lo ((Start c a, sp) :: O ++ (End_ c, sp') :: r) y hi
| g_sep b als due als' lo sp r y hi : lo <= ss sp -> span_ok src sp -> sep_row als' (slice src sp) -> (due = TDue -> als' = als) -> due <> TNone ->
    gq src pp (GTable b als' TNone) (se sp) r y hi -> gq src pp (GTable b als due) lo r y hi
| g_cap als lo sp O sp' r y hi : lo <= ss sp -> span_ok src sp -> body src pp Caption (se sp) O (ss sp') -> span_ok src sp' ->
    gq src pp (GTable false als T0) lo r y hi -> gq src pp (GTable true als T0) lo ((Start Caption [], sp) :: O ++ (End_ Caption, sp') :: r) y hi
| g_node g lo c a sp ic inner m q sp' g' r y hi : gcont g c a ic g' -> lo <= ss sp -> span_ok src sp ->
    gq src pp ic (se sp) inner m q -> gokend m -> q <= ss sp' -> span_ok src sp' -> gq src pp g' (se sp') r y hi -> written src a ->
    marked src c a sp inner sp' -> (forall cl, g = GList cl -> class_mark cl c (slice src sp)) ->
    gq src pp g lo ((Start c a, sp) :: inner ++ (End_ c, sp') :: r) y hi
| g_desc lo sp O sp1 bl sp2 inner m q sp3 r y hi : lo <= ss sp -> span_ok src sp -> body src pp DescriptionTerm (se sp) O (ss sp1) -> span_ok src sp1 ->
    Forall (span_ok src) bl -> chain (se sp1) bl (ss sp2) -> span_ok src sp2 ->
    gq src pp GFlow (se sp2) inner m q -> gokend m -> q <= ss sp3 -> span_ok src sp3 -> gq src pp GDesc (se sp3) r y hi ->
    slice src sp = B ":" /\ begins src DescriptionTerm sp -> empty sp3 /\ line_end src (se sp3) -> Forall (fun s => blanks_only (slice src s) /\ line_end src (se s)) bl ->
    gq src pp GDesc lo ((Start DescriptionTerm [], sp) :: O ++ (End_ DescriptionTerm, sp1) :: blanks bl ++ (Start DescriptionDetails [], sp2)
      :: inner ++ (End_ DescriptionDetails, sp3) :: r) y hi.

Lemma gq_lo src pp g lo O y hi : gq src pp g lo O y hi -> forall lo', lo' <= lo -> gq src pp g lo' O y hi.
Proof.
  induction 1; intros lo' Hlo; try (constructor; auto; lia).
  - eapply g_leaf; eauto; lia.
  - eapply g_sep; eauto; lia.
  - eapply g_node; eauto; lia.
  - eapply g_desc; eauto; lia.
Qed.

(** Section and heading starts that may carry an id: their id and attributes; link definitions: their
    label, URL and attributes. *)
Inductive mark (A : Type) := MHead (p : A) (a : attrs) | MDef (l url : bytes) (a : attrs).
Arguments MHead {A}. Arguments MDef {A}.
(** The text that comes next. *)
Fixpoint lead (O : list (event * span)) : list bytes := match O with (Str t, _) :: r => t :: lead r | _ => [] end.
Definition lead_url (O : list (event * span)) : bytes := concat (map (trim_m is_ws) (lead O)).
Fixpoint hstarts (O : list (event * span)) : list (mark bytes) :=
  match O with
  | [] => []
  | (e, _) :: r =>
      match e with
      | Start (Section_ id) a | Start (Heading _ false id) a => [MHead id a]
      | Start (LinkDefinition l) a => [MDef l (lead_url r) a]
      | _ => []
      end ++ hstarts r
  end.
Definition nostr (O : list (event * span)) : Prop := match O with (Str _, _) :: _ => False | _ => True end.
Lemma lead_app a b : nostr b -> lead (a ++ b) = lead a.
Proof. intros H. induction a as [|[e sp] a IH]; [destruct b as [|[[] ?] ?]; try reflexivity; contradiction|]. cbn [app lead]. destruct e; try reflexivity. rewrite IH. reflexivity. Qed.
Lemma hstarts_app a b : nostr b -> hstarts (a ++ b) = hstarts a ++ hstarts b.
Proof. intros H. induction a as [|[e sp] a IH]; [reflexivity|]. cbn [app hstarts]. unfold lead_url. rewrite IH, lead_app, app_assoc by auto. reflexivity. Qed.
Lemma hstarts_psteps src s O s' : psteps src s O s' -> hstarts O = [].
Proof.
  induction 1 as [|s e s1 E s2 H1 H2 IH]; [reflexivity|]. destruct e as [e0 sp0]. cbn [hstarts]. rewrite IH, app_nil_r.
  inversion H1; subst; auto; destruct e0 || destruct c; cbn in *; try discriminate; reflexivity.
Qed.
Lemma hstarts_blanks l : hstarts (blanks l) = [].
Proof. induction l; cbn; auto. Qed.
Fixpoint ilead (evs : list bev) : list span := match evs with BE BInline sp :: r => sp :: ilead r | _ => [] end.
(** The same from the block events, with the attributes [b] pending. *)
Fixpoint att (src : bytes) (b : attrs) (evs : list bev) : list (mark N) :=
  match evs with
  | [] => []
  | BE k sp :: r =>
      match k with
      | BAtom BAttributes => att src (if next_is_blank r then [] else b ++ attrs_at src sp) r
      | BEnter (NCont (BSection pos)) | BEnter (NLeaf (FHeading _ false pos)) => MHead pos b :: att src [] r
      | BEnter (NLeaf (FLinkDefinition l)) => MDef l (url_of src (ilead r)) b :: att src [] r
      | BStale | BInline => att src b r
      | _ => att src [] r
      end
  end.
Lemma att_inl src b l r : att src b (inl_evs l ++ r) = att src b r.
Proof. induction l; cbn; auto. Qed.
Lemma att_blank src l r : att src [] (blank_evs l ++ r) = att src [] r.
Proof. induction l; cbn; auto. Qed.
Lemma ilead_inl il n sp r : ilead (inl_evs il ++ BE (BExit n) sp :: r) = il.
Proof. induction il; cbn; [auto|]. fold (inl_evs il). rewrite IHil. reflexivity. Qed.

Lemma within_le src lo hi a : within src lo hi a -> lo <= hi.
Proof. induction 1 as [|lo sp a b hi H (H1 & H2 & _) _ IH]; lia. Qed.
Lemma within_app src lo m hi a b : within src lo m a -> within src m hi b -> within src lo hi (a ++ b).
Proof.
  intros H Hb. induction H as [lo m H|lo sp a a' m H H1 H2 IH]; cbn [app].
  - destruct Hb; [constructor; lia|]. econstructor; eauto. lia.
  - rewrite <- app_assoc. econstructor; eauto.
Qed.
Lemma within_hi src lo m hi a : within src lo m a -> m <= hi -> within src lo hi a.
Proof. intros H Hb. rewrite <- (app_nil_r a). eapply within_app; [exact H|]. constructor. exact Hb. Qed.
Lemma within_lo src lo m hi a : within src m hi a -> lo <= m -> within src lo hi a.
Proof. intros H Hb. change a with ([] ++ a). eapply within_app; [|exact H]. constructor. exact Hb. Qed.
Lemma within_written src lo hi a : within src lo hi a -> written src a.
Proof. induction 1; [constructor|]. econstructor; eauto. Qed.
Lemma aspan_within src sp : wfb src -> aspan src sp -> within src (ss sp) (se sp) (attrs_at src sp).
Proof.
  intros Hw [H1 H2]. pose proof H2 as [a1 G]. pose proof (attrs_parse_text src sp [] Hw H1 H2) as E.
  assert (Hw' : wfb (trim_end_m is_ws (slice src sp))) by (apply wfb_trim, wfb_slice; auto).
  rewrite attrs_parse_arun in E by auto. pose proof (verdict_acc (trim_end_m is_ws (slice src sp)) 0 AStart [] [] ltac:(lv)) as HV. cbn [Nat.add] in HV.
  rewrite (gsets_acc _ _ G) in HV. rewrite HV in E. cbn [app] in E. injection E as E. rewrite <- E, <- (app_nil_r a1).
  eapply (wi_set src _ (Sp (ss sp) (ss sp + length (trim_end_m is_ws (slice src sp))))); [cbn; lia| |].
  2:{ constructor. cbn [se]. pose proof (trim_end_spec is_ws (slice src sp)) as (z & Ez & _). pose proof (span_ok_len src sp H1) as Hl. pose proof (f_equal (@length ascii) Ez) as El. rewrite app_length in El. destruct H1 as (S1 & S2 & _). lia. }
  pose proof (trim_end_spec is_ws (slice src sp)) as (z & Ez & _). pose proof (span_ok_len src sp H1) as Hl. pose proof (f_equal (@length ascii) Ez) as El. rewrite app_length in El.
  destruct H1 as (S1 & S2 & _). split; [cbn; lia|]. split; [cbn; lia|]. exists (trim_end_m is_ws (slice src sp)). split; [exact G|]. cbn [ss se].
  replace (trim_end_m is_ws (slice src sp)) with (slice src (Sp (ss sp) (ss sp + length (trim_end_m is_ws (slice src sp))))) at 2; [apply lt_last; lia|].
  set (t := trim_end_m is_ws (slice src sp)) in *. unfold slice in *. cbn [ss se]. replace (ss sp + length t - ss sp) with (length t) by lia.
  transitivity (firstn (length t) (firstn (se sp - ss sp) (skipn (ss sp) src))); [rewrite firstn_firstn; f_equal; lia|].
  fold t in Ez. clearbody t. rewrite Ez. rewrite firstn_app, firstn_all, Nat.sub_diag. cbn [firstn]. apply app_nil_r.
Qed.
Lemma aspan_written src sp : wfb src -> aspan src sp -> written src (attrs_at src sp).
Proof. intros Hw H. eapply within_written, aspan_within; eauto. Qed.
Lemma gitems_last s a : gitems s a -> exists m, s = m ++ B "}".
Proof.
  induction 1; try (destruct IHgitems as [m0 ->]).
  - exists []. reflexivity.
  - exists (c :: m0). reflexivity.
  - exists ("."%char :: n ++ m0). cbn. rewrite app_assoc. reflexivity.
  - exists ("#"%char :: n ++ m0). cbn. rewrite app_assoc. reflexivity.
  - exists (k ++ "="%char :: v ++ m0). rewrite <- app_assoc. cbn. rewrite <- app_assoc. reflexivity.
  - exists (k ++ "="%char :: DQ :: q ++ DQ :: m0). rewrite <- app_assoc. cbn. rewrite <- app_assoc. reflexivity.
  - exists ("%"%char :: c ++ "%"%char :: m0). cbn. rewrite <- app_assoc. reflexivity.
  - exists ("%"%char :: c). reflexivity.
Qed.
Lemma gsets_braced s a : gsets s a -> braced s.
Proof.
  induction 1 as [s a H|s a s' a' H _ [m ->]].
  - destruct (gitems_last _ _ H) as [m ->]. exists m. reflexivity.
  - exists (s ++ B "{" ++ m). rewrite <- ?app_assoc. reflexivity.
Qed.
Lemma attrs_sets t : attrs_text t -> sets_text t.
Proof.
  intros [a H]. destruct (trim_end_spec is_ws t) as (w & E & Hw & _). exists (trim_end_m is_ws t), w. split; [exact E|]. split; [eapply gsets_braced; eauto|].
  apply Forall_forall. rewrite forallb_forall in Hw. exact Hw.
Qed.
Definition attr_spans (src : bytes) (evs : list bev) : Prop := Forall (fun e => bk e = BAtom BAttributes -> aspan src (bsp e)) evs.
Lemma inl_attr_spans src il : attr_spans src (inl_evs il).
Proof. induction il; constructor; auto. discriminate. Qed.
Lemma Fl_attr_spans src evs : Fl src evs -> attr_spans src evs.
Proof.
  induction 1 as [|e r H1 _ IH|lf sp il sp' r _ _ _ _ _ IH]; [constructor|constructor; auto; intros E; unfold pre_skip in H1; rewrite E in H1; exact H1|].
  constructor; [discriminate|]. apply Forall_app. split; [apply inl_attr_spans|]. constructor; [discriminate|exact IH].
Qed.
Lemma Pre_written src ap evs D H : wfb src -> Pre src ap evs D H -> attr_spans src evs -> Forall (aspan src) ap -> Forall (fun d => written src (snd (snd d))) D.
Proof.
  intros Hw HP. assert (Hf : forall ap, Forall (aspan src) ap -> written src (flat_map (attrs_at src) ap)).
  { induction 1; cbn; [constructor|]. apply written_app; [apply aspan_written; auto|auto]. }
  assert (Ht : forall A (a : A) l r P, Forall P (a :: l ++ r) -> Forall P r) by (intros A a l r P X; inversion X; subst; apply Forall_app in H3; tauto).
  induction HP; intros He Ha; [constructor| | | | | |]; try (apply IHHP; [|auto]; inversion He; subst; auto; fail).
  - inversion He as [|? ? X Y]; subst. apply IHHP; [exact Y|]. apply Forall_app. split; [auto|]. constructor; [apply X; reflexivity|constructor].
  - constructor; [apply Hf; auto|]. apply IHHP; [|auto]. apply Ht in He. inversion He; auto.
  - apply IHHP; [|auto]. apply Ht in He. inversion He; auto.

Qed.

Section Main.
Variable src : bytes.
Variable pp : prepass.
Hypothesis Hw : wfb src.
Hypothesis Hdw : defs_written src pp.

Definition hid (pos : N) : bytes := match heading_id_by_location pp pos with Some i => i | None => [] end.
Definition gof (hr : bool) (x : ctx) : gctx :=
  match x with
  | XRoot => GRoot | XDone => GDone | XTop l m => GTop l m | XSec L pos => GSec L (hid pos) | XFlow => GFlow
  | XList LcDescription => GDesc | XList c => GList c
  | XTable c als due => GTable c als due | XRow als => GRow hr als
  end.
Lemma gof_flow hr x : flow x -> gflow (gof hr x).
Proof. intros [-> |[l ->]]; cbn; [left|right]; eauto. Qed.
Lemma gof_okend hr x : okend x -> gokend (gof hr x).
Proof. destruct x as [| | | | |[]|? ? []|]; cbn; auto. Qed.

(** ** Pending block attributes *)
Definition pend := option (attrs * span).
Definition batt (b : pend) : attrs := match b with Some (a, _) => a | None => [] end.
Definition blo (b : pend) (lo : nat) : nat := match b with Some (_, asp) => ss asp | None => lo end.
Definition spn (b : pend) (sp : span) : span := match b with Some (_, asp) => Sp (ss asp) (se sp) | None => sp end.
Definition bok (x : ctx) (b : pend) (lo : nat) (nxt : list bev) : Prop :=
  match b with
  | None => True
  | Some (a, asp) => span_ok src asp /\ se asp <= lo /\ (flow x \/ exists l m, x = XTop l m) /\ next_is_blank nxt = false /\ within src (ss asp) (se asp) a /\ sets_text (slice src asp)
  end.
Lemma spn_ok b x lo nxt sp : bok x b lo nxt -> lo <= ss sp -> span_ok src sp -> span_ok src (spn b sp) /\ blo b lo <= ss (spn b sp) /\ se (spn b sp) = se sp.
Proof.
  intros H H1 H2. destruct b as [[a asp]|]; cbn; [|auto]. destruct H as ((A1 & A2 & A3 & A4) & B1 & _). destruct H2 as (C1 & C2 & C3 & C4).
  repeat split; cbn; auto; lia.
Qed.

Lemma spn_begun b x lo nxt sp : bok x b lo nxt -> lo <= ss sp -> span_ok src sp -> begun src (batt b) (spn b sp) (ss sp).
Proof.
  intros H H1 H2. destruct b as [[a asp]|]; cbn [batt spn].
  - destruct H as ((A1 & A2 & _) & B1 & _ & _ & C1 & (x1 & b1 & E1 & Hx & _)). destruct H2 as (D1 & D2 & _). repeat split; cbn [ss se]; try lia.
    + eapply within_hi; [exact C1|lia].
    + right. exists x1, (b1 ++ slice src (Sp (se asp) (ss sp))). split; [|exact Hx]. rewrite app_assoc, <- E1. rewrite <- (slice_app src (ss asp) (se asp) (ss sp)) by lia. rewrite span_eta. reflexivity.
  - destruct H2 as (D1 & _). repeat split; auto. constructor. lia.
Qed.
Lemma spn_sets b x lo nxt sp : bok x b lo nxt -> lo <= ss sp -> span_ok src sp -> attrs_text (slice src sp) -> sets_text (slice src (spn b sp)).
Proof.
  intros H H1 H2 H3. apply attrs_sets in H3. destruct b as [[a asp]|]; cbn [spn]; [|exact H3]. destruct H as (A1 & A2 & _ & _ & _ & A6).
  destruct A6 as (x1 & b1 & E1 & (m1 & ->) & _). destruct H3 as (x2 & b2 & E2 & (m2 & ->) & Hb).
  destruct A1 as (B1 & B2 & _). destruct H2 as (C1 & C2 & _).
  rewrite <- (slice_app src (ss asp) (se asp) (se sp)), <- (slice_app src (se asp) (ss sp) (se sp)) by lia. rewrite !span_eta, E1, E2.
  exists (B "{" ++ (m1 ++ B "}" ++ b1 ++ slice src (Sp (se asp) (ss sp)) ++ B "{" ++ m2) ++ B "}"), b2. split; [rewrite <- ?app_assoc; cbn [app B]; rewrite <- ?app_assoc; reflexivity|].
  split; [eexists; reflexivity|exact Hb].
Qed.

(** ** Steps *)
Lemma idle_T s : Idle s -> exists s', Idle s' /\ (Fresh s -> Fresh s') /\
  forall bl b hr v O, Tb src pp (PS bl b hr v s') O -> T src pp (PS bl b hr v s) O.
Proof.
  intros H. destruct (Idle_next src s H) as (s' & E & H1 & H2). exists s'. split; [auto|]. split; [auto|]. intros bl b hr v O HT.
  eapply t_blk; [|exact HT]. unfold p_inline. cbn [p_inl]. rewrite E. reflexivity.
Qed.

Definition leafc (hr : bool) (lf : leaf) : container :=
  match lf with
  | FParagraph => Paragraph
  | FHeading level hs pos => Heading level hs (hid pos)
  | FDescriptionTerm => DescriptionTerm
  | FCodeBlock lang => match lang with c :: f => if beq c "=" then RawBlock f else CodeBlock lang | [] => CodeBlock lang end
  | FTableCell a => TableCell a hr
  | FCaption => Caption
  | FLinkDefinition label => LinkDefinition label
  end.
Definition leafv (lf : leaf) : bool := match lf with FCodeBlock _ | FLinkDefinition _ => true | _ => false end.
Lemma leafv_verb hr lf : verbatim_leaf (leafc hr lf) = leafv lf.
Proof. destruct lf; cbn; auto. match goal with |- context [match ?l with [] => _ | _ => _ end] => destruct l as [|c l0]; [auto|] end. destruct (beq c "="); auto. Qed.
Lemma node_leaf bl b hr v s s1 lf en : i_reset s = Ok s1 -> v = negb en && leafv lf ->
  node_container pp (PS bl b hr v s) (NLeaf lf) en = Ok (leafc hr lf, PS bl b hr (en && leafv lf) s1).
Proof. intros E ->. unfold node_container. cbn [p_inl]. rewrite E. cbn [bind]. destruct lf, en; cbn; auto. Qed.

(** The lines of a verbatim leaf. *)
Definition full (l : span) : bool := Nat.ltb (ss l) (se l).
Lemma filter_filter_id {A} (f : A -> bool) l : filter f (filter f l) = filter f l.
Proof. induction l as [|x l IH]; [reflexivity|]. cbn [filter]. destruct (f x) eqn:E; cbn [filter]; rewrite ?E, IH; reflexivity. Qed.
Lemma full_in l (O : list (event * span)) : map snd O = filter full l -> Forall (fun e => List.In (snd e) l) O.
Proof.
  intros H. apply Forall_forall. intros e He. apply (in_map snd) in He. rewrite H in He. apply filter_In in He. apply He.
Qed.
Lemma verb_lines rest b hr : forall P lo hi s, Idle s -> Forall (span_ok src) P -> chain lo P hi ->
  exists O s' m, (forall O', Tb src pp (PS rest b hr true s') O' -> Tb src pp (PS (inl_evs P ++ rest) b hr true s) (O ++ O')) /\
    Idle s' /\ psteps src (lo, []) O (m, []) /\ m <= hi /\ Forall is_str O /\ length O <= length P /\ lead_url O = url_of src P /\ map snd O = filter full P.
Proof.
  induction P as [|x P IH]; intros lo hi s Hi HP Hc.
  - exists [], s, lo. cbn in *. split; [auto|]. split; [auto|]. split; [constructor|]. repeat split; auto.
  - inversion HP as [|? ? Hx HP']; subst. destruct Hc as (C1 & C2 & C3).
    destruct (sp_empty x) eqn:Ee.
    + assert (C4 : chain lo P hi) by (eapply chain_weaken; [|apply le_n|exact C3]; lia).
      destruct (IH lo hi s Hi HP' C4) as (O & s' & m & B1 & B2 & B3 & B4 & B5 & B6 & B7 & B8). exists O, s', m. split; [|split; [auto|split; [auto|split; [auto|split; [auto|split; [cbn; lia|split]]]]]].
      3:{ rewrite B8. cbn [filter]. unfold full at 2. unfold sp_empty in Ee. destruct (Nat.ltb (ss x) (se x)); [discriminate|reflexivity]. }
      2:{ rewrite B7. unfold url_of. cbn [map concat]. replace (slice src x) with (@nil ascii); [reflexivity|]. unfold sp_empty in Ee. destruct (Nat.ltb_spec (ss x) (se x)); [discriminate|]. unfold slice. replace (se x - ss x) with 0 by lia. reflexivity. }
      intros O' HT. eapply t_loop; [|apply (B1 O' HT)]. unfold block_step. cbn [p_blocks inl_evs map app p_verb]. rewrite Ee. reflexivity.
    + destruct (idle_T s Hi) as (s1 & I1 & _ & I2). destruct (IH (se x) hi s1 I1 HP' C3) as (O & s' & m & B1 & B2 & B3 & B4 & B5 & B6 & B7 & B8).
      exists ((Str (slice src x), x) :: O), s', m. split; [|split; [auto|split; [econstructor; [|exact B3]|split; [auto|split; [constructor; [exact I|auto]|split; [cbn; lia|split]]]]]].
      4:{ cbn [map snd filter]. rewrite B8. unfold full at 2. unfold sp_empty in Ee. destruct (Nat.ltb (ss x) (se x)); [reflexivity|discriminate]. }
      3:{ unfold lead_url, url_of in *. cbn [lead map concat]. rewrite B7. reflexivity. }
      * intros O' HT. cbn [app]. eapply t_emit; [|apply I2, (B1 O' HT)]. unfold block_step. cbn [p_blocks inl_evs map app p_verb]. rewrite Ee, span_ok_ssub by auto. reflexivity.
      * constructor; auto. unfold sp_empty in Ee. destruct (Nat.ltb_spec (ss x) (se x)); [auto|discriminate].
Qed.

(** A whole leaf. *)
Lemma leaf_tr lf sp il sp' rest b hr s : Idle s -> lf_eols src lf il -> inls src (se sp) il (ss sp') ->
  exists O s', (forall O', Tb src pp (PS rest None hr false s') O' ->
      Tb src pp (PS (BE (BEnter (NLeaf lf)) sp :: inl_evs il ++ BE (BExit (NLeaf lf)) sp' :: rest) b hr false s)
         ((Start (leafc hr lf) (batt b), spn b sp) :: O ++ (End_ (leafc hr lf), sp') :: O')) /\
    Idle s' /\ body src pp (leafc hr lf) (se sp) O (ss sp') /\ length O <= 4 * length src + length il /\ (leafv lf = true -> lead_url O = url_of src il /\ map snd O = filter full il).
Proof.
  intros Hi He [Hil Hch]. destruct (reset_ok _ Hi) as (s1 & E1 & F1).
  assert (Hsp : Forall (span_ok src) il) by (eapply Forall_impl; [|exact Hil]; intros ? []; auto).
  assert (Hx : exists O s2, (forall O', Tb src pp (PS (BE (BExit (NLeaf lf)) sp' :: rest) None hr (leafv lf) s2) O' ->
    T src pp (PS (inl_evs il ++ BE (BExit (NLeaf lf)) sp' :: rest) None hr (leafv lf) s1) (O ++ O')) /\ Idle s2 /\
    body src pp (leafc hr lf) (se sp) O (ss sp') /\ length O <= 4 * length src + length il /\ (leafv lf = true -> lead_url O = url_of src il /\ map snd O = filter full il)).
  { destruct (leafv lf) eqn:Ev.
    - destruct (idle_T s1 (fr_idle _ F1)) as (s2 & I1 & _ & I2).
      destruct (verb_lines (BE (BExit (NLeaf lf)) sp' :: rest) None hr il (se sp) (ss sp') s2 I1 Hsp Hch) as (O & s3 & m & B1 & B2 & B3 & B4 & B5 & B6 & B7 & B8).
      exists O, s3. split; [intros; apply I2; auto|]. split; [auto|]. split; [|split; [lia|auto]]. split; [|auto].
      exists m. split; [auto|]. apply (qsteps_strs src pp (se sp) m); [|exact B3]. eapply Forall_impl; [|exact B5]. intros [[] ?]; cbn; auto; contradiction.
    - destruct (leaf_lines src pp (ss sp') (BE (BExit (NLeaf lf)) sp' :: rest) None hr (se sp) il s1 Hw Hdw) as (O & s2 & m & B1 & B2 & B3 & B4 & B5).
      { intros e r Er. injection Er as <- <-. reflexivity. } { auto. }
      { split; [auto|]. split; [auto|]. apply eols_x. destruct lf; try discriminate Ev; exact He. }
      exists O, s2. split; [auto|]. split; [auto|]. split; [|split; [lia|discriminate]]. split; [eauto|]. rewrite leafv_verb, Ev. discriminate. }
  destruct Hx as (O & s2 & X1 & X2 & X3 & X4 & X5). destruct (reset_ok _ X2) as (s3 & E3 & F3). destruct (idle_T s3 (fr_idle _ F3)) as (s4 & I1 & _ & I2).
  exists O, s4. split; [|auto]. intros O' HT.
  eapply t_emit.
  - unfold block_step. cbn [p_blocks]. change (p_set_blocks (PS ?a ?b ?c ?d ?e) ?x) with (PS x b c d e). rewrite (node_leaf _ _ _ _ _ s1 _ true) by auto. cbn [bind].
    cbn [p_battr]. instantiate (1 := PS (inl_evs il ++ BE (BExit (NLeaf lf)) sp' :: rest) None hr (leafv lf) s1). destruct b as [[a asp]|]; reflexivity.
  - apply X1. eapply t_emit.
    + unfold block_step. cbn [p_blocks]. change (p_set_blocks (PS ?a ?b ?c ?d ?e) ?x) with (PS x b c d e). rewrite (node_leaf _ _ _ _ _ s3 _ false) by auto. cbn [bind p_battr]. reflexivity.
    + apply I2. exact HT.
Qed.

(** The start and end of a container. *)
Definition contc (c : bcont) : container :=
  match c with
  | BDocument => Document | BBlockquote => Blockquote | BDiv cl => Div cl | BFootnote l => Footnote l
  | BList LDescription _ => DescriptionList
  | BList (LUnordered c) t => ListC (LkUnordered (match bullet_of c with Some b => b | None => BuDash end)) t
  | BList (LTask c) t => ListC (LkTask (match bullet_of c with Some b => b | None => BuDash end)) t
  | BList (LOrdered n st) t => ListC (LkOrdered (ln_num n) st (ln_val n)) t
  | BListItem (ITask b) => TaskListItem b | BListItem IDescription => DescriptionDetails | BListItem IList => ListItem
  | BTable => Table | BTableRow h => TableRow h | BSection pos => Section_ (hid pos)
  end.
Definition cok (c : bcont) : Prop := match c with BList ty _ => lt_ok ty | _ => True end.
Definition rowh (c : bcont) (hr : bool) : bool := match c with BTableRow h => h | _ => hr end.
Lemma node_cont bl b hr v s c en : cok c ->
  node_container pp (PS bl b hr v s) (NCont c) en = Ok (contc c, PS bl b (if en then rowh c hr else hr) v s).
Proof.
  intros Hc. destruct c; cbn; try (destruct en; reflexivity).
  - destruct ty; cbn in *; try (destruct en; reflexivity); destruct Hc as [-> |[-> | ->]]; destruct en; reflexivity.
  - destruct k, en; reflexivity.
Qed.
Lemma cont_start c sp rest b hr s : Idle s -> cok c ->
  exists s', Idle s' /\ forall O', Tb src pp (PS rest None (rowh c hr) false s') O' ->
    Tb src pp (PS (BE (BEnter (NCont c)) sp :: rest) b hr false s) ((Start (contc c) (batt b), spn b sp) :: O').
Proof.
  intros Hi Hc. destruct (idle_T s Hi) as (s' & I1 & _ & I2). exists s'. split; [auto|]. intros O' HT. eapply t_emit; [|apply I2; exact HT].
  unfold block_step. cbn [p_blocks]. change (p_set_blocks (PS ?a ?b ?c ?d ?e) ?x) with (PS x b c d e). rewrite node_cont by auto. cbn [bind p_battr].
  destruct b as [[a asp]|]; reflexivity.
Qed.
Definition battr_ev (b : pend) : list (event * span) := match b with Some (a, asp) => [(Attributes a, asp)] | None => [] end.
Lemma cont_end c sp rest b hr s : Idle s -> cok c ->
  exists s', Idle s' /\ forall O', Tb src pp (PS rest None hr false s') O' ->
    Tb src pp (PS (BE (BExit (NCont c)) sp :: rest) b hr false s) (battr_ev b ++ (End_ (contc c), sp) :: O').
Proof.
  intros Hi Hc.
  assert (H0 : forall s, Idle s -> exists s', Idle s' /\ forall O', Tb src pp (PS rest None hr false s') O' ->
    Tb src pp (PS (BE (BExit (NCont c)) sp :: rest) None hr false s) ((End_ (contc c), sp) :: O')).
  { clear s Hi. intros s Hi. destruct (idle_T s Hi) as (s' & I1 & _ & I2). exists s'. split; [auto|]. intros O' HT. eapply t_emit; [|apply I2; exact HT].
    unfold block_step. cbn [p_blocks]. change (p_set_blocks (PS ?a ?b ?c ?d ?e) ?x) with (PS x b c d e). rewrite node_cont by auto. reflexivity. }
  destruct b as [[a asp]|]; [|apply H0; auto].
  destruct (idle_T s Hi) as (s1 & I1 & _ & I2). destruct (H0 s1 I1) as (s2 & J1 & J2). exists s2. split; [auto|]. intros O' HT. cbn [battr_ev app].
  eapply t_emit; [|apply I2, J2; exact HT].
  unfold block_step. cbn [p_blocks]. change (p_set_blocks (PS ?a ?b ?c ?d ?e) ?x) with (PS x b c d e). rewrite node_cont by auto. reflexivity.
Qed.

(** ** A sequence of blocks *)
Lemma gq_app g lo a y m : gq src pp g lo a y m -> forall b z hi, gq src pp y m b z hi -> gq src pp g lo (a ++ b) z hi.
Proof.
  induction 1; intros bb z hi' Hb; cbn [app].
  - eapply gq_lo; eauto.
  - constructor; auto.
  - constructor; auto.
  - constructor; auto.
  - rewrite <- app_assoc. cbn [app]. eapply g_leaf; eauto.
  - eapply g_sep; eauto.
  - rewrite <- app_assoc. cbn [app]. eapply g_cap; eauto.
  - rewrite <- app_assoc. cbn [app]. eapply g_node; eauto.
  - rewrite <- app_assoc. cbn [app]. rewrite <- app_assoc. cbn [app]. rewrite <- app_assoc. cbn [app]. eapply g_desc; eauto.
Qed.
Lemma bok_written x b lo nxt : bok x b lo nxt -> written src (batt b).
Proof. destruct b as [[a asp]|]; [intros (_ & _ & _ & _ & H & _); eapply within_written; exact H|intros _; constructor]. Qed.
Lemma bnone x b lo nxt : bok x b lo nxt -> ~ flow x -> (forall l m, x <> XTop l m) -> b = None.
Proof. intros H H1 H2. destruct b as [[a asp]|]; [|auto]. exfalso. destruct H as (_ & _ & [H|(l & m & H)] & _); [auto|eapply H2; eauto]. Qed.
Lemma gof_hr x hr hr' : (forall als, x <> XRow als) -> gof hr x = gof hr' x.
Proof. intros H. destruct x; cbn; try reflexivity. destruct (H als eq_refl). Qed.
Lemma battr_gq x b q nxt hr : bok x b q nxt -> gq src pp (gof hr x) (blo b q) (battr_ev b) (gof hr x) q.
Proof.
  intros H. destruct b as [[a asp]|]; cbn [blo battr_ev]; [|constructor; lia]. destruct H as (H1 & H2 & H3 & _ & H4 & H5).
  apply g_attr; auto; [|constructor; auto|eapply within_written; eauto]. destruct H3 as [H3|(l & m & ->)]; [left; apply gof_flow; auto|right; cbn; eauto].
Qed.
Lemma blank_tr rest hr : forall l s, Idle s -> exists s', Idle s' /\
  forall O', Tb src pp (PS rest None hr false s') O' -> Tb src pp (PS (blank_evs l ++ rest) None hr false s) (blanks l ++ O').
Proof.
  induction l as [|x l IH]; intros s Hi; [exists s; auto|]. destruct (idle_T s Hi) as (s1 & I1 & _ & I2). destruct (IH s1 I1) as (s2 & J1 & J2).
  exists s2. split; [auto|]. intros O' HT. cbn [blank_evs blanks map app]. eapply t_emit; [reflexivity|]. apply I2. apply J2. exact HT.
Qed.
Lemma stale_tr st rest hr s O' : Tb src pp (PS rest None hr false s) O' -> Tb src pp (PS (stale_evs st ++ rest) None hr false s) O'.
Proof. intros H. destruct st as [[a b]|]; cbn [stale_evs app]; auto. do 2 (eapply t_loop; [reflexivity|]). exact H. Qed.
Lemma bullet_back c : c = "-"%char \/ c = "*"%char \/ c = "+"%char -> bullet_char (match bullet_of c with Some b => b | None => BuDash end) = c.
Proof. intros [-> | [-> | ->]]; reflexivity. Qed.
Lemma leaf_whole v lf sp il sp' hr : leaf_text src v lf sp il sp' -> whole src (leafc hr lf) (ss sp) sp'.
Proof.
  intros H. destruct lf; cbn [leafc leaf_text whole] in *; try exact I; try (apply H).
  destruct H as (c & n & _ & _ & _ & _ & _ & _ & H & _). destruct language as [|c0 l0]; [exact H|]. destruct (beq c0 "="); exact H.
Qed.
Lemma cont_whole x c sp sp' : cont_text src x c sp sp' -> whole src (contc c) (ss sp) sp'.
Proof.
  intros H. destruct c; cbn [contc cont_text whole] in *; try exact I; try (apply H).
  - destruct H as (n & _ & _ & _ & _ & H). exact H.
  - destruct ty as [|[]| |]; exact I.
  - destruct k; apply H.
Qed.
Lemma opened_line P sp : opened src P sp -> on_line src sp P.
Proof. intros (e & (H1 & H2 & H3) & H4). exists e. split; [apply H1|]. split; [exact H2|]. split; [exact H3|exact H4]. Qed.
Lemma leaf_begins v lf sp il sp' hr : leaf_text src v lf sp il sp' -> lf <> FDescriptionTerm -> begins src (leafc hr lf) sp.
Proof.
  intros H Hn. destruct lf; cbn [leafc leaf_text begins] in *; try exact I; try congruence; try (apply opened_line; apply H).
  destruct language as [|c0 l0]; [exact I|]. destruct (beq c0 "="); exact I.
Qed.
Lemma cont_begins x c sp sp' : cont_text src x c sp sp' -> begins src (contc c) sp.
Proof.
  intros H. destruct c; cbn [contc cont_text begins] in *; try exact I; try (apply opened_line; apply H).
  - destruct ty as [|[]| |]; exact I.
  - destruct k; try exact I; apply opened_line; apply H.
Qed.
Lemma leaf_marks v lf sp il sp' O hr : leaf_text src v lf sp il sp' -> lf <> FDescriptionTerm -> (leafv lf = true -> Forall (fun e => List.In (snd e) il) O) ->
  marks src (leafc hr lf) sp O sp'.
Proof.
  intros H Hn Hv. destruct lf; cbn [leafc marks leaf_text] in *; auto; try congruence; try (split; apply H).
  - destruct H as (H1 & H2 & H3 & _). split; [auto|]. split; [|auto]. destruct label as [|c l]; [discriminate|]. cbn in *. intros [= ->]. discriminate.
  - assert (HF : fenced src language (slice src sp) O sp').
    { destruct H as (c & n & A1 & A2 & A3 & A4 & A5 & A6 & _). exists c, n. repeat (split; [assumption|]). split; [|exact A6].
      specialize (Hv eq_refl). rewrite Forall_forall in *. intros e He. apply A5. apply Hv. exact He. }
    destruct language as [|c l]; [split; [exact HF|discriminate]|]. destruct (beq c "=") eqn:E.
    + apply beq_eq in E. subst c. exact HF.
    + split; [exact HF|]. cbn. intros [= ->]. discriminate.
Qed.
Lemma cont_marks x c sp sp' O : cont_text src x c sp sp' -> cok c -> (match c with BList _ false => exists b, List.In (Blankline, b) O | _ => True end) -> marks src (contc c) sp O sp'.
Proof.
  intros H Hc Hl. destruct c; cbn [contc marks cont_text cok] in *; auto; try (split; apply H).
  - destruct H as (n & H1 & H2 & H3 & H4 & _). exists n. auto.
  - destruct H as (H1 & H2 & H3). unfold point, empty in *.
    assert (Ht : tight = false -> exists b, List.In (Blankline, b) O) by (intros ->; exact Hl). clear Hl.
    destruct ty as [c|[nb v] st|c|]; cbn [contc marks kind_type lt_ok ln_num ln_val] in *; rewrite <- H2; try (rewrite bullet_back by auto); auto 6.
  - destruct k; cbn [marks]; tauto.
Qed.
Lemma kclass_of ty k t : contc (BList ty t) = ListC k t -> lt_ok ty -> kclass k = lt_class ty.
Proof. destruct ty as [c|[nb v] st|c|]; cbn; intros [= <-] H; unfold kclass; cbn; rewrite ?bullet_back by auto; reflexivity. Qed.
Lemma cont_class x c sp sp' ic x' hr cl : cont_in x c sp ic x' -> cont_text src x c sp sp' -> gof hr x = GList cl -> class_mark cl (contc c) (slice src sp).
Proof.
  intros Hin H Hg. assert (Hf : flow x -> False) by (intros [-> | [l ->]]; discriminate Hg).
  inversion Hin; subst; try discriminate Hg; try (exfalso; auto; fail).
  assert (Ec : cl = c0) by (destruct c0; cbn in Hg; congruence). subst c0.
  destruct k as [b| |]; [|destruct cl; contradiction|].
  - destruct H as [(ty & E & K1 & K2) _]. destruct cl; try contradiction. destruct ty; try discriminate E. injection E as ->. cbn [class_mark contc].
    destruct K1 as (y & E1 & Hy). destruct (K2 b eq_refl) as (ch & y2 & E2 & ->). exists y. split; [exact E1|]. split; [exact Hy|]. rewrite E1 in E2. injection E2 as _ <-. reflexivity.
  - destruct H as [(ty & E & K1 & _) _]. destruct cl; try contradiction; destruct ty; try discriminate E; injection E as ->; cbn [class_mark item_text] in *.
    + exact K1.
    + destruct K1 as (ds & E1 & n0 & N1 & _). eauto.
Qed.
Lemma leaf_gleaf x lf sp inl x' hr b lo nxt : leaf_in x lf sp inl x' -> bok x b lo nxt -> gleaf (gof hr x) (leafc hr lf) (batt b) (gof hr x').
Proof.
  intros H Hb. destruct H; cbn [leafc]; try (constructor; auto using gof_flow; fail).
  - destruct l as [|c l]; [constructor; auto using gof_flow|]. destruct (beq c "="); constructor; auto using gof_flow.
  - rewrite (bnone _ _ _ _ Hb); [constructor; auto|intros [|[]]; discriminate|discriminate].
  - rewrite (bnone _ _ _ _ Hb); [constructor; auto|intros [|[]]; discriminate|discriminate].
Qed.
Lemma cont_gcont x c sp ic x' hr b lo nxt : cont_in x c sp ic x' -> bok x b lo nxt ->
  gcont (gof hr x) (contc c) (batt b) (gof (rowh c hr) ic) (gof hr x') /\ cok c.
Proof.
  intros H Hb. split; [|destruct H; cbn; auto]. destruct H; cbn [contc rowh].
  - rewrite (bnone _ _ _ _ Hb); [constructor; auto|intros [|[]]; discriminate|discriminate].
  - constructor. apply gof_flow; auto.
  - constructor. apply gof_flow; auto.
  - constructor. apply gof_flow; auto.
  - destruct ty as [ch|n st|ch|]; cbn [lt_class gof]; try (apply gc_desc; apply gof_flow; auto);
      match goal with HT : lt_ok ?ty |- gcont _ (ListC ?k ?t) _ (GList ?cl) _ => replace cl with (kclass k) by (exact (kclass_of ty k t eq_refl HT)); apply (gc_list _ k t); apply gof_flow; auto end.
  - rewrite (bnone _ _ _ _ Hb); [|intros [|[]]; discriminate|discriminate]. destruct c, k; cbn in H; try contradiction; constructor; exact I.
  - constructor. apply gof_flow; auto.
  - rewrite (bnone _ _ _ _ Hb); [constructor; auto|intros [|[]]; discriminate|discriminate].
  - constructor; auto.
Qed.
Definition one_start (n : node) (il : list span) (b : attrs) : list (mark N) :=
  match n with
  | NCont (BSection pos) | NLeaf (FHeading _ false pos) => [MHead pos b]
  | NLeaf (FLinkDefinition l) => [MDef l (url_of src il) b]
  | _ => []
  end.
Lemma att_enter b n sp r : att src b (BE (BEnter n) sp :: r) = one_start n (ilead r) b ++ att src [] r.
Proof. destruct n as [c|l]; [destruct c; reflexivity|]. destruct l; try reflexivity. destruct has_section; reflexivity. Qed.
Definition hm1 (x : mark N) : mark bytes := match x with MHead p a => MHead (hid p) a | MDef l u a => MDef l u a end.
Definition hmap (L : list (mark N)) : list (mark bytes) := map hm1 L.
Lemma hmap_app a b : hmap (a ++ b) = hmap a ++ hmap b.
Proof. apply map_app. Qed.
Lemma hstarts_leaf hr lf a sp O il : (leafv lf = true -> lead_url O = url_of src il) ->
  hstarts ((Start (leafc hr lf) a, sp) :: O) = hmap (one_start (NLeaf lf) il a) ++ hstarts O.
Proof.
  intros Hu. cbn [hstarts]. destruct lf; try reflexivity; cbn [leafc].
  - destruct has_section; reflexivity.
  - rewrite Hu by reflexivity. reflexivity.
  - destruct language as [|c0 l0]; [reflexivity|]. destruct (beq c0 "="); reflexivity.
Qed.
Lemma hstarts_cont c a sp O il : hstarts ((Start (contc c) a, sp) :: O) = hmap (one_start (NCont c) il a) ++ hstarts O.
Proof. cbn [hstarts]. destruct c; try reflexivity; cbn; [destruct ty; reflexivity|destruct k; reflexivity]. Qed.
Lemma hstarts_end c sp O : hstarts ((End_ c, sp) :: O) = hstarts O.
Proof. reflexivity. Qed.
Lemma hstarts_battr b : hstarts (battr_ev b) = [].
Proof. destruct b as [[]|]; reflexivity. Qed.
Lemma hstarts_body c lo O hi : body src pp c lo O hi -> hstarts O = [].
Proof. intros [(m & _ & H) _]. apply qsteps_psteps in H. eapply hstarts_psteps; eauto. Qed.

(** All attributes of the events; all block attributes of the block events. *)
Definition ev_attrs (e : event) : attrs := match e with Start _ a | Attributes a | ThematicBreak a => a | _ => [] end.
Definition allattrs (O : list (event * span)) : attrs := flat_map (fun e => ev_attrs (fst e)) O.
Definition battrs (evs : list bev) : attrs := flat_map (fun e => match e with BE (BAtom BAttributes) sp => attrs_at src sp | _ => [] end) evs.
Lemma allattrs_cons e sp O : allattrs ((e, sp) :: O) = ev_attrs e ++ allattrs O.
Proof. reflexivity. Qed.
Lemma allattrs_app a b : allattrs (a ++ b) = allattrs a ++ allattrs b.
Proof. apply flat_map_app. Qed.
Lemma battrs_app a b : battrs (a ++ b) = battrs a ++ battrs b.
Proof. apply flat_map_app. Qed.
Lemma battrs_cons k sp r : battrs (BE k sp :: r) = match k with BAtom BAttributes => attrs_at src sp | _ => [] end ++ battrs r.
Proof. reflexivity. Qed.
Lemma battrs_inl l : battrs (inl_evs l) = [].
Proof. induction l; auto. Qed.
Lemma battrs_blank l : battrs (blank_evs l) = [].
Proof. induction l; auto. Qed.
Lemma battrs_stale l : battrs (stale_evs l) = [].
Proof. destruct l as [[]|]; auto. Qed.
Lemma allattrs_battr b : allattrs (battr_ev b) = batt b.
Proof. destruct b as [[]|]; cbn; auto. apply app_nil_r. Qed.
(** The blank lines. *)
Definition blk1 (e : bev) : list span := match bk e with BAtom BBlankline => [bsp e] | _ => [] end.
Definition oblk1 (e : event * span) : list span := match fst e with Blankline => [snd e] | _ => [] end.
Lemma blk_inl l : flat_map blk1 (inl_evs l) = [].
Proof. induction l; cbn; auto. Qed.
Lemma blk_blank l : flat_map blk1 (blank_evs l) = l.
Proof. unfold blank_evs. induction l as [|x l IH]; [reflexivity|]. cbn [map flat_map blk1 bk bsp app]. rewrite IH. reflexivity. Qed.
Lemma blk_stale l : flat_map blk1 (stale_evs l) = [].
Proof. destruct l as [[]|]; auto. Qed.
Lemma oblk_blanks l : flat_map oblk1 (blanks l) = l.
Proof. unfold blanks. induction l as [|x l IH]; [reflexivity|]. cbn [map flat_map oblk1 fst snd app]. rewrite IH. reflexivity. Qed.
Lemma oblk_battr b : flat_map oblk1 (battr_ev b) = [].
Proof. destruct b as [[]|]; reflexivity. Qed.
Lemma oblk_body c lo O hi : body src pp c lo O hi -> flat_map oblk1 O = [].
Proof.
  intros [(m & _ & H) _]. apply qsteps_psteps in H. induction H as [|s [e sp] s1 E s2 H1 H2 IH]; [reflexivity|]. cbn [flat_map]. rewrite IH, app_nil_r.
  inversion H1; subst; unfold oblk1; cbn [fst]; try reflexivity. destruct e; try discriminate; reflexivity.
Qed.
Lemma blk_has evs O : flat_map blk1 evs = flat_map oblk1 O -> hasb evs -> exists b, List.In (Blankline, b) O.
Proof.
  intros E [sp H]. exists sp. assert (K : List.In sp (flat_map oblk1 O)) by (rewrite <- E; apply in_flat_map; exists (BE (BAtom BBlankline) sp); split; [exact H|left; reflexivity]).
  apply in_flat_map in K. destruct K as ([e sp'] & K1 & K2). unfold oblk1 in K2. cbn [fst snd] in K2. destruct e; try contradiction. destruct K2 as [->|[]]. exact K1.
Qed.
Ltac blks := repeat match goal with H : body _ _ _ _ ?O _ |- context [flat_map oblk1 ?O] => rewrite (oblk_body _ _ _ _ H) end;
  repeat (rewrite ?flat_map_app, ?blk_inl, ?blk_blank, ?blk_stale, ?oblk_blanks, ?oblk_battr; cbn [flat_map blk1 oblk1 bk bsp fst snd app]);
  repeat match goal with H : body _ _ _ _ ?O _ |- context [flat_map oblk1 ?O] => rewrite (oblk_body _ _ _ _ H) end;
  rewrite ?app_nil_r; cbn [app]; congruence.
Ltac inc0 := intros z; rewrite ?allattrs_cons, ?allattrs_app, ?allattrs_cons, ?allattrs_app, ?allattrs_cons, ?allattrs_app, ?allattrs_cons, ?allattrs_app, ?allattrs_cons, ?allattrs_battr,
    ?battrs_app, ?battrs_cons, ?battrs_app, ?battrs_cons, ?battrs_app, ?battrs_cons, ?battrs_app, ?battrs_cons, ?battrs_inl, ?battrs_blank, ?battrs_stale;
  cbn [ev_attrs batt]; rewrite ?in_app_iff; cbn [List.In];
  repeat match goal with H : incl _ _ |- _ => specialize (H z); cbn [batt] in H; rewrite ?in_app_iff in H; cbn [List.In] in H end; tauto.
Ltac inc := repeat match goal with H : incl _ _ /\ _ |- _ => destruct H end; split; [inc0|blks].

(** ** The views of the events *)
Definition code_raw (c : container) : option bool := match c with CodeBlock _ => Some false | RawBlock _ => Some true | _ => None end.
(** A code or raw block that starts here in view [v] holds exactly its lines. *)
Definition code_here (v : view) (c : container) (sp : span) (r : list (event * span)) : Prop :=
  forall raw, code_raw c = Some raw -> exists M sp' Z, r = M ++ (End_ c, sp') :: Z /\ Forall is_str M /\
    map snd M = code_content src v raw (se sp) (ss sp').
(** Every code and raw block holds its lines; [vs] are the views of the open containers, [t] the end of the last term's marker. *)
Fixpoint vrun (O : list (event * span)) (t : nat) (vs : list view) : Prop :=
  match O with
  | [] => True
  | (Start c _, sp) :: r => code_here (hd from_start vs) c sp r /\
      vrun r (match c with DescriptionTerm => se sp | _ => t end)
        (narrow src (box_of c) (match c with DescriptionDetails => t | _ => se sp end) (hd from_start vs) :: vs)
  | (End_ _, _) :: r => vrun r t (tl vs)
  | _ :: r => vrun r t vs
  end.
Definition vlike (v : view) (O : list (event * span)) : Prop := forall t vs O', (forall t', vrun O' t' (v :: vs)) -> vrun (O ++ O') t (v :: vs).
Lemma code_here_none v c sp r : code_raw c = None -> code_here v c sp r.
Proof. intros H raw E. congruence. Qed.
Lemma vrun_psteps v vs s O s' : psteps src s O s' -> forall t O', vrun O' t (repeat v (length (snd s')) ++ v :: vs) -> vrun (O ++ O') t (repeat v (length (snd s)) ++ v :: vs).
Proof.
  induction 1 as [|s [e sp] s1 E s2 H1 H2 IH]; intros t O' HO; [exact HO|]. specialize (IH t O' HO). cbn [app vrun].
  inversion H1; subst; cbn [snd length repeat app tl] in *; try exact IH.
  - destruct e; try discriminate; exact IH.
  - assert (Eh : hd from_start (repeat v (length st) ++ v :: vs) = v) by (destruct (length st); reflexivity). rewrite Eh.
    split; [apply code_here_none; destruct c; try discriminate; reflexivity|]. destruct c; try discriminate; exact IH.
Qed.
Lemma vrun_body v vs c lo O hi t O' : body src pp c lo O hi -> vrun O' t (v :: vs) -> vrun (O ++ O') t (v :: vs).
Proof. intros [(m & _ & H) _] HO. apply qsteps_psteps in H. exact (vrun_psteps v vs _ _ _ H t O' HO). Qed.
Lemma vrun_blanks t vs O' l : vrun O' t vs -> vrun (blanks l ++ O') t vs.
Proof. intros H. induction l; cbn; auto. Qed.
Lemma vrun_battr t vs O' b : vrun O' t vs -> vrun (battr_ev b ++ O') t vs.
Proof. intros H. destruct b as [[]|]; cbn; auto. Qed.
Lemma leaf_code v hr lf sp il sp' b O O' lo hi : leaf_text src v lf sp il sp' -> body src pp (leafc hr lf) lo O hi -> (leafv lf = true -> map snd O = filter full il) ->
  code_here v (leafc hr lf) (spn b sp) (O ++ (End_ (leafc hr lf), sp') :: O').
Proof.
  intros H HB HO raw E. exists O, sp', O'. split; [reflexivity|].
  assert (Hl : exists w, lf = FCodeBlock w /\ raw = starts_c w "=").
  { destruct lf; cbn [leafc] in E; try discriminate E. exists language. split; [reflexivity|]. destruct language as [|c l]; [injection E as <-; reflexivity|]. unfold starts_c, hd_is. cbn in E |- *. destruct (beq c "="); injection E as <-; reflexivity. }
  destruct Hl as (w & -> & ->). split; [apply HB; rewrite leafv_verb; reflexivity|]. rewrite (HO eq_refl).
  destruct H as (c & n & _ & _ & _ & _ & _ & _ & _ & ->). replace (se (spn b sp)) with (se sp) by (destruct b as [[]|]; reflexivity).
  unfold code_content. apply filter_filter_id.
Qed.

Lemma leafc_box hr lf : box_of (leafc hr lf) = BxNone.
Proof. destruct lf; try reflexivity. destruct language as [|c l]; [reflexivity|]. cbn. destruct (beq c "="); reflexivity. Qed.
Lemma contc_code c : code_raw (contc c) = None.
Proof. destruct c as [| | |[]|[]| | | |]; reflexivity. Qed.
Lemma contc_box c : box_of (contc c) = bbox c.
Proof. destruct c as [| | |[]|[]| | | |]; reflexivity. Qed.
Lemma contc_term {A} c (a b : A) : match contc c with DescriptionTerm => a | _ => b end = b.
Proof. destruct c as [| | |[]|[]| | | |]; reflexivity. Qed.
Lemma contc_mark {A} c (a b : A) : c <> BListItem IDescription -> match contc c with DescriptionDetails => a | _ => b end = b.
Proof. destruct c as [| | |[]|[]| | | |]; try reflexivity. congruence. Qed.

Definition Tr v evs rest x lo y hi b hr s : Prop :=
  exists O b' hr' s', (forall O', Tb src pp (PS rest b' hr' false s') O' -> Tb src pp (PS (evs ++ rest) b hr false s) (O ++ O')) /\
    Idle s' /\ bok y b' hi rest /\ gq src pp (gof hr x) (blo b lo) O (gof hr' y) (blo b' hi) /\ ((forall als, x = XRow als -> hr' = hr) /\ vlike v O) /\
    (length O <= length evs * (4 * S (length src)) /\ incl (batt b ++ battrs evs) (allattrs O ++ batt b') /\ flat_map blk1 evs = flat_map oblk1 O) /\
    exists L, att src (batt b) (evs ++ rest) = L ++ att src (batt b') rest /\ hstarts O = hmap L.
Lemma main_tr v x lo evs y hi : sq src v x lo evs y hi -> forall rest b hr s, Idle s -> bok x b lo (evs ++ rest) -> Tr v evs rest x lo y hi b hr s.
Proof.
  induction 1 as [v x lo hi Hle|v x lo a sp r y hi Hin Hlo Hok Hsq IH|v x lo lf sp il sp' x' r y hi Hin Heo Hlo Hsp Hil Hsp' Hsq IH Htx
    |v tb als due als' lo sp r y hi Hlo Hsp Hrow Hdue Hnn Hsq IH|v als lo sp il sp' r y hi Hlo Hsp Heo Hil Hsp' Hsq IH|v x lo c sp ic inner m q sp' x' r y hi Hin Hlo Hsp Hsq1 IH1 Hend Hq Hsp' Hsq IH Htx Hloose
    |v lo st sp il sp1 bl sp2 inner m q sp3 r y hi Hst Hlo Hlt Hsp Heo Hil Hsp1 Hbl Hch Hsp2 Hsq1 IH1 Hq Hsp3 Hsq IH Htx Htp Htb]; intros rest b hr s Hi Hb; unfold Tr.
  - exists [], b, hr, s. cbn [app]. split; [auto|]. split; [auto|]. split; [|split; [|split; [split; [auto|intros t vs O' H; apply H]|split; [split; [cbn; lia|inc]|]]]].
    + destruct b as [[a asp]|]; [|exact I]. destruct Hb as (H1 & H2 & H3). cbn. split; [exact H1|]. split; [lia|exact H3].
    + constructor. destruct b as [[a asp]|]; cbn; [lia|auto].
    + exists []. split; reflexivity.
  - destruct Hok as (Hsp & Hat & Hbl & Hbr & (ee & Hee & Heb & Heq)). destruct a.
    + (* Blankline *)
      assert (b = None) as -> by (destruct b as [[a asp]|]; [destruct Hb as (_ & _ & _ & Hb & _); discriminate|auto]).
      destruct (idle_T s Hi) as (s1 & I1 & _ & I2). destruct (IH rest None hr s1 I1 I) as (O & b' & hr' & s' & T1 & T2 & T3 & T4 & [T5 Tv] & [T6 Ti] & L & T7 & T8).
      exists ((Blankline, sp) :: O), b', hr', s'. split; [|split; [auto|split; [auto|split; [|split; [split; [auto|intros t vs O' H; exact (Tv _ _ _ H)]|split]]]]].
      * intros O' HT. cbn [app]. eapply t_emit; [reflexivity|]. apply I2. apply T1. exact HT.
      * cbn [blo] in *. apply g_blank; auto; [|split; [auto|specialize (Heq ltac:(discriminate)); subst ee; apply Hee]]. destruct Hin as [Hin|[Hin _]]; [apply gof_flow; auto|discriminate].
      * split; [cbn [length]; lia|try unfold a0 in *; inc].
      * exists L. split; auto.
    + (* Attributes *)
      specialize (Hat eq_refl).
      assert (Hwi : within src (ss (spn b sp)) (se (spn b sp)) (batt b ++ attrs_at src sp)).
      { destruct (spn_begun _ _ _ _ _ Hb Hlo Hsp) as (_ & _ & W & _). eapply within_app; [exact W|]. replace (se (spn b sp)) with (se sp) by (destruct b as [[? ?]|]; reflexivity). apply aspan_within; [exact Hw|split; auto]. }
      pose proof (within_written _ _ _ _ Hwi) as Hwa.
      set (a0 := batt b ++ attrs_at src sp) in *. set (asp := spn b sp) in *.
      assert (Hst : sets_text (slice src asp)) by (eapply spn_sets; eauto).
      destruct (spn_ok _ _ _ _ _ Hb Hlo Hsp) as (S1 & S2 & S3).
      assert (Hx : flow x \/ exists l m, x = XTop l m) by (destruct Hin as [Hin|[_ Hin]]; auto).
      assert (Est : block_step src pp (PS (BE (BAtom BAttributes) sp :: r ++ rest) b hr false s) =
        Ok (if next_is_blank (r ++ rest) then SEmit (Attributes a0) asp (PS (r ++ rest) None hr false s) else SLoop (PS (r ++ rest) (Some (a0, asp)) hr false s))).
      { unfold block_step. cbn [p_blocks p_battr]. destruct b as [[a1 asp1]|]; rewrite span_ok_ssub by auto; cbn [bind]; rewrite attrs_parse_text by auto; cbn [bind]; try reflexivity.
        unfold asp, spn. destruct (next_is_blank _); [destruct sp; reflexivity|]. destruct sp; reflexivity. }
      destruct (next_is_blank (r ++ rest)) eqn:En.
      * destruct (idle_T s Hi) as (s1 & I1 & _ & I2). destruct (IH rest None hr s1 I1 I) as (O & b' & hr' & s' & T1 & T2 & T3 & T4 & [T5 Tv] & [T6 Ti] & L & T7 & T8).
        exists ((Attributes a0, asp) :: O), b', hr', s'. split; [|split; [auto|split; [auto|split; [|split; [split; [auto|intros t vs O' H; exact (Tv _ _ _ H)]|split]]]]].
        -- intros O' HT. cbn [app]. eapply t_emit; [exact Est|]. apply I2. apply T1. exact HT.
        -- apply g_attr; auto; [|unfold asp; rewrite S3; exact T4]. destruct Hx as [Hx|(l & m & ->)]; [left; apply gof_flow; auto|right; cbn; eauto].
        -- split; [cbn [length]; lia|try unfold a0 in *; inc].
        -- exists L. cbn [app att]. rewrite En. split; auto.
      * assert (Hb' : bok x (Some (a0, asp)) (se sp) (r ++ rest)) by (split; [auto|]; split; [unfold asp; lia|]; split; [auto|]; split; [auto|]; split; [exact Hwi|exact Hst]).
        destruct (IH rest (Some (a0, asp)) hr s Hi Hb') as (O & b' & hr' & s' & T1 & T2 & T3 & T4 & [T5 Tv] & [T6 Ti] & L & T7 & T8).
        exists O, b', hr', s'. split; [|split; [auto|split; [auto|split; [|split; [split; [auto|intros t vs O' H; exact (Tv _ _ _ H)]|split]]]]].
        -- intros O' HT. cbn [app]. eapply t_loop; [exact Est|]. apply T1. exact HT.
        -- cbn [blo] in T4. eapply gq_lo; [exact T4|auto].
        -- split; [cbn [length]; lia|try unfold a0 in *; inc].
        -- exists L. cbn [app att]. rewrite En. split; auto.
    + (* ThematicBreak *)
      destruct (idle_T s Hi) as (s1 & I1 & _ & I2). destruct (IH rest None hr s1 I1 I) as (O & b' & hr' & s' & T1 & T2 & T3 & T4 & [T5 Tv] & [T6 Ti] & L & T7 & T8).
      destruct (spn_ok _ _ _ _ _ Hb Hlo Hsp) as (S1 & S2 & S3).
      exists ((ThematicBreak (batt b), spn b sp) :: O), b', hr', s'. split; [|split; [auto|split; [auto|split; [|split; [split; [auto|intros t vs O' H; exact (Tv _ _ _ H)]|split]]]]].
      * intros O' HT. cbn [app]. eapply t_emit; [|apply I2; apply T1; exact HT]. unfold block_step. cbn [p_blocks p_battr]. destruct b as [[a asp]|]; reflexivity.
      * apply g_break; auto; [|rewrite S3; exact T4|eapply bok_written; eauto|exists (ss sp); split; [eapply spn_begun; eauto|split; [rewrite S3, span_eta; auto|]]]; [|rewrite S3; exists ee; destruct Hee as ((Q1 & _) & Q2 & Q3); repeat split; auto]. destruct Hin as [Hin|[Hin _]]; [apply gof_flow; auto|discriminate].
      * split; [cbn [length]; lia|try unfold a0 in *; inc].
      * exists L. split; auto.
  - (* leaf *)
    rewrite <- app_comm_cons, <- app_assoc. cbn [app].
    destruct (leaf_tr lf sp il sp' (r ++ rest) b hr s Hi Heo Hil) as (O1 & s1 & A1 & A2 & A3 & A4 & A5).
    destruct (IH rest None hr s1 A2 I) as (O & b' & hr' & s' & T1 & T2 & T3 & T4 & [T5 Tv] & [T6 Ti] & L & T7 & T8).
    destruct (spn_ok _ _ _ _ _ Hb Hlo Hsp) as (S1 & S2 & S3).
    exists ((Start (leafc hr lf) (batt b), spn b sp) :: O1 ++ (End_ (leafc hr lf), sp') :: O), b', hr', s'. split; [|split; [auto|split; [auto|split; [|split; [|split]]]]].
    + intros O' HT. cbn [app]. rewrite <- app_assoc. cbn [app]. apply A1. apply T1. exact HT.
    + eapply g_leaf; eauto; [eapply leaf_gleaf; eauto| |eapply bok_written; eauto|]; [rewrite S3; exact A3|].
      exists (ss sp). split; [eapply spn_begun; eauto|]. split; [|split; [eapply leaf_whole; exact Htx|rewrite S3, span_eta; eapply leaf_begins; [exact Htx|destruct Hin; discriminate] ] ]. rewrite S3, span_eta. eapply leaf_marks; [exact Htx|destruct Hin; discriminate|]. intros. apply full_in. apply A5. auto.
    + split.
      { intros als ->. inversion Hin; subst; try (match goal with H : flow (XRow _) |- _ => destruct H as [|[]]; discriminate end). eapply T5. reflexivity. }
      intros t vs O' HO. cbn [app]. rewrite <- app_assoc. cbn [app vrun hd tl].
      split; [eapply leaf_code; [exact Htx|exact A3|intros Ev; apply (A5 Ev)]|].
      rewrite leafc_box. cbn [narrow]. eapply vrun_body; [exact A3|]. cbn [vrun tl]. apply Tv. exact HO.
    + split; [|try unfold a0 in *; inc]. cbn [length]. repeat (rewrite app_length; cbn [length]). unfold inl_evs. rewrite map_length. set (K := 4 * S (length src)) in *. assert (4 * length src + 4 = K) by (unfold K; lia). clearbody K. nia.
    + exists (one_start (NLeaf lf) il (batt b) ++ L). split.
      * rewrite att_enter, att_inl, ilead_inl. change (att src [] (BE (BExit (NLeaf lf)) sp' :: r ++ rest)) with (att src [] (r ++ rest)). cbn [batt] in T7. rewrite T7, app_assoc. reflexivity.
      * rewrite (hstarts_leaf hr lf (batt b) (spn b sp) _ il), hstarts_app, (hstarts_body _ _ _ _ A3), hstarts_end, T8, hmap_app by (exact I || (intros; unfold lead_url; rewrite lead_app by exact I; apply A5; assumption)). reflexivity.
  - (* separator row *)
    assert (b = None) as -> by (eapply bnone; [exact Hb|intros [|[]]; discriminate|discriminate]).
    destruct (IH rest None hr s Hi I) as (O & b' & hr' & s' & T1 & T2 & T3 & T4 & [T5 Tv] & T6 & T7).
    exists O, b', hr', s'. split; [auto|]. split; [auto|]. split; [auto|]. split; [|split; [split; [discriminate|exact Tv]|auto]].
    cbn [blo gof] in *. eapply g_sep; eauto.
  - (* caption *)
    rewrite <- app_comm_cons, <- app_assoc. cbn [app].
    assert (b = None) as -> by (eapply bnone; [exact Hb|intros [|[]]; discriminate|discriminate]).
    destruct (leaf_tr FCaption sp il sp' (r ++ rest) None hr s Hi Heo Hil) as (O1 & s1 & A1 & A2 & A3 & A4 & A5).
    destruct (IH rest None hr s1 A2 I) as (O & b' & hr' & s' & T1 & T2 & T3 & T4 & [T5 Tv] & [T6 Ti] & L & T7 & T8).
    exists ((Start Caption [], sp) :: O1 ++ (End_ Caption, sp') :: O), b', hr', s'. split; [|split; [auto|split; [auto|split; [|split; [split; [discriminate|]|split]]]]].
    3:{ intros t vs O' HO. cbn [app]. rewrite <- app_assoc. cbn [app vrun hd tl box_of narrow]. split; [apply code_here_none; reflexivity|]. eapply vrun_body; [exact A3|]. cbn [vrun tl]. apply Tv. exact HO. }
    + intros O' HT. cbn [app]. rewrite <- app_assoc. cbn [app]. apply A1. apply T1. exact HT.
    + eapply g_cap; eauto.
    + split; [|try unfold a0 in *; inc]. cbn [length]. repeat (rewrite app_length; cbn [length]). unfold inl_evs. rewrite map_length. set (K := 4 * S (length src)) in *. assert (4 * length src + 4 = K) by (unfold K; lia). clearbody K. nia.
    + exists L. split.
      * rewrite att_enter, att_inl. change (att src [] (BE (BExit (NLeaf FCaption)) sp' :: r ++ rest)) with (att src [] (r ++ rest)). cbn [batt] in T7. rewrite T7. reflexivity.
      * change (Start Caption []) with (Start (leafc hr FCaption) []). rewrite (hstarts_leaf hr FCaption [] sp _ il), hstarts_app, (hstarts_body _ _ _ _ A3), hstarts_end, T8 by (exact I || discriminate). reflexivity.
  - (* container *)
    rewrite <- app_comm_cons, <- app_assoc. cbn [app].
    destruct (cont_gcont _ _ _ _ _ hr _ _ _ Hin Hb) as [Hg Hc].
    destruct (cont_start c sp (inner ++ BE (BExit (NCont c)) sp' :: r ++ rest) b hr s Hi Hc) as (s1 & A1 & A2).
    destruct (IH1 (BE (BExit (NCont c)) sp' :: r ++ rest) None (rowh c hr) s1 A1 I) as (O1 & b1 & hr1 & s2 & B1 & B2 & B3 & B4 & [B5 Bv] & [B6 Bi] & L1 & B7 & B8).
    destruct (cont_end c sp' (r ++ rest) b1 hr1 s2 B2 Hc) as (s3 & C1 & C2).
    destruct (IH rest None hr1 s3 C1 I) as (O & b' & hr' & s' & T1 & T2 & T3 & T4 & [T5 Tv] & [T6 Ti] & L & T7 & T8).
    destruct (spn_ok _ _ _ _ _ Hb Hlo Hsp) as (S1 & S2 & S3).
    exists ((Start (contc c) (batt b), spn b sp) :: (O1 ++ battr_ev b1) ++ (End_ (contc c), sp') :: O), b', hr', s'. split; [|split; [auto|split; [auto|split; [|split; [|split]]]]].
    + intros O' HT. cbn [app]. rewrite <- !app_assoc. cbn [app]. apply A2. apply B1. apply C2. apply T1. exact HT.
    + assert (Hx' : forall als, x' <> XRow als) by (intros als; destruct Hin; try discriminate; match goal with H : flow ?x |- _ => destruct H as [-> |[? ->]]; discriminate end).
      eapply (g_node src pp (gof hr x) _ (contc c) (batt b) _ _ (O1 ++ battr_ev b1) (gof hr1 m) q); eauto.
      * rewrite S3. eapply gq_app; [exact B4|]. eapply battr_gq; eauto.
      * apply gof_okend; auto.
      * rewrite (gof_hr x' hr hr1) by auto. exact T4.
      * eapply bok_written; eauto.
      * exists (ss sp). split; [eapply spn_begun; eauto|]. split; [|split; [eapply cont_whole; eauto|rewrite S3, span_eta; eapply cont_begins; eauto] ]. rewrite S3, span_eta. eapply cont_marks; [eauto|eauto|]. destruct c; auto. destruct tight; [auto|]. eapply blk_has; [|exact Hloose]. destruct Bi as [_ Bi]. blks.
      * intros cl Hcl. assert (b = None) as -> by (eapply bnone; [exact Hb|intros [-> |[? ->]]; discriminate|intros ? ? ->; discriminate]). eapply cont_class; eauto.
    + split.
      { intros als ->. exfalso. inversion Hin; subst; match goal with H : flow (XRow _) |- _ => destruct H as [|[]]; discriminate end. }
      intros t vs O' HO. cbn [app]. rewrite <- !app_assoc. cbn [app vrun hd tl].
      split; [apply code_here_none; apply contc_code|].
      assert (Hnd : c <> BListItem IDescription) by (intros ->; inversion Hin; subst; destruct c; contradiction).
      rewrite contc_box, contc_term, contc_mark by exact Hnd. rewrite S3. apply Bv. intros t1. apply vrun_battr. cbn [vrun tl]. apply Tv. exact HO.
    + split; [|try unfold a0 in *; inc]. assert (length (battr_ev b1) <= 1) by (destruct b1 as [[]|]; cbn; lia).
      cbn [length]. repeat (rewrite app_length; cbn [length]). set (K := 4 * S (length src)) in *. assert (4 * length src + 4 = K) by (unfold K; lia). clearbody K. nia.
    + exists (one_start (NCont c) [] (batt b) ++ L1 ++ L). split.
      * rewrite att_enter. replace (one_start (NCont c) (ilead _)) with (one_start (NCont c) []) by (destruct c; reflexivity). cbn [batt] in B7. rewrite B7. replace (att src (batt b1) (BE (BExit (NCont c)) sp' :: r ++ rest)) with (att src [] (r ++ rest)) by reflexivity.
        cbn [batt] in T7. rewrite T7, <- !app_assoc. reflexivity.
      * rewrite (hstarts_cont c (batt b) (spn b sp) _ []), <- app_assoc, !hstarts_app, hstarts_end, hstarts_battr, T8, B8, !hmap_app by (exact I || (destruct b1 as [[]|]; exact I)). reflexivity.
  - (* description *)
    rewrite <- !app_assoc. cbn [app]. rewrite <- !app_assoc. cbn [app]. rewrite <- !app_assoc. cbn [app]. rewrite <- !app_assoc. cbn [app].
    assert (b = None) as -> by (eapply bnone; [exact Hb|intros [|[]]; discriminate|discriminate]).
    set (it := BListItem IDescription). assert (Hc : cok it) by exact I.
    set (R1 := BE (BEnter (NCont it)) sp2 :: inner ++ BE (BExit (NCont it)) sp3 :: r ++ rest).
    destruct (leaf_tr FDescriptionTerm sp il sp1 (blank_evs bl ++ R1) None hr s Hi Heo Hil) as (O0 & s0 & Z1 & Z2 & Z3 & Z4 & Z5).
    destruct (blank_tr R1 hr bl s0 Z2) as (s01 & Y1 & Y2).
    destruct (cont_start it sp2 (inner ++ BE (BExit (NCont it)) sp3 :: r ++ rest) None hr s01 Y1 Hc) as (s1 & A1 & A2).
    destruct (IH1 (BE (BExit (NCont it)) sp3 :: r ++ rest) None (rowh it hr) s1 A1 I) as (O1 & b1 & hr1 & s2 & B1 & B2 & B3 & B4 & [B5 Bv] & [B6 Bi] & L1 & B7 & B8).
    destruct (cont_end it sp3 (r ++ rest) b1 hr1 s2 B2 Hc) as (s3 & C1 & C2).
    destruct (IH rest None hr1 s3 C1 I) as (O & b' & hr' & s' & T1 & T2 & T3 & T4 & [T5 Tv] & [T6 Ti] & L & T7 & T8).
    exists ((Start DescriptionTerm [], sp) :: O0 ++ (End_ DescriptionTerm, sp1) :: blanks bl ++ (Start DescriptionDetails [], sp2) :: (O1 ++ battr_ev b1) ++ (End_ DescriptionDetails, sp3) :: O), b', hr', s'.
    split; [|split; [auto|split; [auto|split; [|split; [split; [discriminate|]|split]]]]].
    3:{ intros t vs O' HO. cbn [app]. rewrite <- app_assoc. cbn [app vrun hd tl box_of narrow]. split; [apply code_here_none; reflexivity|]. eapply vrun_body; [exact Z3|]. cbn [vrun tl].
        rewrite <- app_assoc. apply vrun_blanks. cbn [app]. rewrite <- !app_assoc. cbn [app vrun hd tl box_of]. split; [apply code_here_none; reflexivity|].
        apply Bv. intros t1. apply vrun_battr. cbn [vrun tl]. apply Tv. exact HO. }
    + intros O' HT. apply stale_tr. cbn [app]. rewrite <- app_assoc. cbn [app]. rewrite <- app_assoc. cbn [app]. rewrite <- !app_assoc. cbn [app]. apply Z1. apply Y2. apply A2. apply B1. apply C2. apply T1. exact HT.
    + apply (g_desc src pp lo sp O0 sp1 bl sp2 (O1 ++ battr_ev b1) (gof hr1 m) q sp3 O (gof hr' y) (blo b' hi)); auto.
      * cbn [blo] in B4. eapply gq_app; [exact B4|]. eapply battr_gq; eauto.
      * pose proof (sq_flow _ _ _ _ _ _ Hsq1) as ->. exact I.
      * match goal with Hcl : colon src sp |- _ => destruct Hcl as [Hcl1 Hcl2] end. split; [exact Hcl1|apply opened_line; exact Hcl2].
    + split; [|try unfold a0 in *; inc]. assert (length (battr_ev b1) <= 1) by (destruct b1 as [[]|]; cbn; lia).
      cbn [length]. repeat (rewrite app_length; cbn [length]). unfold inl_evs, blanks, blank_evs. rewrite !map_length. set (K := 4 * S (length src)) in *. assert (4 * length src + 4 = K) by (unfold K; lia). clearbody K. nia.
    + exists (L1 ++ L). split.
      * cbn [batt] in B7, T7 |- *. replace (att src [] (stale_evs st ++ _)) with (att src [] (blank_evs bl ++ R1)).
        -- rewrite att_blank. unfold R1. rewrite att_enter. cbn [one_start it app]. rewrite B7. replace (att src (batt b1) (BE (BExit (NCont it)) sp3 :: r ++ rest)) with (att src [] (r ++ rest)) by reflexivity.
           rewrite T7, <- !app_assoc. reflexivity.
        -- destruct st as [[a0 b0]|]; cbn [stale_evs app att]; rewrite att_inl; reflexivity.
      * change (hstarts ((Start DescriptionTerm [], sp) :: ?x)) with (hstarts x). rewrite hstarts_app, (hstarts_body _ _ _ _ Z3), hstarts_end, hstarts_app, hstarts_blanks by exact I.
        change (hstarts ((Start DescriptionDetails [], sp2) :: ?x)) with (hstarts x). rewrite <- app_assoc, !hstarts_app, hstarts_end, hstarts_battr, T8, B8, hmap_app by (exact I || (destruct b1 as [[]|]; exact I)). reflexivity.
Qed.
End Main.
