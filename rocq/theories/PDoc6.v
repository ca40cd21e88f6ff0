(** * PDoc6: what the grammar of public events implies *)
From Verif Require Import Base Lex Attr Block Inline Doc Lib SpecDoc PSafe PBlock2 PDoc2 PDoc4.
Local Open Scope nat_scope.

Lemma nest_app st a b : nest st (a ++ b) = match nest st a with Some st' => nest st' b | None => None end.
Proof.
  revert st; induction a as [|e a IH]; intros st; cbn [app nest]; [auto|].
  destruct e; auto. destruct st as [|c' st]; [auto|]. destruct (container_eq_dec c c'); auto.
Qed.
Lemma nestd_app st a b : nestd st (a ++ b) = match nestd st a with Some st' => nestd st' b | None => None end.
Proof.
  revert st; induction a as [|e a IH]; intros st; cbn [app nestd]; [auto|].
  destruct e; auto.
  - destruct st as [|c' st]; [auto|]. destruct c'; auto.
  - destruct st as [|c' st]; [auto|]. destruct (container_eq_dec c c'); auto.
Qed.
Definition evs (O : list (event * span)) : list event := map fst O.
Lemma evs_app a b : evs (a ++ b) = evs a ++ evs b.
Proof. apply map_app. Qed.
Lemma evs_cons e sp O : evs ((e, sp) :: O) = e :: evs O.
Proof. reflexivity. Qed.
Lemma dec_same c : exists H, container_eq_dec c c = left H.
Proof. destruct (container_eq_dec c c); [eauto|congruence]. Qed.
Lemma nest_end c st r : nest (c :: st) (End_ c :: r) = nest st r.
Proof. cbn. destruct (dec_same c) as [H ->]. reflexivity. Qed.
Lemma nestd_end c st r : nestd (c :: st) (End_ c :: r) = nestd st r.
Proof. cbn. destruct (dec_same c) as [H ->]. reflexivity. Qed.

Ltac fe := repeat match goal with |- context [map fst ?l] => change (map fst l) with (evs l) end.
Section Q.
Variable src : bytes.
Variable pp : prepass.
Notation gq := (gq src pp).
Notation psteps := (psteps src).

(** ** Nesting *)
(** Containers in which nothing may start, for the renderer. *)
Definition closed_box (c : container) : bool := match c with LinkDefinition _ | RawBlock _ | RawInline _ => true | _ => false end.
Lemma nestd_start c a st r : match st with p :: _ => closed_box p = false | [] => True end -> nestd st (Start c a :: r) = nestd (c :: st) r.
Proof. intros H. cbn. destruct st as [|p st]; [auto|]. destruct p; auto; discriminate. Qed.
Definition inlines (st : list container) : Prop := Forall (fun c => inline_cont c = true) st.
Lemma pstep_inlines s e s' : pstep src s e s' -> inlines (snd s) -> inlines (snd s').
Proof. intros H Hi. inversion H; subst; cbn [snd] in *; auto; [constructor; auto|inversion Hi; auto]. Qed.
Definition top_open (st : list container) : Prop := match st with p :: _ => closed_box p = false | [] => True end.
Lemma inline_open st0 st : inlines st0 -> popen st0 -> top_open st -> top_open (st0 ++ st).
Proof. intros H1 H2 H3. destruct st0 as [|c st0]; [auto|]. cbn in *. inversion H1; subst. destruct c; try discriminate; auto. Qed.
Lemma psteps_nestd s O s' : psteps s O s' -> inlines (snd s) -> forall st r, top_open st ->
  nestd (snd s ++ st) (evs O ++ r) = nestd (snd s' ++ st) r.
Proof.
  induction 1 as [s|s e s1 E s2 H1 H2 IH]; intros Hi st r Hst; [reflexivity|].
  rewrite <- IH by (auto; eapply pstep_inlines; eauto). clear IH.
  inversion H1; subst; cbn [evs map fst app snd] in *; fold (evs E); try reflexivity.
  - destruct e0; try discriminate; reflexivity.
  - apply nestd_start. apply inline_open; auto.
  - apply nestd_end.
Qed.
Lemma strs_nestd O : Forall is_str O -> forall st r, nestd st (evs O ++ r) = nestd st r.
Proof. induction 1 as [|[e sp] O H _ IH]; intros; [reflexivity|]. cbn [evs map fst app]. fold (evs O). destruct e; try contradiction. cbn [nestd]. apply IH. Qed.
Lemma body_nestd c lo O hi st r : body src pp c lo O hi -> (closed_box c = true -> verbatim_leaf c = true) -> nestd (c :: st) (evs O ++ r) = nestd (c :: st) r.
Proof.
  intros [(m & _ & H) Hv] Hc. apply qsteps_psteps in H. destruct (closed_box c) eqn:E; [apply strs_nestd; auto|].
  apply (psteps_nestd _ _ _ H); [constructor|exact E].
Qed.
Lemma blanks_nestd l st r : nestd st (evs (blanks l) ++ r) = nestd st r.
Proof. induction l; cbn; auto. Qed.
(** Containers that stand open around the place [g]. *)
Definition fits (g : gctx) (st : list container) : Prop :=
  match g, st with
  | GRoot, [] | GDone, [] => True
  | GTop l _, Document :: _ => l = 0
  | GTop l _, Section_ _ :: _ => 0 < l
  | GSec L id, Section_ id' :: _ => id = id'
  | GFlow, c :: _ => match c with Blockquote | Div _ | Footnote _ | ListItem | TaskListItem _ | DescriptionDetails => True | _ => False end
  | GList cl, ListC k _ :: _ => kclass k = cl
  | GDesc, DescriptionList :: _ => True
  | GTable _ _ _, Table :: _ => True
  | GRow h _, TableRow h' :: _ => h = h'
  | _, _ => False
  end.
Lemma fits_open g st : fits g st -> top_open st.
Proof. destruct g; destruct st as [|c st]; cbn; try contradiction; auto; destruct c; auto; contradiction. Qed.
Lemma gcont_fits g c a ic g' st : gcont g c a ic g' -> fits g st -> fits ic (c :: st) /\ fits g' st.
Proof. intros H Hf. destruct H; cbn in *; auto; try (split; auto; lia). Qed.
Lemma gleaf_fits g c a g' st : gleaf g c a g' -> fits g st -> fits g' st.
Proof. intros H Hf. destruct H; cbn in *; auto. destruct st as [|[] st]; try contradiction. auto. Qed.
Lemma gleaf_box g c a g' : gleaf g c a g' -> closed_box c = true -> verbatim_leaf c = true.
Proof. destruct 1; cbn; auto; discriminate. Qed.
Lemma gq_fits g lo O y hi : gq g lo O y hi -> forall st, fits g st -> fits y st.
Proof.
  induction 1; intros st Hf; auto.
  - apply IHgq. eapply gleaf_fits; eauto.
  - apply IHgq2. eapply gcont_fits; eauto.
Qed.
Lemma gq_nestd g lo O y hi : gq g lo O y hi -> forall st r, fits g st -> nestd st (evs O ++ r) = nestd st r.
Proof.
  induction 1; intros st rr Hf; cbn [evs map fst app]; fe; auto; try (cbn [nestd]; apply IHgq; assumption).
  - rewrite evs_app, evs_cons, <- app_assoc. rewrite nestd_start by (eapply fits_open; eauto).
    rewrite (body_nestd _ _ _ _ _ _ H2) by (eapply gleaf_box; eauto). rewrite <- app_comm_cons, nestd_end. apply IHgq. eapply gleaf_fits; eauto.
  - rewrite evs_app, evs_cons, <- app_assoc. rewrite nestd_start by (eapply fits_open; eauto).
    rewrite (body_nestd _ _ _ _ _ _ H1) by discriminate. rewrite <- app_comm_cons, nestd_end. apply IHgq. destruct st as [|[] st]; cbn in *; auto.
  - rewrite evs_app, evs_cons, <- app_assoc. rewrite nestd_start by (eapply fits_open; eauto).
    destruct (gcont_fits _ _ _ _ _ _ H Hf) as [F1 F2]. rewrite IHgq1 by auto. rewrite <- app_comm_cons, nestd_end. apply IHgq2. auto.
  - rewrite evs_app, evs_cons, evs_app, evs_cons, evs_app, evs_cons. rewrite <- !app_assoc. cbn [app]. rewrite <- !app_assoc. cbn [app]. rewrite <- !app_assoc.
    rewrite nestd_start by (eapply fits_open; eauto). rewrite (body_nestd _ _ _ _ _ _ H1) by discriminate. rewrite nestd_end, blanks_nestd. rewrite nestd_start by (eapply fits_open; eauto).
    rewrite IHgq1 by exact I. rewrite <- app_comm_cons, nestd_end. apply IHgq2. auto.
Qed.
(** [nestd] is stricter than [nest]. *)
Lemma nestd_nest e : forall st st', nestd st e = Some st' -> nest st e = Some st'.
Proof.
  induction e as [|x e IH]; intros st st'; cbn [nest nestd]; auto. destruct x; auto.
  - destruct st as [|c0 st]; auto. destruct c0; auto; discriminate.
  - destruct st as [|c' st]; [auto|]. destruct (container_eq_dec c c'); auto.
Qed.

(** ** Containment *)
Lemma box_eq c : inline_cont c = inline_box c.
Proof. destruct c; reflexivity. Qed.
Lemma text_eq c : textual c = text_box c.
Proof. destruct c; reflexivity. Qed.
Definition wp_push (st : list container) (e : event) : list container := match e with Start c _ => c :: st | End_ _ => tl st | _ => st end.
Lemma wp_cons p st e r : may_contain p e = true -> well_placed (p :: st) (e :: r) = well_placed (wp_push (p :: st) e) r.
Proof. intros H. cbn [well_placed]. rewrite H. reflexivity. Qed.
Lemma wp_end p st c r : well_placed (p :: st) (End_ c :: r) = well_placed st r.
Proof. reflexivity. Qed.
Definition top_inl (st : list container) : Prop := match st with p :: _ => holds_inline p = true | [] => False end.
Lemma inl_text p : holds_inline p = true -> holds_text p = true.
Proof. unfold holds_inline, holds_text. destruct (inline_leaf p), (inline_box p); cbn; auto; try discriminate. rewrite orb_true_r. auto. Qed.
Lemma top_inl_app st0 st : inlines st0 -> popen st0 -> top_inl st -> top_inl (st0 ++ st).
Proof.
  intros H1 H2 H3. destruct st0 as [|c st0]; [auto|]. cbn in *. inversion H1; subst. unfold holds_inline. rewrite <- box_eq, <- text_eq, H4, H2. apply orb_true_r.
Qed.
Lemma top_text_app st0 st : inlines st0 -> top_inl st -> match st0 ++ st with p :: _ => holds_text p = true | [] => False end.
Proof.
  intros H1 H3. destruct st0 as [|c st0]; [destruct st; [auto|apply inl_text; auto]|]. cbn in *. inversion H1; subst. unfold holds_text. rewrite <- box_eq, H2. apply orb_true_r.
Qed.
Lemma psteps_wp s O s' : psteps s O s' -> inlines (snd s) -> forall st r, top_inl st ->
  well_placed (snd s ++ st) (evs O ++ r) = well_placed (snd s' ++ st) r.
Proof.
  induction 1 as [s|s e s1 E s2 H1 H2 IH]; intros Hi st r Hst; [reflexivity|].
  rewrite <- IH by (auto; eapply pstep_inlines; eauto). clear IH.
  inversion H1; subst; cbn [evs map fst app snd] in *; fold (evs E).
  - pose proof (top_text_app _ _ Hi Hst) as Ht. destruct (st0 ++ st) as [|p q]; [contradiction|]. rewrite wp_cons by exact Ht. reflexivity.
  - pose proof (top_inl_app _ _ Hi H0 Hst) as Ht. destruct (st0 ++ st) as [|p q]; [contradiction|]. rewrite wp_cons; destruct e0; try discriminate; auto.
  - pose proof (top_inl_app _ _ Hi H0 Hst) as Ht. destruct (st0 ++ st) as [|p q]; [contradiction|]. cbn in Ht. rewrite wp_cons; [reflexivity|]. cbn [may_contain]. rewrite Ht. apply orb_true_r.
  - pose proof (top_inl_app _ _ Hi H0 Hst) as Ht. destruct (st0 ++ st) as [|p q]; [contradiction|]. cbn in Ht. rewrite wp_cons; [reflexivity|]. cbn [may_contain]. rewrite box_eq in H.
    destruct c; try discriminate; cbn; rewrite ?Ht; reflexivity.
  - apply wp_end.
Qed.
Lemma strs_wp O p st : Forall is_str O -> holds_text p = true -> forall r, well_placed (p :: st) (evs O ++ r) = well_placed (p :: st) r.
Proof.
  intros H Hp. induction H as [|[e sp] O H _ IH]; intros; [reflexivity|]. cbn [evs map fst app]. fold (evs O). destruct e; try contradiction. rewrite wp_cons by exact Hp. apply IH.
Qed.
Lemma body_wp c lo O hi st r : body src pp c lo O hi -> inline_leaf c = true \/ literal_leaf c = true -> well_placed (c :: st) (evs O ++ r) = well_placed (c :: st) r.
Proof.
  intros [(m & _ & H) Hv] [Hc|Hc]; apply qsteps_psteps in H.
  - apply (psteps_wp _ _ _ H); [constructor|]. cbn. unfold holds_inline. rewrite Hc. reflexivity.
  - apply strs_wp; [apply Hv; destruct c; try discriminate; reflexivity|]. unfold holds_text. rewrite Hc, orb_true_r. reflexivity.
Qed.
Lemma fits_flow g st : gflow g -> fits g st -> exists p st', st = p :: st' /\ holds_blocks p = true.
Proof.
  intros [-> |[l ->]] H; (destruct st as [|c st]; [contradiction|]); exists c, st; (split; [auto|]); destruct c; cbn in *; auto; contradiction.
Qed.
Lemma fits_top g st : gflow g \/ (exists l m, g = GTop l m) -> fits g st -> exists p st', st = p :: st' /\ holds_blocks p = true.
Proof.
  intros [H|(l & m & ->)] Hf; [eapply fits_flow; eauto|]. destruct st as [|c st]; [contradiction|]; exists c, st; (split; [auto|]); destruct c; cbn in *; auto; contradiction.
Qed.
Lemma wp_start st c a r : match st with p :: _ => may_start p c = true | [] => c = Document end -> well_placed st (Start c a :: r) = well_placed (c :: st) r.
Proof. intros H. destruct st as [|p st]; [subst c; reflexivity|]. apply wp_cons. exact H. Qed.
Lemma gleaf_start g c a g' st : gleaf g c a g' -> fits g st -> (match st with p :: _ => may_start p c = true | [] => c = Document end) /\ (inline_leaf c = true \/ literal_leaf c = true).
Proof.
  intros H Hf. destruct H; try (destruct (fits_flow _ _ H Hf) as (p & st' & -> & Hp); cbn; auto).
  - split; [|auto]. destruct st as [|p st]; [contradiction|]. cbn in *. destruct p; try contradiction; reflexivity.
  - split; [|auto]. destruct st as [|[] st]; try contradiction. reflexivity.
  - split; [|auto]. destruct st as [|[] st]; try contradiction. cbn in *. subst. apply Bool.eqb_reflx.
Qed.
Lemma gcont_start g c a ic g' st : gcont g c a ic g' -> fits g st -> match st with p :: _ => may_start p c = true | [] => c = Document end.
Proof.
  intros H Hf. destruct H; try (destruct (fits_flow _ _ H Hf) as (p & st' & -> & Hp); cbn; auto).
  - destruct st; [auto|contradiction].
  - destruct st as [|[] st]; try contradiction. cbn in *. subst cl. destruct k; try contradiction; reflexivity.
  - destruct st as [|[] st]; try contradiction. cbn in *. destruct k; try discriminate; reflexivity.
  - destruct st as [|[] st]; try contradiction. reflexivity.
  - destruct st as [|[] st]; try contradiction; reflexivity.
Qed.
Lemma blanks_wp l st r : well_placed (DescriptionList :: st) (evs (blanks l) ++ r) = well_placed (DescriptionList :: st) r.
Proof. induction l; cbn; auto. Qed.
Lemma gq_wp g lo O y hi : gq g lo O y hi -> forall st r, fits g st -> well_placed st (evs O ++ r) = well_placed st r.
Proof.
  induction 1; intros st rr Hf; cbn [evs map fst app]; fe; auto.
  - destruct (fits_flow _ _ H Hf) as (p & st' & -> & Hp). rewrite wp_cons by (cbn; rewrite Hp; reflexivity). apply IHgq. auto.
  - destruct (fits_flow _ _ H Hf) as (p & st' & -> & Hp). rewrite wp_cons by (cbn; rewrite Hp; reflexivity). apply IHgq. auto.
  - destruct (fits_top _ _ H Hf) as (p & st' & -> & Hp). rewrite wp_cons by (cbn; rewrite Hp; reflexivity). apply IHgq. auto.
  - rewrite evs_app, evs_cons, <- app_assoc. destruct (gleaf_start _ _ _ _ _ H Hf) as [G1 G2]. rewrite wp_start by auto.
    rewrite (body_wp _ _ _ _ _ _ H2) by auto. rewrite <- app_comm_cons, wp_end. apply IHgq. eapply gleaf_fits; eauto.
  - rewrite evs_app, evs_cons, <- app_assoc. destruct st as [|[] st]; try contradiction. rewrite wp_start by reflexivity.
    rewrite (body_wp _ _ _ _ _ _ H1) by auto. rewrite <- app_comm_cons, wp_end. apply IHgq. exact I.
  - rewrite evs_app, evs_cons, <- app_assoc. rewrite wp_start by (eapply gcont_start; eauto).
    destruct (gcont_fits _ _ _ _ _ _ H Hf) as [F1 F2]. rewrite IHgq1 by auto. rewrite <- app_comm_cons, wp_end. apply IHgq2. auto.
  - rewrite evs_app, evs_cons, evs_app, evs_cons, evs_app, evs_cons. rewrite <- !app_assoc. cbn [app]. rewrite <- !app_assoc. cbn [app]. rewrite <- !app_assoc.
    destruct st as [|[] st]; try contradiction. rewrite wp_start by reflexivity. rewrite (body_wp _ _ _ _ _ _ H1) by auto. rewrite wp_end, blanks_wp. rewrite wp_start by reflexivity.
    rewrite IHgq1 by exact I. rewrite <- app_comm_cons, wp_end. apply IHgq2. auto.
Qed.

(** ** The document *)
Definition nodoc (e : event) : Prop := match e with Start Document _ | End_ Document => False | _ => True end.
Lemma psteps_nodoc s O s' : psteps s O s' -> Forall nodoc (evs O).
Proof.
  induction 1 as [s|s e s1 E s2 H1 H2 IH]; constructor; auto. inversion H1; subst; cbn; auto.
  - destruct e0; try exact I; discriminate.
  - destruct c; try exact I; discriminate.
  - destruct c; try exact I; discriminate.
Qed.
Lemma body_nodoc c lo O hi : body src pp c lo O hi -> Forall nodoc (evs O).
Proof. intros [(m & _ & H) _]. apply qsteps_psteps in H. eapply psteps_nodoc; eauto. Qed.
Lemma blanks_nodoc l : Forall nodoc (evs (blanks l)).
Proof. induction l; constructor; cbn; auto. Qed.
Lemma gq_nodoc g lo O y hi : gq g lo O y hi -> g <> GRoot -> Forall nodoc (evs O) /\ y <> GRoot.
Proof.
  assert (Hfl : forall g, gflow g -> g <> GRoot) by (intros ? [-> |[? ->]]; discriminate).
  induction 1; intros Hg; cbn [evs map fst]; fe; try (split; [constructor; cbn; auto|]; apply IHgq; auto; fail).
  - split; [constructor|auto].
  - rewrite evs_app, evs_cons. assert (nodoc (Start c a) /\ nodoc (End_ c) /\ g' <> GRoot) as (N1 & N2 & N3) by (destruct H; cbn; repeat split; auto; try discriminate).
    destruct (IHgq N3) as [I1 I2]. split; [|auto]. constructor; [auto|]. apply Forall_app. split; [eapply body_nodoc; eauto|constructor; auto].
  - apply IHgq; discriminate.
  - rewrite evs_app, evs_cons. destruct IHgq as [I1 I2]; [discriminate|]. split; [|auto].
    constructor; [exact I|]. apply Forall_app. split; [eapply body_nodoc; eauto|constructor; [exact I|auto]].
  - rewrite evs_app, evs_cons. assert (nodoc (Start c a) /\ nodoc (End_ c) /\ g' <> GRoot /\ ic <> GRoot) as (N1 & N2 & N3 & N4) by (destruct H; cbn; repeat split; auto; try discriminate; try congruence).
    destruct (IHgq1 N4) as [I1 I2]. destruct (IHgq2 N3) as [I3 I4]. split; [|auto]. constructor; [auto|]. apply Forall_app. split; [auto|constructor; auto].
  - rewrite evs_app, evs_cons, evs_app, evs_cons, evs_app, evs_cons.
    destruct IHgq1 as [I1 I2]; [discriminate|]. destruct IHgq2 as [I3 I4]; [discriminate|]. split; [|auto].
    constructor; [exact I|]. apply Forall_app. split; [eapply body_nodoc; eauto|]. constructor; [exact I|]. apply Forall_app. split; [apply blanks_nodoc|]. constructor; [exact I|]. apply Forall_app. split; [auto|]. constructor; [exact I|auto].
Qed.
Lemma gq_done lo O y hi : gq GDone lo O y hi -> O = [] /\ y = GDone.
Proof.
  intros H. inversion H; subst; auto;
    try (match goal with H : gflow GDone |- _ => destruct H as [|[]]; discriminate end);
    try (match goal with H : gleaf GDone _ _ _ |- _ => inversion H; subst end; match goal with H : gflow GDone |- _ => destruct H as [|[]]; discriminate end);
    try (match goal with H : gcont GDone _ _ _ _ |- _ => inversion H; subst end; match goal with H : gflow GDone |- _ => destruct H as [|[]]; discriminate end).
  match goal with H : _ \/ _ |- _ => destruct H as [[|[]]|(? & ? & ?)]; discriminate end.
Qed.
Lemma gq_root lo O hi : gq GRoot lo O GDone hi -> exists sp inner m q sp',
  O = (Start Document [], sp) :: inner ++ [(End_ Document, sp')] /\ gq (GTop 0 None) (se sp) inner m q.
Proof.
  intros H. inversion H; subst;
    try (match goal with H : gflow GRoot |- _ => destruct H as [|[]]; discriminate end);
    try (match goal with H : gleaf GRoot _ _ _ |- _ => inversion H; subst end; match goal with H : gflow GRoot |- _ => destruct H as [|[]]; discriminate end).
  - match goal with H : _ \/ _ |- _ => destruct H as [[|[]]|(? & ? & ?)]; discriminate end.
  - match goal with H : gcont GRoot _ _ _ _ |- _ => inversion H; subst end; try (match goal with H : gflow GRoot |- _ => destruct H as [|[]]; discriminate end).
    match goal with H : gq GDone _ _ _ _ |- _ => apply gq_done in H; destruct H as [-> _] end. do 5 eexists. split; [reflexivity|]. eauto.
Qed.

(** ** Ranges *)
Lemma ordered_lo lo lo' O : ordered lo O -> lo' <= lo -> ordered lo' O.
Proof. destruct O as [|[e sp] O]; cbn; auto. intros (H1 & H2 & H3) H. repeat split; auto. lia. Qed.
Lemma psteps_ordered s O s' : psteps s O s' -> forall r, ordered (fst s') r -> ordered (fst s) (O ++ r).
Proof.
  induction 1 as [s|s e s1 E s2 H1 H2 IH]; intros r Hr; [auto|]. cbn [app]. specialize (IH r Hr).
  inversion H1; subst; cbn [ordered fst] in *; match goal with H : span_ok _ _ |- _ => destruct H as (? & _) end; auto.
Qed.
Lemma body_ordered c lo O hi sp r : body src pp c lo O hi -> hi <= ss sp -> ss sp <= se sp -> ordered (se sp) r -> forall e, ordered lo (O ++ (e, sp) :: r).
Proof.
  intros [(m & Hm & H) _] H1 H2 H3 e. apply qsteps_psteps in H. apply (psteps_ordered _ _ _ H). cbn. repeat split; auto. lia.
Qed.
Definition nocap (e : event * span) : Prop := match fst e with Start Caption _ | End_ Caption => False | _ => True end.
Lemma wc_app a : Forall nocap a -> forall r, without_captions false (a ++ r) = a ++ without_captions false r.
Proof.
  induction 1 as [|[e sp] a H _ IH]; intros r; [reflexivity|]. cbn [app]. cbn in H. destruct e; cbn; try (rewrite IH; reflexivity); destruct c; cbn; try (rewrite IH; reflexivity); contradiction.
Qed.
Lemma wc_in a : Forall nocap a -> forall r, without_captions true (a ++ r) = without_captions true r.
Proof.
  induction 1 as [|[e sp] a H _ IH]; intros r; [reflexivity|]. cbn [app]. cbn in H. destruct e; cbn; auto; destruct c; cbn; auto; contradiction.
Qed.
Lemma wc_cons e sp r : nocap (e, sp) -> without_captions false ((e, sp) :: r) = (e, sp) :: without_captions false r.
Proof. intros H. apply (wc_app [(e, sp)]). constructor; [auto|constructor]. Qed.
Lemma psteps_nocap s O s' : psteps s O s' -> Forall nocap O.
Proof.
  induction 1 as [s|s e s1 E s2 H1 H2 IH]; constructor; auto. inversion H1; subst; cbn; auto.
  - destruct e0; cbn; auto; discriminate.
  - destruct c; cbn; auto; discriminate.
  - destruct c; cbn; auto; discriminate.
Qed.
Lemma body_nocap c lo O hi : body src pp c lo O hi -> Forall nocap O.
Proof. intros [(m & _ & H) _]. apply qsteps_psteps in H. eapply psteps_nocap; eauto. Qed.
Lemma blanks_nocap l : Forall nocap (blanks l).
Proof. induction l; constructor; cbn; auto. Qed.
Lemma gleaf_nocap g c a g' sp : gleaf g c a g' -> nocap (Start c a, sp) /\ nocap (End_ c, sp).
Proof. destruct 1; cbn; auto. Qed.
Lemma gcont_nocap g c a ic g' sp : gcont g c a ic g' -> nocap (Start c a, sp) /\ nocap (End_ c, sp).
Proof. destruct 1; cbn; auto. Qed.
Lemma blanks_ordered l : forall lo hi sp r e, chain lo l hi -> Forall (span_ok src) l -> hi <= ss sp -> ss sp <= se sp -> ordered (se sp) r -> ordered lo (blanks l ++ (e, sp) :: r).
Proof.
  induction l as [|x l IH]; intros lo hi sp r e H Hs H1 H2 H3; cbn in *; [repeat split; auto; lia|]. destruct H as (C1 & C2 & C3). inversion Hs; subst. repeat split; auto. eapply IH; eauto.
Qed.
Lemma gq_ordered g lo O y hi : gq g lo O y hi -> forall r, ordered hi (without_captions false r) -> ordered lo (without_captions false (O ++ r)).
Proof.
  induction 1; intros rr Hr; cbn [app].
  - eapply ordered_lo; eauto.
  - rewrite wc_cons by exact I. destruct H1 as (? & _). cbn. repeat split; auto.
  - rewrite wc_cons by exact I. destruct H1 as (? & _). cbn. repeat split; auto.
  - rewrite wc_cons by exact I. destruct H1 as (? & _). cbn. repeat split; auto.
  - destruct (gleaf_nocap _ _ _ _ sp H) as [N1 _]. destruct (gleaf_nocap _ _ _ _ sp' H) as [_ N2].
    rewrite wc_cons by exact N1. rewrite <- app_assoc. rewrite wc_app by (eapply body_nocap; eauto). cbn [app]. rewrite wc_cons by exact N2.
    cbn [ordered]. destruct H1 as (? & _). repeat split; auto. destruct H3 as (? & _). eapply body_ordered; eauto.
  - eapply ordered_lo; [apply IHgq; exact Hr|]. destruct H0 as (? & _). lia.
  - cbn [without_captions]. rewrite <- app_assoc. rewrite wc_in by (eapply body_nocap; eauto). cbn [app without_captions]. auto.
  - destruct (gcont_nocap _ _ _ _ _ sp H) as [N1 _]. destruct (gcont_nocap _ _ _ _ _ sp' H) as [_ N2].
    rewrite wc_cons by exact N1. rewrite <- app_assoc. cbn [app ordered]. destruct H1 as (? & _). repeat split; auto. apply IHgq1. rewrite wc_cons by exact N2.
    cbn [ordered]. destruct H5 as (? & _). repeat split; auto.
  - rewrite wc_cons by exact I. rewrite <- app_assoc. cbn [app]. rewrite <- app_assoc. cbn [app]. rewrite <- app_assoc. cbn [app].
    rewrite wc_app by (eapply body_nocap; eauto). rewrite wc_cons by exact I. rewrite wc_app by apply blanks_nocap. rewrite wc_cons by exact I. cbn [ordered].
    destruct H0 as (? & _). repeat split; auto. destruct H2 as (? & _). eapply body_ordered; eauto. destruct H5 as (? & _). eapply blanks_ordered; eauto.
    apply IHgq1. rewrite wc_cons by exact I. cbn [ordered]. destruct H9 as (? & _). repeat split; auto.
Qed.
Definition ev_ok (x : event * span) : Prop := span_ok src (snd x) /\ match fst x with Str t => t = slice src (snd x) /\ t <> [] | _ => True end.
Lemma psteps_ok s O s' : psteps s O s' -> Forall ev_ok O.
Proof.
  induction 1 as [s|s e s1 E s2 H1 H2 IH]; constructor; auto. inversion H1; subst; (split; [assumption|]); cbn [fst snd]; try exact I.
  - split; [auto|]. pose proof (span_ok_len _ _ H0) as Hl. intros E0. rewrite E0 in Hl. cbn in Hl. lia.
  - destruct e0; try exact I; discriminate.
Qed.
Lemma body_ok c lo O hi : body src pp c lo O hi -> Forall ev_ok O.
Proof. intros [(m & _ & H) _]. apply qsteps_psteps in H. eapply psteps_ok; eauto. Qed.
Lemma gq_ok g lo O y hi : gq g lo O y hi -> Forall ev_ok O.
Proof.
  assert (Hb : forall l, Forall (span_ok src) l -> Forall ev_ok (blanks l)) by (induction 1; constructor; cbn; auto; split; cbn; auto).
  induction 1; auto; repeat (first [apply Forall_app; split | apply Forall_cons; [split; cbn; auto|]]); eauto using body_ok.
Qed.

(** ** Sections *)
Definition plain (e : event) : bool :=
  match e with Start (Section_ _) _ | Start (Heading _ true _) _ | End_ (Section_ _) => false | _ => true end.
Lemma sections_plain open e r : plain e = true -> sections open None (e :: r) = sections open None r.
Proof. intros H. destruct e; try reflexivity; destruct c; try reflexivity; try discriminate. destruct has_section; [discriminate|reflexivity]. Qed.
Lemma sections_plains open O r : Forall (fun e => plain e = true) O -> sections open None (O ++ r) = sections open None r.
Proof. induction 1; [reflexivity|]. cbn [app]. rewrite sections_plain by auto. auto. Qed.
Lemma psteps_plain s O s' : psteps s O s' -> Forall (fun e => plain e = true) (evs O).
Proof.
  induction 1 as [s|s e s1 E s2 H1 H2 IH]; constructor; auto. inversion H1; subst; cbn [fst]; try reflexivity.
  - destruct e0; try reflexivity; discriminate.
  - destruct c; try reflexivity; discriminate.
  - destruct c; try reflexivity; discriminate.
Qed.
Lemma body_plain c lo O hi : body src pp c lo O hi -> Forall (fun e => plain e = true) (evs O).
Proof. intros [(m & _ & H) _]. apply qsteps_psteps in H. eapply psteps_plain; eauto. Qed.
Lemma blanks_plain l : Forall (fun e => plain e = true) (evs (blanks l)).
Proof. induction l; constructor; auto. Qed.
Definition secs (g : gctx) (O : list (event * span)) (y : gctx) : Prop :=
  match g with
  | GSec L id => (O = [] /\ y = g) \/ exists R m, evs O = Start (Heading L true id) [] :: R /\ y = GTop L m /\
      forall open r, sections (L :: open) None (R ++ r) = sections (L :: open) m r
  | GTop l m => exists m', y = GTop l m' /\ forall open r, hd 0 open = l -> sections open m (evs O ++ r) = sections open m' r
  | GRoot | GDone => True
  | _ => forall open r, sections open None (evs O ++ r) = sections open None r
  end.
(** A sequence of plain events before the rest. *)
Definition pctx (g : gctx) : Prop := match g with GFlow | GTop _ None | GDesc | GTable _ _ _ | GList _ | GRow _ _ => True | _ => False end.
Lemma gflow_pctx g : gflow g -> pctx g.
Proof. intros [-> |[l ->]]; exact I. Qed.
Lemma secs_plain' g O1 r y : pctx g -> (forall open x, sections open None (evs O1 ++ x) = sections open None x) -> secs g r y -> secs g (O1 ++ r) y.
Proof.
  intros Hg Hp Hs.
  assert (H : forall open x, sections open None ((evs O1 ++ evs r) ++ x) = sections open None (evs r ++ x)).
  { intros. rewrite <- app_assoc. apply Hp. }
  destruct g; try contradiction; cbn [secs] in *; try (intros; rewrite evs_app, H; apply Hs).
  destruct m; [contradiction|]. destruct Hs as (m' & -> & Hs). exists m'. split; [auto|]. intros open x Ho. rewrite evs_app, H. apply Hs; auto.
Qed.
Lemma secs_plain g O1 r y : pctx g -> Forall (fun e => plain e = true) (evs O1) -> secs g r y -> secs g (O1 ++ r) y.
Proof. intros Hg Hp. apply secs_plain'; [auto|]. intros. apply sections_plains. auto. Qed.
Lemma secs_any g r y g' : secs g r y -> (g' = g \/ (exists b als due b' als' due', g' = GTable b als due /\ g = GTable b' als' due')) -> secs g' r y.
Proof. intros H [-> |(b & ? & ? & ? & ? & ? & -> & ->)]; auto. Qed.
Lemma gcont_plain g c a ic g' : gcont g c a ic g' -> (exists id, c = Section_ id) \/ g = GRoot \/
  (plain (Start c a) = true /\ plain (End_ c) = true /\ (g = g' \/ (exists b als due b' als' due', g = GTable b als due /\ g' = GTable b' als' due')) /\ pctx g /\
   (forall O y, secs ic O y -> forall open x, sections open None (evs O ++ x) = sections open None x)).
Proof.
  assert (HS : forall ic, match ic with GFlow | GDesc | GTable _ _ _ | GList _ | GRow _ _ => True | _ => False end ->
    forall O y, secs ic O y -> forall open x, sections open None (evs O ++ x) = sections open None x).
  { intros ic0 Hic O y Hs. destruct ic0; try contradiction; exact Hs. }
  destruct 1; [right; left; reflexivity|..|left; eexists; reflexivity]; right; right; (split; [reflexivity|]); (split; [reflexivity|]);
    (split; [first [left; reflexivity | right; repeat eexists]|]); (split; [first [apply gflow_pctx; assumption | exact I]|]); apply HS; exact I.
Qed.
Lemma gq_sections g lo O y hi : gq g lo O y hi -> secs g O y.
Proof.
  induction 1.
  - destruct g; cbn; auto. exists m. auto.
  - apply (secs_plain g [(Blankline, sp)]); [apply gflow_pctx; auto|repeat constructor|auto].
  - apply (secs_plain g [(ThematicBreak a, sp)]); [apply gflow_pctx; auto|repeat constructor|auto].
  - destruct H as [H|(l & m & ->)]; [apply (secs_plain g [(Attributes a, sp)]); [apply gflow_pctx; auto|repeat constructor|auto]|].
    cbn [secs] in *. destruct IHgq as (m' & -> & IH). exists m'. split; [auto|]. intros open x Ho. cbn. apply IH. auto.
  - assert (Hp : forall a, plain (Start c a) = true -> plain (End_ c) = true -> Forall (fun e => plain e = true) (evs ((Start c a, sp) :: O ++ [(End_ c, sp')]))).
    { intros a0 P1 P2. rewrite evs_cons. constructor; [exact P1|]. rewrite evs_app. apply Forall_app. split; [eapply body_plain; eauto|constructor; [exact P2|constructor]]. }
    replace ((Start c a, sp) :: O ++ (End_ c, sp') :: r) with (((Start c a, sp) :: O ++ [(End_ c, sp')]) ++ r) by (cbn; rewrite <- app_assoc; reflexivity).
    destruct H; try (apply secs_plain; [first [apply gflow_pctx; assumption | exact I]|apply Hp; reflexivity|exact IHgq]).
    cbn [secs] in *. right. destruct IHgq as (m' & -> & IH). exists (evs (O ++ [(End_ (Heading L true id), sp')]) ++ evs r), m'. split; [|split; [auto|]].
      * cbn [app]. rewrite evs_cons, evs_app. reflexivity.
      * intros open x. rewrite evs_app, <- !app_assoc. rewrite sections_plains by (eapply body_plain; eauto). cbn [evs map fst app]. rewrite sections_plain by reflexivity. fe. apply IH. reflexivity.
  - eapply secs_any; [exact IHgq|right; repeat eexists].
  - replace ((Start Caption [], sp) :: O ++ (End_ Caption, sp') :: r) with (((Start Caption [], sp) :: O ++ [(End_ Caption, sp')]) ++ r) by (cbn; rewrite <- app_assoc; reflexivity).
    apply secs_plain; [exact I| |exact IHgq]. rewrite evs_cons. constructor; [reflexivity|]. rewrite evs_app. apply Forall_app. split; [eapply body_plain; eauto|constructor; [reflexivity|constructor]].
  - destruct (gcont_plain _ _ _ _ _ H) as [[id ->]|[-> |(P1 & P2 & P3 & P4 & P5)]]; [|exact I|].
    + inversion H; subst.
      cbn [secs] in IHgq1, IHgq2 |- *. destruct IHgq1 as [[_ ->]|(R & m1 & E & -> & IH1)]; [contradiction|]. destruct IHgq2 as (m' & -> & IH2).
      exists m'. split; [auto|]. intros open x Ho. rewrite evs_cons, evs_app, E, evs_cons, <- app_comm_cons, <- app_assoc. cbn [app]. cbn [sections].
      replace (bytes_eqb id id) with true by (symmetry; apply bytes_eqb_eq; reflexivity). rewrite Ho. replace (l <? L) with true by (symmetry; apply Nat.ltb_lt; auto). cbn [is_nil andb].
      replace (match m0 with Some k => L <=? k | None => true end) with true by (destruct m0; auto; symmetry; apply Nat.leb_le; auto). cbn [andb].
      rewrite IH1. cbn [app sections]. apply IH2. auto.
    + replace ((Start c a, sp) :: inner ++ (End_ c, sp') :: r) with (((Start c a, sp) :: inner ++ [(End_ c, sp')]) ++ r) by (cbn; rewrite <- app_assoc; reflexivity).
      apply secs_plain'; [auto| |eapply secs_any; [exact IHgq2|]].
      * intros open x. rewrite evs_cons, evs_app, <- app_comm_cons, <- app_assoc. rewrite sections_plain by auto. rewrite (P5 _ _ IHgq1). cbn [evs map fst app]. apply sections_plain; auto.
      * destruct P3 as [-> |(b & ? & ? & ? & ? & ? & -> & ->)]; [auto|right; repeat eexists].
  - cbn [secs] in *. intros open x. rewrite evs_cons, evs_app, evs_cons, evs_app, evs_cons, evs_app, evs_cons. repeat (cbn [app]; rewrite <- app_assoc). cbn [app].
    rewrite sections_plain by reflexivity. rewrite sections_plains by (eapply body_plain; eauto). rewrite sections_plain by reflexivity. rewrite sections_plains by apply blanks_plain.
    rewrite sections_plain by reflexivity. rewrite IHgq1. cbn [app]. rewrite sections_plain by reflexivity. auto.
Qed.
End Q.
(** ** Captions *)
Fixpoint caps_ordered (evs : list (event * span)) : Prop :=
  match evs with
  | [] => True
  | (e, sp) :: r => match e with Start Caption _ => ss sp <= se sp /\ ordered (se sp) (caption_at r) | _ => True end /\ caps_ordered r
  end.
Lemma caps_app a r : Forall nocap a -> caps_ordered (a ++ r) <-> caps_ordered r.
Proof. induction 1 as [|[e sp] a H _ IH]; [tauto|]. cbn [app caps_ordered]. destruct e; cbn in H; try tauto. destruct c; try tauto; contradiction. Qed.
Lemma caps_cons e sp r : nocap (e, sp) -> caps_ordered ((e, sp) :: r) <-> caps_ordered r.
Proof. intros H. apply (caps_app [(e, sp)] r). constructor; [auto|constructor]. Qed.
Lemma caption_at_body O sp r : Forall nocap O -> caption_at (O ++ (End_ Caption, sp) :: r) = O ++ [(End_ Caption, sp)].
Proof. induction 1 as [|[e s] O H _ IH]; [reflexivity|]. cbn [app caption_at]. rewrite IH. destruct e; try reflexivity. destruct c; try reflexivity; contradiction. Qed.
Lemma gq_caps src pp g lo O y hi : gq src pp g lo O y hi -> forall r, caps_ordered r -> caps_ordered (O ++ r).
Proof.
  induction 1; intros r0 Hr; cbn [app]; auto; try (apply caps_cons; [exact I|auto]).
  - destruct (gleaf_nocap _ _ _ _ sp H) as [N1 _]. destruct (gleaf_nocap _ _ _ _ sp' H) as [_ N2].
    apply caps_cons; [auto|]. rewrite <- app_assoc. cbn [app]. apply caps_app; [eapply body_nocap; eauto|]. apply caps_cons; auto.
  - cbn [caps_ordered]. rewrite <- app_assoc. cbn [app]. split.
    + destruct H0 as (? & _). split; [auto|]. rewrite caption_at_body by (eapply body_nocap; eauto). destruct H2 as (? & _). eapply body_ordered; eauto. exact I.
    + apply caps_app; [eapply body_nocap; eauto|]. cbn [caps_ordered]; split; [exact I|auto].
  - destruct (gcont_nocap _ _ _ _ _ sp H) as [N1 _]. destruct (gcont_nocap _ _ _ _ _ sp' H) as [_ N2].
    apply caps_cons; [auto|]. rewrite <- app_assoc. cbn [app]. apply IHgq1. apply caps_cons; auto.
  - rewrite <- app_assoc. cbn [app]. apply caps_app; [eapply body_nocap; eauto|]. apply caps_cons; [exact I|].
    rewrite <- app_assoc. apply caps_app; [apply blanks_nocap|]. cbn [app]. apply caps_cons; [exact I|]. rewrite <- app_assoc. apply IHgq1. cbn [app]. apply caps_cons; [exact I|auto].
Qed.
