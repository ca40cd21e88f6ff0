(** * PDoc3: the pre-pass *)
From Verif Require Import Base Lex Attr Block Inline Doc SpecLex Lib SpecAttr PAttr PAttr3 PSafe PBlock2 PBlock3 PBlock4 PInl1 PInl2 PInl3 PInl6 PInl10 PInl11 PInl12 PGram PIds.
Local Open Scope nat_scope.

(** The attributes written at a range of the source. *)
Definition attrs_at (src : bytes) (sp : span) : attrs :=
  match attrs_try_from (slice src sp) with Ok (inl a) => a | _ => [] end.
Lemma attrs_parse_text src sp a : wfb src -> span_ok src sp -> attrs_text (slice src sp) ->
  attrs_parse a (slice src sp) = Ok (inl (a ++ attrs_at src sp)).
Proof.
  intros Hw Hsp [a1 G].
  assert (Hw' : wfb (trim_end_m is_ws (slice src sp))) by (apply wfb_trim, wfb_slice; auto).
  assert (H : forall a, attrs_parse a (slice src sp) = Ok (inl (a ++ a1))).
  { clear a. intros a. rewrite attrs_parse_arun by auto. pose proof (verdict_acc (trim_end_m is_ws (slice src sp)) 0 AStart [] a ltac:(lv)) as HV. cbn [Nat.add] in HV.
    rewrite (gsets_acc _ _ G) in HV. rewrite HV. reflexivity. }
  rewrite H. unfold attrs_at, attrs_try_from. rewrite H. reflexivity.
Qed.
Definition aspan (src : bytes) (sp : span) : Prop := span_ok src sp /\ attrs_text (slice src sp).
Lemma collect_ok src l : wfb src -> Forall (aspan src) l -> collect_attrs src l = Ok (flat_map (attrs_at src) l).
Proof.
  intros Hw. induction 1 as [|sp l [H1 H2] _ IH]; cbn [collect_attrs flat_map]; [eauto|].
  rewrite span_ok_ssub by auto. cbn [bind]. unfold attrs_try_from. rewrite (attrs_parse_text src sp [] Hw H1 H2). cbn [bind]. rewrite IH. reflexivity.
Qed.

(** The events as the pre-pass sees them. *)
Definition pre_leaf (lf : leaf) : bool := match lf with FLinkDefinition _ | FHeading _ _ _ => true | _ => false end.
Definition pre_skip (src : bytes) (e : bev) : Prop :=
  match bk e with
  | BEnter (NLeaf lf) => pre_leaf lf = false
  | BAtom BAttributes => aspan src (bsp e)
  | _ => True
  end.
Inductive Fl (src : bytes) : list bev -> Prop :=
| fl_nil : Fl src []
| fl_skip e r : pre_skip src e -> Fl src r -> Fl src (e :: r)
| fl_leaf lf sp il sp' r : pre_leaf lf = true -> Forall (ispan src) il -> chain (se sp) il (ss sp') -> lf_eols src lf il -> Fl src r ->
    Fl src (BE (BEnter (NLeaf lf)) sp :: inl_evs il ++ BE (BExit (NLeaf lf)) sp' :: r).
Lemma Fl_inl src il r : Fl src r -> Fl src (inl_evs il ++ r).
Proof. intros H. induction il; cbn; auto. apply fl_skip; [exact I|auto]. Qed.
Lemma Fl_blank src il r : Fl src r -> Fl src (blank_evs il ++ r).
Proof. intros H. induction il; cbn; auto. apply fl_skip; [exact I|auto]. Qed.
Lemma Fl_leaf src lf sp il sp' r : inls src (se sp) il (ss sp') -> lf_eols src lf il -> Fl src r ->
    Fl src (BE (BEnter (NLeaf lf)) sp :: inl_evs il ++ BE (BExit (NLeaf lf)) sp' :: r).
Proof.
  intros [H1 H2] H3 H4. destruct (pre_leaf lf) eqn:E; [apply fl_leaf; auto|].
  apply fl_skip; [exact E|]. apply Fl_inl. apply fl_skip; [exact I|auto].
Qed.
Lemma sq_Fl src v x lo e y hi : sq src v x lo e y hi -> forall r, Fl src r -> Fl src (e ++ r).
Proof.
  induction 1; intros r0 Hr; cbn [app]; auto.
  - apply fl_skip; [|auto]. destruct H1 as (H1 & H3 & _). destruct a; cbn; auto. split; auto.
  - rewrite <- app_assoc. cbn [app]. apply Fl_leaf; auto.
  - rewrite <- app_assoc. cbn [app]. apply Fl_leaf; auto.
  - rewrite <- app_assoc. cbn [app]. apply fl_skip; [exact I|]. apply IHsq1. apply fl_skip; [exact I|auto].
  - rewrite <- app_assoc. assert (Hs : forall r, Fl src r -> Fl src (stale_evs st ++ r)).
    { intros. destruct st as [[a b]|]; cbn; auto. repeat (apply fl_skip; [exact I|]). auto. }
    apply Hs. cbn [app]. rewrite <- app_assoc. cbn [app]. rewrite <- app_assoc. cbn [app]. rewrite <- app_assoc. cbn [app].
    apply Fl_leaf; auto. apply Fl_blank. apply fl_skip; [exact I|]. apply IHsq1. apply fl_skip; [exact I|auto].
Qed.

(** ** Link definitions *)
Definition url_of (src : bytes) (il : list span) : bytes := concat (map (fun sp => trim_m is_ws (slice src sp)) il).
Lemma def_url_ok src il e r : forall url, Forall (ispan src) il -> is_binline e = false ->
  def_url src (inl_evs il ++ e :: r) url = Ok (url ++ url_of src il, r).
Proof.
  unfold url_of. induction il as [|x il IH]; intros url H He; cbn [inl_evs map app def_url concat].
  - rewrite He, app_nil_r. reflexivity.
  - inversion H as [|? ? [Hx _] Hr]; subst. change (is_binline (BE BInline x)) with true. cbn iota. change (bsp (BE BInline x)) with x.
    rewrite span_ok_ssub by auto. cbn [bind]. fold (inl_evs il). rewrite IH by auto. rewrite app_assoc. reflexivity.
Qed.

(** ** Headings *)
Fixpoint lend (il : list span) (le : nat) : nat := match il with [] => le | x :: r => lend r (se x) end.
Definition hlines (il : list span) (le : nat) : list span := il ++ [Sp (lend il le) (lend il le)].
Definition feedable src P hi W (s : istate) : Prop :=
  (Fresh s /\ W = 4 * length src /\ exists lo, fed src lo P hi) \/ (exists lo, Wait src P lo hi W s).
Lemma feed_any src x P hi W s : wfb src -> feedable src (x :: P) hi W s ->
  exists lo s', i_feed_line src s x (is_nil P) = Ok s' /\ Act src P lo hi W s'.
Proof.
  intros Hw [(HF & -> & lo & H)|(lo & H)].
  - destruct (fresh_feed _ _ _ _ _ _ HF H) as (s' & H1 & H2 & _). eauto.
  - destruct (wait_feed _ _ _ _ _ _ _ Hw H) as (s' & H1 & H2 & _). eauto.
Qed.
(** Drain the inline parser. *)
Lemma head_events_ok src P hi : wfb src -> forall f W est s id text lw, Run src P hi W est s -> W < f ->
  exists s' id' text' lw', head_events f src s id text lw = Ok (s', id', text', lw') /\
    ((P = [] /\ Idle s') \/ (exists lo, Wait src P lo hi W s')).
Proof.
  intros Hw. induction f as [|f IH]; intros W est s id text lw HR Hf; [lia|]. cbn [head_events].
  destruct (inline_next_ok _ _ _ _ _ _ Hw HR) as ([o s1] & -> & _ & _ & X). cbn [bind]. destruct o as [e|].
  - destruct X as (lo1 & est' & W' & A1 & A2 & A3 & A4).
    assert (Hgo : forall id text lw, exists s' id' text' lw', head_events f src s1 id text lw = Ok (s', id', text', lw') /\ ((P = [] /\ Idle s') \/ (exists lo, Wait src P lo hi W s'))).
    { intros id2 text2 lw2. destruct (IH W' est' s1 id2 text2 lw2 A4 ltac:(lia)) as (s' & i' & t' & l' & E & H). exists s', i', t', l'. split; [auto|].
      destruct H as [H|(lo & H)]; [auto|right; exists lo; eapply Wait_mono; eauto; lia]. }
    destruct (ik e) as [| |a| | | |] eqn:Ek; auto.
    + destruct a; auto.
    + assert (Hsp : span_ok src (isp e)).
      { inversion A2 as [? ? ? H _ _|]; subst; [eapply estep_span; eauto|auto]. }
      rewrite span_ok_ssub by auto. cbn [bind]. destruct (id_bytes _ id lw) as [id' lw']. auto.
  - destruct X as (lo & A1 & A2 & A3 & A4). exists s1, id, text, lw. split; [auto|]. destruct A4 as [A4|(A4 & A5 & A6)]; [eauto|]. left. split; [auto|]. eapply Emt_Idle; eauto.
Qed.
Lemma feed_drain src x P hi W s id text lw : wfb src -> feedable src (x :: P) hi W s ->
  exists s' id' text' lw' s1, i_feed_line src s x (is_nil P) = Ok s1 /\ head_events (next_fuel src s1) src s1 id text lw = Ok (s', id', text', lw') /\
    ((P = [] /\ Idle s') \/ (P <> [] /\ exists W', feedable src P hi W' s')).
Proof.
  intros Hw H. destruct (feed_any _ _ _ _ _ _ Hw H) as (lo & s1 & E1 & HA).
  assert (HR : Run src P hi W (ES lo [] PNone) s1) by (left; exists lo; auto).
  pose proof (Run_fuel _ _ _ _ _ _ HR) as Hf. apply Run_tight in HR.
  destruct (head_events_ok src P hi Hw (next_fuel src s1) _ _ s1 id text lw HR ltac:(lia)) as (s' & id' & t' & l' & E2 & HX).
  exists s', id', t', l', s1. split; [auto|]. split; [auto|]. destruct HX as [HX|[lo' HX]]; [auto|]. right. split; [apply HX|]. eexists. right. exists lo'. exact HX.
Qed.
Lemma head_lines_ok src e r hi : wfb src -> is_binline e = false -> forall il le s id text lw W, feedable src (hlines il le) hi W s ->
  exists s' id' text', head_lines src (inl_evs il ++ e :: r) s le id text lw = Ok (s', id', text', r) /\ Idle s'.
Proof.
  intros Hw He. induction il as [|x il IH]; intros le s id text lw W H; cbn [inl_evs map app head_lines].
  - rewrite He. unfold hlines in H. cbn [lend app] in H. destruct (feed_drain _ _ _ _ _ _ id text lw Hw H) as (s' & id' & t' & l' & s1 & E1 & E2 & E3).
    cbn [is_nil] in E1. rewrite E1. cbn [bind]. rewrite E2. cbn [bind]. exists s', id', t'. split; [auto|]. destruct E3 as [[_ E3]|[E3 _]]; [auto|congruence].
  - change (is_binline (BE BInline x)) with true. cbn iota. change (bsp (BE BInline x)) with x.
    unfold hlines in H. cbn [lend app] in H. fold (hlines il (se x)) in H.
    destruct (feed_drain _ _ _ _ _ _ id text lw Hw H) as (s' & id' & t' & l' & s1 & E1 & E2 & E3).
    replace (is_nil (hlines il (se x))) with false in E1 by (unfold hlines; destruct il; reflexivity). rewrite E1. cbn [bind]. rewrite E2. cbn [bind].
    destruct E3 as [[E3 _]|[_ (W' & E3)]]; [exfalso; revert E3; unfold hlines; destruct il; discriminate|].
    exact (IH _ _ _ _ _ _ E3).
Qed.
Lemma lend_chain il : forall lo le hi, chain lo il hi -> le <= lo -> chain le il (lend il le).
Proof.
  induction il as [|x il IH]; intros lo le hi H Hl; cbn in *; [lia|]. destruct H as (H1 & H2 & H3). repeat (split; [lia|]). eapply IH; eauto.
Qed.
Lemma hlines_fed src lo il hi : wfb src -> Forall (ispan src) il -> chain lo il hi -> eols src il -> fed src 0 (hlines il 0) (lend il 0).
Proof.
  intros Hw H1 H2 H3. assert (Hs : Forall (span_ok src) il) by (eapply Forall_impl; [|exact H1]; intros ? []; auto).
  assert (Hp : forall le, span_ok src (Sp le le) -> span_ok src (Sp (lend il le) (lend il le))).
  { clear -Hs. induction Hs as [|[a b] il H Hs IH]; intros le Hle; cbn [lend]; [auto|]. apply IH. eapply span_point_r; eauto. }
  assert (H0 : span_ok src (Sp 0 0)) by (destruct Hw as [Hw _]; repeat split; cbn; auto; lia).
  split; [|split].
  - apply Forall_app. split; [auto|]. constructor; [apply Hp; auto|constructor].
  - apply chain_app. exists (lend il 0). split; [eapply lend_chain; eauto; lia|cbn; lia].
  - assert (Hx : forall e, eols src il -> eolsx src (il ++ [Sp e e])); [|apply Hx; auto].
    clear. induction il as [|x il IH]; intros e H; cbn in *.
    + split; [right; constructor|exact I].
    + destruct H as [H1 H2]. split; [|auto]. destruct H1 as [-> |H1]; [right|left; auto]. constructor; [reflexivity|constructor].
Qed.
Lemma eols_x src l : eols src l -> eolsx src l.
Proof. induction l as [|x l IH]; cbn; auto. intros [H1 H2]. split; auto. destruct H1 as [-> |H1]; auto. Qed.

(** ** The whole pre-pass *)
(** [Pre src ap evs D H]: with the attributes at [ap] before them, the events [evs] contain the
    definitions [D] (label, URL, attributes) and the headings [H] (location, attributes). *)
Inductive Pre (src : bytes) : list span -> list bev -> list (bytes * (bytes * attrs)) -> list (N * attrs) -> Prop :=
| pr_nil ap : Pre src ap [] [] []
| pr_attr ap sp r D H : Pre src (ap ++ [sp]) r D H -> Pre src ap (BE (BAtom BAttributes) sp :: r) D H
| pr_def ap l sp il sp' r D H : Pre src ap r D H ->
    Pre src ap (BE (BEnter (NLeaf (FLinkDefinition l))) sp :: inl_evs il ++ BE (BExit (NLeaf (FLinkDefinition l))) sp' :: r)
        ((l, (url_of src il, flat_map (attrs_at src) ap)) :: D) H
| pr_head ap lv hs pos sp il sp' r D H : Pre src ap r D H ->
    Pre src ap (BE (BEnter (NLeaf (FHeading lv hs pos))) sp :: inl_evs il ++ BE (BExit (NLeaf (FHeading lv hs pos))) sp' :: r)
        D ((to_u32 (ss sp), flat_map (attrs_at src) ap) :: H)
| pr_enter ap n sp r D H : match n with NLeaf lf => pre_leaf lf = false | _ => True end -> Pre src ap r D H -> Pre src ap (BE (BEnter n) sp :: r) D H
| pr_sec ap pos sp r D H : Pre src ap r D H -> Pre src ap (BE (BExit (NCont (BSection pos))) sp :: r) D H
| pr_other ap k sp r D H : match k with BEnter _ | BExit (NCont (BSection _)) | BAtom BAttributes => False | _ => True end ->
    Pre src [] r D H -> Pre src ap (BE k sp :: r) D H.
Definition head_of (h : heading) (x : N * attrs) : Prop :=
  h_loc h = fst x /\ h_override h = option_map value_display (get_value (snd x) (B "id")).
Lemma pre_loop_ok src : wfb src -> forall f evs s ap used defs heads, Fl src evs -> Idle s -> Forall (aspan src) ap -> length evs < f ->
  exists s' D H heads', pre_loop f src evs s ap used defs heads = Ok (s', rev D ++ defs, heads ++ heads') /\ Idle s' /\
    Pre src ap evs D H /\ Forall2 head_of heads' H.
Proof.
  intros Hw. induction f as [|f IH]; intros evs s ap used defs heads HF Hi Ha Hl; [lia|]. cbn [pre_loop].
  inversion HF as [|e r Hsk HF'|lf sp il sp' r Hpl H1 H2 H3 HF']; subst.
  - exists s, [], [], []. rewrite app_nil_r. split; [reflexivity|]. split; [auto|]. split; constructor.
  - cbn [length] in Hl. assert (Hl' : length r < f) by lia. destruct e as [k sp]. cbn [bk bsp] in *.
    assert (Hend : forall ap0 ap', (forall D H, Pre src ap' r D H -> Pre src ap0 (BE k sp :: r) D H) -> Forall (aspan src) ap' ->
      exists s' D H heads', pre_loop f src r s ap' used defs heads = Ok (s', rev D ++ defs, heads ++ heads') /\ Idle s' /\ Pre src ap0 (BE k sp :: r) D H /\ Forall2 head_of heads' H).
    { intros ap0 ap' HP Ha'. destruct (IH r s ap' used defs heads HF' Hi Ha' Hl') as (s' & D & H & hh & E1 & E2 & E3 & E4). exists s', D, H, hh. auto. }
    unfold pre_skip in Hsk. cbn [bk bsp] in Hsk. destruct k as [[c|lf]| |[c|lf]|[]|].
    + apply Hend; auto. intros. apply pr_enter; auto.
    + destruct lf; try discriminate Hsk; (apply Hend; auto; intros; apply pr_enter; auto).
    + apply Hend; [|constructor]. intros. apply pr_other; [exact I|auto].
    + destruct c; try (apply Hend; [|constructor]; intros; (apply pr_other; [exact I|auto])). apply Hend; auto. intros. apply pr_sec; auto.
    + apply Hend; [|constructor]. intros. apply pr_other; [exact I|auto].
    + apply Hend; [|constructor]. intros. apply pr_other; [exact I|auto].
    + apply Hend; [intros; apply pr_attr; auto|]. apply Forall_app. split; auto.
    + apply Hend; [|constructor]. intros. apply pr_other; [exact I|auto].
    + apply Hend; [|constructor]. intros. apply pr_other; [exact I|auto].
  - rename H1 into Hil, H2 into Hch, H3 into Heo. cbn [length] in Hl. rewrite app_length in Hl. cbn [length] in Hl. cbn [bk bsp].
    destruct lf as [|lv hs pos| | | | |l]; try discriminate Hpl; rewrite collect_ok by auto; cbn [bind].
    + destruct (reset_ok _ Hi) as (s1 & -> & HF1). cbn [bind].
      assert (Hfd : feedable src (hlines il 0) (lend il 0) (4 * length src) s1).
      { left. split; [auto|]. split; [auto|]. exists 0. eapply hlines_fed; eauto. }
      destruct (head_lines_ok src (BE (BExit (NLeaf (FHeading lv hs pos))) sp') r _ Hw eq_refl il 0 s1 [] [] true _ Hfd) as (s2 & id & text & -> & Hi2). cbn [bind].
      destruct (unique_id_ok used id) as (id' & -> & _). cbn [bind].
      match goal with |- context [pre_loop f src r s2 ap ?u ?d ?h] => destruct (IH r s2 ap u d h HF' Hi2 Ha ltac:(lia)) as (s' & D & H & hh & E1 & E2 & E3 & E4) end.
      rewrite E1. rewrite <- app_assoc. cbn [app]. eexists s', D, _, _. split; [reflexivity|]. split; [auto|]. split; [apply pr_head; eauto|].
      constructor; [|eauto]. split; reflexivity.
    + rewrite def_url_ok by auto. cbn [bind].
      match goal with |- context [pre_loop f src r s ap ?u ?d ?h] => destruct (IH r s ap u d h HF' Hi Ha ltac:(lia)) as (s' & D & H & hh & E1 & E2 & E3 & E4) end.
      rewrite E1. eexists s', (_ :: D), H, hh. split; [|split; [auto|split; [apply pr_def; exact E3|exact E4]]].
      cbn [rev]. rewrite <- app_assoc. reflexivity.
Qed.
Lemma pre_new_ok src evs : wfb src -> Fl src evs ->
  exists s' D H heads, pre_new src evs = Ok (PP (rev D) heads (sort_heads heads), s') /\ Idle s' /\ Pre src [] evs D H /\ Forall2 head_of heads H.
Proof.
  intros Hw HF. unfold pre_new. destruct (pre_loop_ok src Hw (S (length evs)) evs i_new [] [] [] [] HF Idle_new (Forall_nil _) ltac:(lia)) as (s' & D & H & hh & -> & E2 & E3 & E4).
  cbn [bind]. exists s', D, H, hh. rewrite app_nil_r. cbn [app]. auto.
Qed.
