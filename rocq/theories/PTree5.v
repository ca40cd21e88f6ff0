(** * PTree5: container blocks *)
From Verif Require Import Base Lex Attr Block Lib PSafe SpecAttr PAttr SpecBlock SpecOpen PBlock1 PBlock2 PBlock3 PBlock4 PGram SpecView PView PTree1 PTree2 PTree3 PTree4.
Local Open Scope nat_scope.

Definition task_text (src : bytes) (sp : span) (ik : item_kind) : Prop :=
  forall b, ik = ITask b -> exists ch y, slice src sp = [ch; SP; "["%char; y; "]"%char] /\ b = negb (beq y SP).
Definition kind_cont (src : bytes) (sp_start sp_end : span) (k : bkind) (c : bcont) : Prop :=
  match k with
  | KBlockquote => c = BBlockquote /\ forall x, cont_text src x c sp_start sp_end
  | KFenced _ _ _ _ _ _ => (exists cl, c = BDiv cl) /\ forall x, cont_text src x c sp_start sp_end
  | KDefinition _ _ _ _ => (exists l, c = BFootnote l) /\ forall x, cont_text src x c sp_start sp_end
  | KListItem _ ty _ => lt_ok ty /\ item_text ty (slice src sp_start) /\ (point sp_end /\ lined src sp_start sp_end /\ opened src item_rest sp_start) /\ exists ik, c = BListItem ik /\ task_text src sp_start ik /\
      match ty with LDescription => ik = IDescription /\ slice src sp_start = [":"%char] | _ => item_ok (lt_class ty) ik end
  | _ => False
  end.
Lemma cont_lines_ok src k ol lo ls hi : wfb src -> is_container_kind k -> lines_ok src lo ls hi ->
  exists ls', (match ls with [] => Ok [] | l :: ls => let! ls' := mapr (cont_line src k ol) ls in Ok (l :: ls') end) = Ok ls' /\
    lines_ok src lo ls' hi /\ size ls' <= size ls /\ hd_error ls' = hd_error ls.
Proof.
  intros Hw Hk [Hl Hc]. destruct ls as [|l ls]; [exists []; repeat split; auto|]. inversion Hl; subst.
  destruct (mapr_lines (line_ok src) (cont_line src k ol) ls) as (ys & E & Hy & Hwi); [auto|intros y Hy; apply cont_line_ok; auto|].
  rewrite E. cbn [bind]. exists (l :: ys). split; [auto|]. assert (Hw2 : within (l :: ys) (l :: ls)).
  { constructor; auto. apply H1. } split; [split; [constructor; auto|eapply within_chain; eauto]|]. split; [apply within_size; auto|reflexivity].
Qed.
Lemma fsim_flow_split lf f fs gs ty t x : notlist f -> lframe lf ty t x -> fsim (lf :: f :: fs) gs ->
  exists lf' ty' t' fs', gs = lf' :: f :: fs' /\ fsim fs fs' /\ lframe lf' ty' t' x /\ lt_class ty' = lt_class ty.
Proof.
  intros Hn (L1 & L2 & L3 & L4 & L5) H. inversion H as [|? nd ? gs' Hs Hg]; subst.
  destruct (fsim_inv_cons _ _ _ Hn Hg) as (fs' & -> & Hf). 
  destruct Hs as [<-|(ty1 & t1 & ty' & t' & E & -> & Hc & Hok)].
  - rewrite rename_id. exists lf, ty, t, fs'. repeat split; auto.
  - rewrite L1 in E. injection E as <- <-. exists (rename lf (NCont (BList ty' t'))), ty', t', fs'. split; [auto|]. split; [auto|]. split; [|auto].
    repeat split; cbn [rename f_nd f_ic f_x f_pre f_sp f_lo]; auto. congruence.
Qed.
Lemma BD_list src s lf f fs ty t x pos b : flow x -> notlist f -> lframe lf ty t x ->
  inv src s (addb lf b :: f :: fs) (XList (lt_class ty)) pos -> BD src s [addb lf b] f fs x pos.
Proof. intros Hx Hn HL Hi. split; [auto|]. split; [auto|]. exists ty, t. split; [exact HL|exact Hi]. Qed.
Lemma desc_class ty : lt_class ty = LcDescription -> ty = LDescription.
Proof. destruct ty; cbn; congruence. Qed.

Lemma lframe_view src lf ty t x gs : lframe lf ty t x -> view_of src (lf :: gs) = view_of src gs.
Proof. intros (L1 & _). cbn [view_of]. unfold f_view. rewrite L1. reflexivity. Qed.

Lemma parse_container_ok src rec s pl f fs x pos c k sp_start sp_end ol l ls hi :
  wfb src -> BD src s pl f fs x pos -> takes pl k -> pos <= ss sp_start -> ss sp_start < se sp_start -> span_ok src sp_start ->
  lines_ok src (se sp_start) ls hi -> (forall i ty lb, k = KListItem i ty lb -> hd_error ls = Some l) -> hi <= ss sp_end -> span_ok src sp_end -> is_container_kind k -> kind_cont src sp_start sp_end k c ->
  (forall ls', size ls' <= size ls -> rec_ok src rec ls') -> kview src (view_of src (f :: fs)) k (se sp_start) (ss sp_end) ol ls -> t_pblank s = false -> nxt s k ->
  safe (lim src) (fun s' => (exists pl' f' fs', BD src s' pl' f' fs' x (se sp_end) /\ grow f f' /\ fsim fs fs') /\ lastev s' = Some (BExit (NCont c)))
    (parse_container rec src s c k sp_start sp_end ol ls).
Proof.
  intros Hw HB Ht Hp Hlt Hs1 Hls Hhd Hhi Hs2 Hk Hc Hrec Hkv Hpb Hnx. unfold parse_container.
  destruct (cont_lines_ok src k ol _ ls hi Hw Hk Hls) as (ls' & Els & Hls' & Hsz & Hhd'). rewrite Els. cbn [bind].
  pose proof (kview_cont src _ k _ _ _ _ _ Hk Hkv (proj1 Hls) Els) as Hvw. clear Els.
  pose proof (Hrec ls' Hsz) as Hr. pose proof (point_ok _ _ Hs2) as Hpe. pose proof (point_ok _ _ Hs1) as Hps.
  pose proof HB as (Hx & Hn & Hbd).
  destruct (match k with KListItem _ _ _ => true | _ => false end) eqn:Ek.
  - destruct k; try discriminate Ek. cbn [kind_cont] in Hc. destruct Hc as (Hok & Hit & Hpt & ik & -> & Htk & Hik).
    assert (Hia : item_at src (ss sp_start) ty).
    { exists (slice src sp_start), (skipn (se sp_start) src). split; [|exact Hit]. unfold slice. rewrite <- (firstn_skipn (se sp_start - ss sp_start) (skipn (ss sp_start) src)) at 1. f_equal. rewrite skipn_skipn. f_equal. lia. }
    assert (Hct : ik <> IDescription -> cont_text src (XList (lt_class ty)) (BListItem ik) sp_start sp_end).
    { intros Hne. assert (X : (exists ty0, XList (lt_class ty) = XList (lt_class ty0) /\ item_text ty0 (slice src sp_start) /\ task_text src sp_start ik) /\ point sp_end /\ lined src sp_start sp_end /\ opened src item_rest sp_start) by (split; [exists ty; auto|auto]). destruct ik; [exact X|congruence|exact X]. }
    eapply safe_bind; [eapply open_list_ok; eauto|]. intros s1 (Hnx1 & lf & ty' & t & HL & Hcl & Hi).
    pose proof (lframe_view src lf _ _ _ (f :: fs) HL) as Hlv.
    destruct ik as [b| | ].
    + assert (Hio : item_ok (lt_class ty) (ITask b)) by (destruct ty; cbn in *; auto; destruct Hik; discriminate).
      set (nf := Fr [] (NCont (BListItem (ITask b))) sp_start XFlow (XList (lt_class ty)) (ss sp_start) []).
      eapply safe_weaken.
      * apply (core_ok src rec s1 lf (f :: fs) (XList (lt_class ty)) (ss sp_start) nf ls' hi sp_end); auto.
        -- apply list_plain.
        -- eapply frame_cont; [apply ci_item; auto|reflexivity|auto|auto].
        -- right. cbn [nf f_x f_nd]. split; [exact I|]. left. reflexivity.
        -- apply Hct. discriminate.
        -- change (view_of src (nf :: lf :: f :: fs)) with (narrow src BxItem (se sp_start) (view_of src (lf :: f :: fs))). rewrite Hlv. exact Hvw.
        -- apply Hnx1. right; left. eexists. reflexivity.
      * intros s' ((b' & g' & gs' & Hi' & Hfs) & Hla). split; [|exact Hla]. destruct (fsim_flow_split _ _ _ _ _ _ _ Hn HL Hfs) as (lf' & ty2 & t2 & fs2 & E & Hf2 & HL2 & Hc2).
        injection E as -> ->. exists [addb lf' b'], f, fs2. split; [|split; [apply grow_refl|auto]]. apply (BD_list _ _ _ _ _ ty2 t2); auto. rewrite Hc2, Hcl. exact Hi'.
    + (* description *)
      assert (ty = LDescription /\ slice src sp_start = [":"%char]) as [-> Hcolon].
      { destruct ty; cbn in Hik; try contradiction; tauto. } clear Hik.
      assert (Hcol : colon src sp_start) by (split; [exact Hcolon|]; destruct Hpt as (_ & _ & (e0 & O1 & O2 & _)); exists e0; auto).
      cbn [lt_class] in *.
      assert (Hlen : se sp_start = ss sp_start + 1).
      { pose proof (span_ok_len _ _ Hs1) as E. rewrite Hcolon in E. cbn in E. lia. }
      unfold sp_trim_end. rewrite span_ok_ssub by auto. rewrite Hcolon. cbn [trim_end_m bind length se ss].
      change (is_ws ":") with false. cbn [length].
      replace (Sp (ss sp_start + 1) (ss sp_start + 1)) with (Sp (se sp_start) (se sp_start)) by (f_equal; lia).
      change (t_enter s1 (NLeaf FDescriptionTerm) sp_start) with (t_inlines (t_enter s1 (NLeaf FDescriptionTerm) sp_start) []).
      rewrite leaf_chunk. cbn [bind inl_evs map app].
      specialize (Hhd _ _ _ eq_refl). rewrite <- Hhd' in Hhd. destruct ls' as [|l0 ls']; [discriminate|]. injection Hhd as ->.
      change (get_at (l :: ls') 0 "block.rs:640") with (Ok (A := span) l). cbn [bind].
      destruct Hls' as [Hl0 Hch]. inversion Hl0 as [|? ? Hl1 Hl2]; subst. cbn [chain] in Hch. destruct Hch as (C1 & C2 & C3).
      set (pre := [BE (BEnter (NLeaf FDescriptionTerm)) sp_start; BE (BExit (NLeaf FDescriptionTerm)) (Sp (se sp_start) (se sp_start))]).
      set (df := Fr pre (NCont (BListItem IDescription)) (Sp (ss l) (ss l)) XFlow (XList LcDescription) (ss sp_start) []).
      set (s3 := t_set_events s1 (t_events s1 ++ pre)).
      assert (Hse1 : span_ok src (Sp (se sp_start) (se sp_start))).
      { destruct Hs1 as (A & C & D & E). repeat split; cbn [ss se]; auto; lia. }
      assert (Hle1 : span_ok src (Sp (ss l) (ss l))) by (apply point_ok; apply Hl1).
      assert (Hfd : frame_ok src (view_of src (lf :: f :: fs)) df).
      { split; [cbn; lia|]. intros nd inner m q sp' Hsim Hin Hm Hq Hsp' Hnt _. cbn [df f_pre f_nd f_sp f_ic f_x f_lo aft] in *.
        destruct Hsim as [<-|(? & ? & ? & ? & E & _)]; [|discriminate E]. cbn [pre app].
        apply (s_desc src _ (ss sp_start) None sp_start [] (Sp (se sp_start) (se sp_start)) [] (Sp (ss l) (ss l)) inner m q sp' []); auto; try discriminate; try exact I.
        - split; [constructor|]. cbn. lia.
        - constructor. auto. }
      destruct HL as (L1 & L2 & L3 & L4 & L5). assert (Hty' : ty' = LDescription) by (apply desc_class; auto). subst ty'.
      assert (Hi4 : BD src (t_enter s3 (NCont (BListItem IDescription)) (Sp (ss l) (ss l))) [] df (lf :: f :: fs) XFlow (ss l)).
      { split; [left; auto|]. split; [exact I|]. destruct Hi as ((Hz & Ho & Hl & Hs) & He & Hli & Hwk). split; [split; [|split; [|split]]|split; [|split]].
        - constructor; cbn [df f_x f_lo f_ic f_sp f_body se]; auto; [|constructor; auto]. right. cbn [f_x f_nd]. split; [exact I|]. left. reflexivity.
        - change (length (t_events s1 ++ pre) :: t_open s1 = f_at df (lf :: f :: fs) :: opens (lf :: f :: fs)). rewrite Ho. f_equal. unfold f_at. rewrite He, app_length. reflexivity.
        - exact Hl.
        - change (t_secs s1 = secs (lf :: f :: fs) ++ []). rewrite app_nil_r. exact Hs.
        - change ((t_events s1 ++ pre) ++ [BE (BEnter (NCont (BListItem IDescription))) (Sp (ss l) (ss l))] = flatten (df :: lf :: f :: fs)).
          rewrite He. cbn [flatten]. change (f_evs df) with (pre ++ [BE (BEnter (NCont (BListItem IDescription))) (Sp (ss l) (ss l))]). rewrite <- !app_assoc. reflexivity.
        - change (lin (t_pblank s1) False (df :: lf :: f :: fs)). split; [exact I|]. eapply lin_weaken; [exact Hli|intros []|auto].
        - change (walk None (vis ((t_events s1 ++ pre) ++ [BE (BEnter (NCont (BListItem IDescription))) (Sp (ss l) (ss l))]))). unfold pre.
          rewrite vis_app, (vis_app (t_events s1)). apply walk_app. split; [apply walk_app; split; [exact Hwk|]|].
          + cbn [vis map bk filter seen walk]. split; [apply Hnx1; right; right; reflexivity|]. split; [apply opart_exit|exact I].
          + rewrite lastk_app. cbn [vis map bk filter seen walk lastk]. split; [exact I|exact I]. }
      assert (Hdt : length (t_events s1) = length (flatten (lf :: f :: fs))) by (f_equal; apply Hi).
      assert (Hop : length (t_open s1) = length (lf :: f :: fs)) by (destruct Hi as ((_ & -> & _) & _); apply opens_length).
      eapply safe_bind.
      * apply (Hr _ df (lf :: f :: fs) (ss l) hi Hi4); [split; [auto|]; cbn [chain]; auto| |apply nxl_quiet; unfold lastev; cbn [t_enter t_set_open t_push t_set_events t_events]; rewrite last_snoc by reflexivity; apply quiet_enter]. change (view_of src (df :: lf :: f :: fs)) with (narrow src BxItem (se sp_start) (view_of src (lf :: f :: fs))). rewrite Hlv. exact Hvw.
      * intros s5 (pl' & f' & fs' & HB5 & [bb ->] & Hfs).
        change (length (t_open s3)) with (length (t_open s1)). 
        replace (length (t_events s3)) with (length (t_events s1) + 2) by (cbn [s3 t_events t_set_events]; rewrite app_length; reflexivity).
        rewrite Hdt, Hop. rewrite (fsim_length _ _ Hfs), (fsim_flat _ _ Hfs).
        destruct (move_term_ok src s5 pl' (addb df bb) fs' hi sp_start (Sp (se sp_start) (se sp_start)) (ss l) (ss sp_end)) as (s6 & pl6 & df6 & E6 & HB6 & X6 & I6 & N6); auto.
        rewrite E6. cbn [bind].
        assert (HL : lframe lf LDescription t x) by (repeat split; auto).
        destruct (fsim_flow_split _ _ _ _ _ _ _ Hn HL Hfs) as (lf' & ty2 & t2 & fs2 & -> & Hf2 & HL2 & Hc2).
        destruct (tail_ok src s6 pl6 df6 lf' (f :: fs2) (XList LcDescription) hi sp_end HB6) as (s' & b' & E & Hi' & Hla); auto; [reflexivity|rewrite N6; split; apply Hpt|].
        rewrite E. cbn [safe]. rewrite N6 in Hla. split; [|apply Hla; reflexivity]. exists [addb lf' b'], f, fs2. split; [|split; [apply grow_refl|auto]].
        apply (BD_list _ _ _ _ _ ty2 t2); auto. rewrite Hc2. exact Hi'.
    + (* plain item *)
      assert (Hio : item_ok (lt_class ty) IList) by (destruct ty; cbn in *; auto; destruct Hik; discriminate).
      set (nf := Fr [] (NCont (BListItem IList)) sp_start XFlow (XList (lt_class ty)) (ss sp_start) []).
      eapply safe_weaken.
      * apply (core_ok src rec s1 lf (f :: fs) (XList (lt_class ty)) (ss sp_start) nf ls' hi sp_end); auto.
        -- apply list_plain.
        -- eapply frame_cont; [apply ci_item; auto|reflexivity|auto|auto].
        -- right. cbn [nf f_x f_nd]. split; [exact I|]. left. reflexivity.
        -- apply Hct. discriminate.
        -- change (view_of src (nf :: lf :: f :: fs)) with (narrow src BxItem (se sp_start) (view_of src (lf :: f :: fs))). rewrite Hlv. exact Hvw.
        -- apply Hnx1. right; left. eexists. reflexivity.
      * intros s' ((b & g' & gs' & Hi' & Hfs) & Hla). split; [|exact Hla]. destruct (fsim_flow_split _ _ _ _ _ _ _ Hn HL Hfs) as (lf' & ty2 & t2 & fs2 & E & Hf2 & HL2 & Hc2).
        injection E as -> ->. exists [addb lf' b], f, fs2. split; [|split; [apply grow_refl|auto]]. apply (BD_list _ _ _ _ _ ty2 t2); auto. rewrite Hc2, Hcl. exact Hi'.
  - assert (Epl : pl = []) by (destruct pl; [auto|]; destruct k; try discriminate Ek; contradiction). subst pl.
    assert (Hm : maybe_open_list s k (ss sp_start) = Ok s) by (destruct k; try reflexivity; discriminate Ek). rewrite Hm. cbn [bind].
    assert (Hci : cont_in x c sp_start XFlow x /\ match c with BListItem _ => False | _ => True end /\ wt (NCont c) = 1 /\ notlist (Fr [] (NCont c) sp_start XFlow x pos [])).
    { destruct k; cbn [kind_cont] in Hc; try contradiction; try discriminate Ek.
      - destruct Hc as [[cl ->] Hct]. split; [apply ci_div; assumption|]. split; [exact I|]. split; [reflexivity|exact I].
      - destruct Hc as [[cl ->] Hct]. split; [apply ci_note; assumption|]. split; [exact I|]. split; [reflexivity|exact I].
      - destruct Hc as [-> Hct]. split; [apply ci_quote; assumption|]. split; [exact I|]. split; [reflexivity|exact I]. }
    assert (Hct : forall x, cont_text src x c sp_start sp_end) by (destruct k; cbn [kind_cont] in Hc; try contradiction; try discriminate Ek; apply Hc).
    destruct Hci as (Hci & Hni & Hwt & Hnl).
    set (nf := Fr [] (NCont c) sp_start XFlow x pos []) in *.
    replace (match c with BListItem IDescription => _ | _ => _ end) with (let! s5 := rec (t_enter s (f_nd nf) (f_sp nf)) ls' in let! s7 := close_inner_list s5 (ss sp_end) in t_exit s7 sp_end) by (destruct c; try reflexivity; contradiction).
    eapply safe_weaken.
    + apply (core_ok src rec s f fs x pos nf ls' hi sp_end); auto.
      * apply flow_plain; auto.
      * eapply frame_cont; [exact Hci| |auto|auto]. symmetry. apply flow_plain. auto.
      * right. cbn [nf f_x f_nd]. split; [apply sq_okend_flow; auto|]. left. auto.
      * apply Hct.
      * cbn [view_of]. unfold f_view at 1. cbn [nf f_nd nbox f_q f_pre f_sp]. replace (bbox c) with (kbox k); [exact Hvw|]. clear - Hc Ek. destruct k; try discriminate Ek; cbn [kind_cont] in Hc; try contradiction; destruct Hc as [Hc _]; first [rewrite Hc; reflexivity|destruct Hc as [? ->]; reflexivity].
      * apply Hnx. change (starts k (BEnter (NCont c))). clear - Hc Ek. destruct k; try discriminate Ek; cbn [kind_cont] in Hc; try contradiction; destruct Hc as [Hc _]; first [rewrite Hc; reflexivity|destruct Hc as [? -> ]; right; eexists; reflexivity].
      * cbn [nf f_nd]. destruct c; reflexivity || contradiction || (destruct k; try discriminate Ek; cbn [kind_cont] in Hc; try contradiction; destruct Hc as [Hc _]; first [discriminate Hc|destruct Hc; discriminate]).
    + intros s' ((b & g' & gs' & Hi' & Hfs) & Hla). split; [|exact Hla]. destruct (fsim_inv_cons _ _ _ Hn Hfs) as (fs2 & E & Hf2). injection E as -> ->.
      exists [], (addb f b), fs2. split; [split; [auto|split; [exact Hn|exact Hi']]|]. split; [exists b; auto|auto].
Qed.
