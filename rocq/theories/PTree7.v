(** * PTree7: blocks, sections, documents *)
From Verif Require Import Base Lex Attr Block Lib PSafe SpecAttr PAttr SpecBlock PBlock1 PBlock2 PMark PBlock3 PBlock4 PGram SpecView PView PTree1 PTree2 PTable PTree3 PTree4 PTree5 PTree6.
Local Open Scope nat_scope.

(** ** The events of one block *)
Definition stepped (src : bytes) (f : frame) (fs : list frame) (x : ctx) (pos : nat) (s' : tstate) : Prop :=
  exists pl' f' fs', BD src s' pl' f' fs' x pos /\ grow f f' /\ fsim fs fs'.
Lemma grow_view src f f' fs fs' : grow f f' -> fsim fs fs' -> view_of src (f' :: fs') = view_of src (f :: fs).
Proof. intros [b ->] H. cbn [view_of]. rewrite view_addb, (fsim_view _ _ _ H). reflexivity. Qed.
Lemma add_stepped src s f fs x pos ch pos' : BD src s [] f fs x pos -> sq src (view_of src (f :: fs)) x pos ch x pos' -> walk (lastev s) (vis ch) ->
  stepped src f fs x pos' (t_set_events s (t_events s ++ ch)).
Proof.
  intros (Hx & Hn & H) Hs Hwk. exists [], (addb f ch), fs. split; [|split; [exists ch; auto|apply fsim_refl]].
  split; [auto|]. split; [exact Hn|]. eapply inv_add; eauto.
Qed.
(** The last event of a block. *)
Definition ends (k : bkind) (b : bkind_ev) : Prop :=
  match k with
  | KAtom a => b = BAtom a
  | KParagraph => b = BExit (NLeaf FParagraph)
  | KHeading lv => exists h p, b = BExit (NLeaf (FHeading lv h p))
  | KFenced _ _ _ _ _ _ => (exists l, b = BExit (NLeaf (FCodeBlock l))) \/ exists c, b = BExit (NCont (BDiv c))
  | KDefinition _ _ _ _ => (exists l, b = BExit (NLeaf (FLinkDefinition l))) \/ exists l, b = BExit (NCont (BFootnote l))
  | KBlockquote => b = BExit (NCont BBlockquote)
  | KListItem _ _ _ => exists ik, b = BExit (NCont (BListItem ik))
  | KTable _ _ => b = BExit (NCont BTable)
  end.
Lemma ends_follow k a k2 b : ends k a -> follows k k2 -> starts k2 b -> apart a b.
Proof.
  intros H1 H2 H3. destruct k; cbn in H1, H2.
  - subst a. apply quiet_atom.
  - subst a k2. cbn in H3. subst b. cbn. reflexivity.
  - destruct H1 as (h & p & ->). destruct H2 as [H2 H4]. destruct k2; cbn in H3;
      repeat match goal with X : _ \/ _ |- _ => destruct X | X : exists _, _ |- _ => destruct X end; subst b; cbn; try exact I;
      (split; [first [discriminate|congruence]|intros h' p' E; first [discriminate E|inversion E; congruence]]).
  - destruct H1 as [[l ->]|[c' ->]]; destruct b; cbn; exact I.
  - destruct H1 as [[l ->]|[c' ->]]; destruct b; cbn; exact I.
  - subst a. destruct H2 as [H2 H4]. destruct k2; cbn in H3;
      repeat match goal with X : _ \/ _ |- _ => destruct X | X : exists _, _ |- _ => destruct X end; subst b; cbn; try exact I;
      (split; first [discriminate|congruence]).
  - destruct H1 as [ik ->]. destruct b; exact I.
  - subst a. destruct k2; cbn in H3, H2; try contradiction;
      repeat match goal with X : _ \/ _ |- _ => destruct X | X : exists _, _ |- _ => destruct X end; subst b; cbn; try exact I; discriminate.
Qed.
Lemma ends_nxl src s k a ls : lastev s = Some a -> ends k a -> next_is src (follows k) ls -> nxl src s ls.
Proof.
  intros Hl He H. destruct ls as [|l ls]; [exact I|]. intros k2 sp2 E b Hb. rewrite Hl. cbn [opart]. exact (ends_follow _ _ _ _ He (H _ _ E) Hb).
Qed.
Lemma cont_starts src k0 k ls b : cont_rel src k0 k ls -> starts k b -> starts k0 b.
Proof.
  intros H Hb. destruct k0; cbn [cont_rel] in H.
  all: try (subst k; exact Hb).
  all: try (destruct H as [-> _]; exact Hb).
  all: try (destruct H as [_ ->]; exact Hb).
  all: try (destruct H as (? & ->); exact Hb).
  all: try (destruct H as (? & ? & -> & _); exact Hb).
  all: destruct caption; [subst k; exact Hb|]; destruct H as (? & ? & ? & ? & -> & _); exact Hb.
Qed.
Lemma prep_starts src line0 rest k a b ol ls n : Forall (line_ok src) (line0 :: rest) -> prep src line0 rest = Ok (k, a, b, ol, ls, n) ->
  exists k0 sp0, identify (slice src line0) = Ok (k0, sp0) /\ forall b, starts k b -> starts k0 b.
Proof.
  intros Hl H. inversion Hl as [|? ? Hl0 Hlr]; subst. unfold prep in H. apply bind_ok in H. destruct H as ([[k1 sp0] lc] & Em & H). cbn iota beta in H.
  unfold metered in Em. rewrite span_ok_ssub in Em by apply Hl0. cbn [bind] in Em. apply bind_ok in Em. destruct Em as ([k0 sp] & Ei & Em). cbn iota beta in Em.
  apply bind_ok in Em. destruct Em as ([m k'] & Et & Em). cbn iota beta in Em. assert (X : k1 = k') by (injection Em as <- <- <-; auto). clear Em. subst k1.
  apply bind_ok in H. destruct H as (ls1 & _ & H). apply bind_ok in H. destruct H as (el & _ & H). apply bind_ok in H. destruct H as (olx & _ & H).
  apply bind_ok in H. destruct H as (ls2 & _ & H). apply bind_ok in H. destruct H as (ls3 & _ & H).
  assert (X : k = k') by (injection H as <- _ _ _ _ _; auto). subst k.
  destruct (take_cont_ok src rest Hlr k0) as (m2 & k2 & Et2 & _ & Hrel). rewrite Et in Et2. apply okp in Et2. destruct Et2 as [-> ->].
  exists k0, sp. split; [exact Ei|]. intros b0. eapply cont_starts. exact Hrel.
Qed.
Lemma takes_nil pl k : takes pl k -> is_item_kind k = false -> pl = [].
Proof. destruct pl; [auto|]. cbn. destruct k; try contradiction. discriminate. Qed.
(** Cutting indentation and blanks at the end does not make a line a closing fence. *)
Lemma closing_more c n a t b : indentation a -> blanks_only b -> closing_fence c n t -> closing_fence c n (a ++ t ++ b).
Proof.
  intros Ha Hb (a1 & m & b1 & -> & Hm & Ha1 & Hb1). exists (a ++ a1), m, (b1 ++ b). rewrite <- !app_assoc. split; [auto|]. split; [auto|].
  split; [apply Forall_app; auto|apply Forall_app; auto].
Qed.
Lemma map_last_Forall2 {A} (f : A -> res A) (R : A -> A -> Prop) : (forall x, R x x) -> (forall x y, f x = Ok y -> R x y) ->
  forall ls ys, map_last f ls = Ok ys -> Forall2 R ls ys.
Proof.
  intros Hr Hf ls ys H. unfold map_last in H. destruct (last_opt ls) as [x|] eqn:E.
  - apply last_opt_some in E. destruct E as [l' ->]. apply bind_ok in H. destruct H as (y & Ey & H). injection H as <-. rewrite butlast_app.
    apply Forall2_app; [|constructor; auto]. clear -Hr. induction l'; constructor; auto.
  - apply last_opt_none in E. subst ls. injection H as <-. constructor.
Qed.
Lemma code_lines src lf c n ls ys i f fk spec cl nst : Forall (line_ok src) ls -> leaf_lines src lf (KFenced i f fk spec cl nst) ls = Ok ys ->
  Forall (fun l => ~ closing_fence c n (slice src l)) ls -> Forall (fun l => ~ closing_fence c n (slice src l)) ys.
Proof.
  intros Hl E Hn. cbn [leaf_lines] in E. apply bind_ok in E. destruct E as (l1 & E1 & E).
  assert (H1 : Forall (fun l => ~ closing_fence c n (slice src l)) l1).
  { apply mapr_Forall2 in E1. clear E. revert Hl Hn. induction E1 as [|x y ls ys1 E1 _ IH]; intros Hl Hn; [constructor|]. constructor; [|inversion Hl; inversion Hn; subst; auto].
    apply Forall_inv in Hl. apply Forall_inv in Hn. rename Hl into H2. intros H. apply Hn; clear IH Hn. unfold unindent in E1. rewrite span_ok_bsub in E1 by apply H2. cbn [bind] in E1. injection E1 as <-.
    set (k := Nat.min i (count_while ws_not_nl (slice src x))) in *.
    assert (Hk : k <= se x - ss x) by (unfold k; pose proof (count_while_le ws_not_nl (slice src x)) as Q; rewrite (span_ok_len _ _ (proj1 H2)) in Q; lia).
    assert (Hxx : ss x <= se x) by apply H2. destruct x as [xs xe]. cbn [ss se] in *. rewrite <- (slice_app src xs (xs + k) xe) by lia.
    replace (slice src (Sp xs (xs + k)) ++ slice src (Sp (xs + k) xe)) with (slice src (Sp xs (xs + k)) ++ slice src (Sp (xs + k) xe) ++ []) by (rewrite app_nil_r; auto).
    apply closing_more; auto; [|constructor].
    replace (slice src (Sp xs (xs + k))) with (firstn k (slice src (Sp xs xe))) by (unfold slice; cbn [ss se]; rewrite firstn_firstn; f_equal; lia).
    pose proof (indent_trim (slice src (Sp xs xe))) as Hi. replace k with (Nat.min k (count_while ws_not_nl (slice src (Sp xs xe)))) by (unfold k; lia).
    rewrite <- firstn_firstn. apply Forall_firstn. exact Hi. }
  destruct (starts_c spec "="); [|injection E as <-; auto].
  apply (map_last_Forall2 _ (fun x y => x = y \/ exists b, blanks_only b /\ slice src x = slice src y ++ b)) in E; auto.
  - revert H1. clear - E. induction E as [|x y ls ys E _ IH]; intros H1; constructor; inversion H1; subst; auto.
    destruct E as [->|(b & Hb & Hs)]; [auto|]. intros H. apply H2. rewrite Hs. apply (closing_more c n [] (slice src y) b); auto. constructor.
  - intros x y Exy. unfold sp_trim_end in Exy. apply bind_ok in Exy. destruct Exy as (s & Es & Exy). injection Exy as <-. right. unfold ssub in Es. destruct (_ && _)%bool eqn:Eb in Es; [|discriminate Es]. injection Es as <-.
    destruct (trim_end_spec is_ws (slice src x)) as (t & Et & Hb & _). exists t. split; [apply blanks_forallb; exact Hb|]. rewrite Et at 1. f_equal.
    pose proof (trim_end_le is_ws (slice src x)) as Q. assert (Q2 : length (slice src x) <= se x - ss x) by (unfold slice; apply firstn_le_length).
    pose proof (trim_end_prefix is_ws (slice src x)) as Q3. set (n0 := length (trim_end_m is_ws (slice src x))) in *. clearbody n0. rewrite Q3. unfold slice. cbn [ss se]. rewrite firstn_firstn. f_equal. lia.
Qed.
Lemma leaf_ev_ok src s f fs x pos lf k sp_start sp_end ls ls' : BD src s [] f fs x pos -> opart (lastev s) (BEnter (NLeaf lf)) -> pos <= ss sp_start -> span_ok src sp_start -> span_ok src sp_end ->
  leaf_lines src lf k ls = Ok ls' -> Forall (ispan src) ls' -> lf_eols src lf ls' -> chain (se sp_start) ls' (ss sp_end) -> (forall inl, leaf_in x lf sp_start inl x) ->
  leaf_text src (view_of src (f :: fs)) lf sp_start (filter (fun l => negb (sp_empty l)) ls') sp_end ->
  exists s', t_exit (t_inlines (t_enter s (NLeaf lf) sp_start) (filter (fun l => negb (sp_empty l)) ls')) sp_end = Ok s' /\ stepped src f fs x (se sp_end) s' /\ lastev s' = Some (BExit (NLeaf lf)).
Proof.
  intros HB Hop Hp Hs1 Hs2 E Hi He Hc Hl Ht. rewrite leaf_chunk. destruct (walk_leaf (lastev s) lf sp_start (filter (fun l => negb (sp_empty l)) ls') sp_end Hop) as [Hw1 Hw2].
  eexists. split; [reflexivity|]. split; [|unfold lastev; cbn [t_events t_set_events]; rewrite vis_app, lastk_app; exact Hw2]. eapply add_stepped; [exact HB| |exact Hw1].
  eapply s_leaf; [apply Hl|apply lf_eols_filter; auto|auto|auto| |auto|constructor; auto|exact Ht].
  split; [apply incl_Forall with (l1 := ls'); [apply incl_filter|auto]|apply chain_filter; auto].
Qed.
Lemma parse_leaf_ok src s f fs x pos lf k sp_start sp_end ls : wfb src -> BD src s [] f fs x pos -> opart (lastev s) (BEnter (NLeaf lf)) -> pos <= ss sp_start -> span_ok src sp_start -> span_ok src sp_end ->
  lines_ok src (se sp_start) ls (ss sp_end) -> (forall inl, leaf_in x lf sp_start inl x) -> (forall l p, lf <> FHeading l true p) ->
  (forall ls', leaf_lines src lf k ls = Ok ls' -> leaf_text src (view_of src (f :: fs)) lf sp_start (filter (fun l => negb (sp_empty l)) ls') sp_end) ->
  exists s', parse_leaf src s lf k sp_start sp_end ls = Ok s' /\ stepped src f fs x (se sp_end) s' /\ lastev s' = Some (BExit (NLeaf lf)).
Proof.
  intros Hw HB Hop Hp Hs1 Hs2 Hls Hl Hns Htx. unfold parse_leaf. destruct (leaf_lines_ok src lf k _ _ _ Hw Hls) as (ls' & E & Hi & Hc). rewrite E. cbn [bind].
  replace (match k with KHeading level => match lf with FHeading _ true _ => open_section s level (ss sp_start) | _ => Ok s end | _ => Ok s end) with (Ok s).
  2:{ destruct k; auto. destruct lf; auto. destruct has_section; auto. destruct (Hns _ _ eq_refl). }
  cbn [bind]. eapply leaf_ev_ok; eauto using leaf_lines_eols.
Qed.

Lemma emit_ok src rec s pl f fs x pos top k sp_start sp_end ol ls :
  wfb src -> before src s k pl f fs x pos -> nxt s k -> takes pl k -> pos <= ss sp_start -> span_ok src sp_start -> span_ok src sp_end -> kfact src k sp_start ls ->
  lines_ok src (se sp_start) ls (ss sp_end) -> (kdec k = 1 -> forall ls', size ls' <= size ls -> rec_ok src rec ls') ->
  match k with KHeading _ => top = false /\ x = XFlow | _ => True end -> ktext src k sp_start sp_end ls -> kview src (view_of src (f :: fs)) k (se sp_start) (ss sp_end) ol ls ->
  safe (lim src) (fun s' => stepped src f fs x (se sp_end) s' /\ exists b, lastev s' = Some b /\ ends k b) (emit rec src s top k sp_start sp_end ol ls).
Proof.
  intros Hw HBf Hnx Ht Hp Hs1 Hs2 Hk Hls Hrec Htop Htx Hkv.
  assert (Hbl : k = KAtom BBlankline \/ k <> KAtom BBlankline) by (destruct k as [[]| | | | | | |]; auto; right; discriminate).
  destruct Hbl as [Hbl|Hbl].
  { subst k. destruct HBf as [HB _]. assert (pl = []) by (eapply takes_nil; eauto). subst pl. cbn [emit kfact safe] in *. destruct HB as (Hx & Hn & HB).
    assert (Hse : se sp_start <= ss sp_end) by (destruct Hls as [_ Hls]; apply chain_le in Hls; auto).
    change (t_push s (BAtom BBlankline) sp_start) with (t_set_events s (t_events s ++ [BE (BAtom BBlankline) sp_start])).
    split; [|exists (BAtom BBlankline); split; [apply last_snoc; reflexivity|reflexivity]].
    exists [], (addb f [BE (BAtom BBlankline) sp_start]), fs. split; [|split; [eexists; reflexivity|apply fsim_refl]]. split; [auto|]. split; [exact Hn|].
    eapply inv_blank; [exact HB| |apply Hnx; reflexivity]. apply s_atom; auto; [left; auto|]. constructor. destruct Hs2 as (? & _). lia. }
  pose proof (before_BD _ _ _ _ _ _ _ _ HBf Hbl) as HB. pose proof (before_pb _ _ _ _ _ _ _ _ HBf Hbl) as Hpb. clear HBf. pose proof HB as (Hx & Hn & _).
  assert (Hse : se sp_start <= ss sp_end) by (destruct Hls as [_ Hls]; apply chain_le in Hls; auto).
  assert (Hcont : forall c, is_container_kind k -> ss sp_start < se sp_start -> kind_cont src sp_start sp_end k c -> (forall i ty lb, k = KListItem i ty lb -> exists l r, ls = l :: r) -> ends k (BExit (NCont c)) ->
    safe (lim src) (fun s' => stepped src f fs x (se sp_end) s' /\ exists b, lastev s' = Some b /\ ends k b) (parse_container rec src s c k sp_start sp_end ol ls)).
  { intros c H1 H2 H3 H4 H5. eapply safe_weaken with (P := fun s' => stepped src f fs x (se sp_end) s' /\ lastev s' = Some (BExit (NCont c))); [|intros s9 [Q1 Q2]; split; [exact Q1|eexists; split; [exact Q2|exact H5] ] ].
    apply (parse_container_ok src rec s pl f fs x pos c k sp_start sp_end ol (hd (Sp 0 0) ls) ls (ss sp_end)); auto.
    - intros i ty lb E. destruct (H4 i ty lb E) as (l & r & ->). reflexivity.
    - apply Hrec. destruct k; try contradiction; reflexivity. }
  destruct k; cbn [emit kfact] in *.
  - (* atom *) assert (pl = []) by (eapply takes_nil; eauto). subst pl. cbn [safe].
    change (t_push s (BAtom a) sp_start) with (t_set_events s (t_events s ++ [BE (BAtom a) sp_start])).
    split; [|exists (BAtom a); split; [apply last_snoc; reflexivity|reflexivity]].
    eapply add_stepped; [exact HB| |split; [apply Hnx; reflexivity|exact I]]. apply s_atom; auto; [left; auto|]. constructor. destruct Hs2 as (? & _). lia.
  - assert (pl = []) by (eapply takes_nil; eauto). subst pl.
    destruct (parse_leaf_ok src s f fs x pos FParagraph KParagraph sp_start sp_end ls) as (s' & -> & H & Hla); auto; try discriminate; try (apply Hnx; reflexivity); try (split; [exact H|eexists; split; [exact Hla|reflexivity]]); try (intros ls' _; exact Htx); (intros; constructor; auto).
  - assert (pl = []) by (eapply takes_nil; eauto). subst pl. destruct Htop as [-> ->]. unfold to_u16. destruct Hk as (K1 & K2 & K3 & K4 & K5).
    destruct (N.ltb_spec (N.of_nat level) 65536) as [Hlt|Hge]; cbn [bind safe].
    + destruct (parse_leaf_ok src s f fs XFlow pos (FHeading level false (to_u32 (ss sp_start))) (KHeading level) sp_start sp_end ls) as (s' & -> & H & Hla); auto; try discriminate; try (apply Hnx; do 2 eexists; reflexivity); try (split; [exact H|eexists; split; [exact Hla|do 2 eexists; reflexivity]]); try (intros ls' _; exact Htx); (intros; constructor; auto).
    + left. split; [auto|]. exists K3, level, K4. auto.
  - destruct k; cbv beta iota.
    + destruct Htx as [(M1 & M2 & M3) (M4 & _ & M5)]. apply Hcont; [exact I|auto| |discriminate|right; eexists; reflexivity]. split; [exists spec; auto|]. intros x0. exists flen. auto.
    + assert (pl = []) by (eapply takes_nil; eauto). subst pl.
      match goal with |- context [parse_leaf src s ?lf ?k sp_start sp_end ls] => destruct (parse_leaf_ok src s f fs x pos lf k sp_start sp_end ls) as (s' & -> & H & Hla); auto; [apply Hnx; left; eexists; reflexivity|intros; constructor; auto|discriminate| |split; [exact H|eexists; split; [exact Hla|left; eexists; reflexivity] ] ] end.
      intros ls' El. destruct Htx as [(M1 & M2 & M3 & M5) (M4 & M6 & M7)]. cbn [fence_char] in *. exists c, flen. split; [auto|]. split; [auto|]. split; [auto|]. split; [auto|]. split; [|split; [auto|]; split; [auto|]; eapply kview_code; eauto].
      apply incl_Forall with (l1 := ls'); [apply incl_filter|]. eapply code_lines; [apply Hls|exact El|]. apply M6. reflexivity.
  - destruct footnote.
    + destruct Htx as [[M1 _] M2]. apply Hcont; [exact I|auto| |discriminate|right; eexists; reflexivity]. split; [exists label; auto|]. intros x0. split; [exact M1|exact M2].
    + assert (pl = []) by (eapply takes_nil; eauto). subst pl. destruct Htx as [[M1 M3] M2].
      match goal with |- context [parse_leaf src s ?lf ?k sp_start sp_end ls] => destruct (parse_leaf_ok src s f fs x pos lf k sp_start sp_end ls) as (s' & -> & H & Hla); auto; [apply Hnx; left; eexists; reflexivity|intros; constructor; auto|discriminate| |split; [exact H|eexists; split; [exact Hla|left; eexists; reflexivity] ] ] end.
      intros ls' _. split; [exact M1|]. split; [auto|exact M2].
  - apply Hcont; [exact I|auto| |discriminate|reflexivity]. split; [reflexivity|]. intros x0. exact Htx.
  - destruct Hk as (K1 & K2 & K3 & K4).
    destruct Htx as [M1 M2]. assert (Hc : forall ik, task_text src sp_start ik -> match ty with LDescription => ik = IDescription /\ slice src sp_start = [":"%char] | _ => item_ok (lt_class ty) ik end ->
       safe (lim src) (fun s' => stepped src f fs x (se sp_end) s' /\ exists b, lastev s' = Some b /\ ends (KListItem indent ty last_blank) b) (parse_container rec src s (BListItem ik) (KListItem indent ty last_blank) sp_start sp_end ol ls)).
    { intros ik Htk Hik. apply Hcont; [exact I|auto| |auto|eexists; reflexivity]. split; [auto|]. split; [exact M1|]. split; [exact M2|]. exists ik. auto. }
    destruct ty; cbn [bind]; try (apply Hc; [discriminate|cbn; auto]; fail).
    destruct (get_at_some src (ss sp_start + 3) "block.rs:455") as (ch & Ech & ->); [lia|]. cbn [bind]. apply Hc; [|exact I]. intros b [= <-]. destruct M1 as (y & M1 & _). exists c, y. split; [exact M1|].
    pose proof (slice_nth src sp_start 3) as Q. pose proof (span_ok_len _ _ Hs1) as Q2. rewrite M1 in Q2. cbn [length] in Q2. specialize (Q ltac:(lia)). rewrite M1, Ech in Q. injection Q as ->. reflexivity.
  - assert (pl = []) by (eapply takes_nil; eauto). subst pl. destruct Hk as [K1 K2].
    destruct (parse_table_ok src s ls sp_start sp_end x pos) as (inner & Ept & Hq & Hqi); auto; [apply Htx|]. cbv zeta in Ept, Hq. rewrite Ept. cbn [safe].
    destruct (walk_qev inner _ (quiet_enter (NCont BTable)) Hqi) as [Hw1 _].
    split.
    + eapply add_stepped; eauto. change (BE (BEnter (NCont BTable)) sp_start :: inner ++ [BE (BExit (NCont BTable)) sp_end]) with ([BE (BEnter (NCont BTable)) sp_start] ++ inner ++ [BE (BExit (NCont BTable)) sp_end]).
      rewrite !vis_app. apply walk_app. split; [split; [apply Hnx; reflexivity|exact I]|]. apply walk_app. split; [exact Hw1|]. split; [apply opart_exit|exact I].
    + exists (BExit (NCont BTable)). split; [|reflexivity]. unfold lastev. cbn [t_events t_set_events]. rewrite app_comm_cons, app_assoc. apply last_snoc. reflexivity.
Qed.

(** ** Blocks inside a container *)
Lemma set_attr_BD src s k pl f fs x pos : BD src s pl f fs x pos -> BD src (set_attr_after k s) pl f fs x pos.
Proof. intros H. eapply BD_same; [exact H|..]; destruct k as [[]| | | | | | |]; first [reflexivity|exact (fun H => H)]. Qed.
Lemma lastev_set_attr k s : lastev (set_attr_after k s) = lastev s.
Proof. destruct k as [[]| | | | | | |]; reflexivity. Qed.
Lemma step_inner src rec s pl f fs x pos line0 rest hi top : wfb src -> BD src s pl f fs x pos -> lines_ok src pos (line0 :: rest) hi -> viewed src (view_of src (f :: fs)) (line0 :: rest) ->
  (forall ls', size ls' < size (line0 :: rest) -> rec_ok src rec ls') -> x = XFlow -> top = false -> nxl src s (line0 :: rest) ->
  safe (lim src) (fun '(n, s') => 1 <= n <= length (line0 :: rest) /\ nxl src s' (skipn n (line0 :: rest)) /\ exists pos', stepped src f fs x pos' s' /\ lines_ok src pos' (skipn n (line0 :: rest)) hi)
    (parse_block rec src s line0 rest top).
Proof.
  intros Hw HB Hls Hvw Hrec -> -> Hnl. rewrite parse_block_prep.
  destruct (prep_ok src line0 rest pos hi Hw Hls) as (k & sp_start & sp_end & ol & ls & n & Ep & Hn & Hk & Hs1 & Hp & Hl & Hs2 & Hrest & Hsz & Htx & Hkv).
  pose proof (prep_next src _ _ _ _ _ _ _ _ (proj1 Hls) Ep) as Hnn. destruct (prep_starts src _ _ _ _ _ _ _ _ (proj1 Hls) Ep) as (k0 & sp0 & Ei & Hst). rewrite Ep.
  cbn [bind fin]. specialize (Hkv _ Hvw).
  destruct (update_lists_ok src s pl f fs XFlow pos k (ss sp_start) HB Hp) as (s1 & pl1 & f1 & -> & HB1 & G1 & T1 & _ & Hn1 & _).
  { apply point_ok. auto. } { destruct k; auto. apply Hk. } { intros b Hb. apply (Hnl _ _ Ei). apply Hst. exact Hb. }
  cbn [bind]. destruct (update_loose_ok src s1 pl1 f1 fs XFlow (ss sp_start) k HB1) as (s2 & pl2 & fs2 & -> & HB2 & F2 & P2 & _ & Hm2). cbn [bind].
  eapply safe_bind.
  - apply (emit_ok src rec s2 pl2 f1 fs2 XFlow (ss sp_start) false k sp_start sp_end ol ls); auto.
    + intros b Hb. apply Hm2. apply Hn1. exact Hb.
    + eapply takes_fsim; eauto.
    + intros Hd ls' Hsz'. apply Hrec. lia.
    + destruct k; auto.
    + rewrite (grow_view src f f1 fs fs2); auto.
  - intros s3 [(pl3 & f3 & fs3 & HB3 & G3 & F3) (b & Hlb & Heb)]. cbn [safe]. split; [auto|].
    split; [eapply (ends_nxl src (set_attr_after k s3)); [rewrite lastev_set_attr; exact Hlb|exact Heb|exact Hnn]|]. exists (se sp_end). split; [|auto].
    exists pl3, f3, fs3. split; [apply set_attr_BD; auto|]. split; [eapply grow_trans; eauto|eapply fsim_trans; eauto].
Qed.

Lemma size_skip n l ls : 1 <= n -> size (skipn n (l :: ls)) < size (l :: ls).
Proof. intros H. destruct n as [|n]; [lia|]. cbn [skipn]. pose proof (size_skipn n ls). rewrite size_cons. lia. Qed.
Lemma stepped_trans src f fs f' fs' x pos s : grow f f' -> fsim fs fs' -> stepped src f' fs' x pos s -> stepped src f fs x pos s.
Proof. intros G F (pl & g & gs & H & G' & F'). exists pl, g, gs. split; [auto|]. split; [eapply grow_trans; eauto|eapply fsim_trans; eauto]. Qed.
Lemma inner_gen src : wfb src -> forall fuel ls, size ls <= fuel -> forall s pl f fs lo hi, BD src s pl f fs XFlow lo -> lines_ok src lo ls hi -> viewed src (view_of src (f :: fs)) ls -> nxl src s ls ->
  safe (lim src) (stepped src f fs XFlow hi) (parse_blocks fuel src false s ls).
Proof.
  intros Hw. induction fuel as [|fuel IH]; intros ls Hsz s pl f fs lo hi HB Hls Hvw Hnl.
  - destruct ls as [|l ls]; [|rewrite size_cons in Hsz; lia]. cbn [parse_blocks safe].
    exists pl, f, fs. split; [|split; [apply grow_refl|apply fsim_refl]]. eapply BD_pos; eauto. destruct Hls as [_ H]. exact H.
  - destruct ls as [|l ls]; cbn [parse_blocks].
    + exists pl, f, fs. split; [|split; [apply grow_refl|apply fsim_refl]]. eapply BD_pos; eauto. destruct Hls as [_ H]. exact H.
    + eapply safe_bind.
      * eapply step_inner; eauto. intros ls' Hs s' f' fs' lo' hi' HB' Hls' Hvw' Hnl'. eapply IH; eauto. lia.
      * intros [n s'] (Hn & Hnx' & pos' & (pl' & f' & fs' & HB' & G & F) & Hls'). pose proof (size_skip n l ls ltac:(lia)).
        eapply safe_weaken; [eapply IH; [lia|exact HB'|exact Hls'| |exact Hnx']; rewrite (grow_view src f f' fs fs') by auto; apply viewed_skipn; auto|]. intros s2 H2. eapply stepped_trans; eauto.
Qed.
Lemma inner_ok src fuel ls : wfb src -> size ls <= fuel -> rec_ok src (parse_blocks fuel src false) ls.
Proof. intros Hw Hsz s f fs lo hi HB Hls Hvw Hnl. eapply inner_gen; eauto. Qed.

(** ** Sections *)
(** The stack at the top level: sections of increasing depth over the document. *)
Inductive tstack : list frame -> nat -> Prop :=
| ts_doc f : f_nd f = NCont BDocument -> f_ic f = XTop 0 None -> f_x f = XRoot -> tstack [f] 0
| ts_sec f fs l L p m : tstack fs l -> f_nd f = NCont (BSection p) -> f_ic f = XSec L p -> f_x f = XTop l m -> point (f_sp f) -> tstack (f :: fs) L.
Lemma tstack_view src fs l : tstack fs l -> view_of src fs = from_start.
Proof. induction 1 as [f H1 H2 H3|f fs l L p m H IH H1 H2 H3]; cbn [view_of]; unfold f_view; rewrite H1; [reflexivity|exact IH]. Qed.
Lemma tstack_addb f fs l b : tstack (f :: fs) l -> tstack (addb f b :: fs) l.
Proof. intros H. inversion H; subst; [apply ts_doc; auto|eapply ts_sec; eauto]. Qed.
Lemma tstack_secs fs l : tstack fs l -> length (secs fs) = length fs - 1 /\ last (secs fs) 0 = l.
Proof.
  induction 1 as [f H1 H2 H3|f fs l L p m H IH H1 H2 H3]; cbn [secs]; [rewrite H2; auto|]. rewrite H2, app_length, last_last.
  destruct IH as [IH _]. rewrite IH. cbn. split; [|auto]. inversion H; subst; cbn; lia.
Qed.
Lemma tstack_notlist f fs l : tstack (f :: fs) l -> notlist f.
Proof. intros H. unfold notlist. inversion H; subst; match goal with E : f_nd f = _ |- _ => rewrite E; exact I end. Qed.
Lemma tstack_fsim fs l : tstack fs l -> forall gs, fsim fs gs -> gs = fs.
Proof.
  induction 1 as [f H1 H2 H3|f fs l L p m H IH H1 H2 H3]; intros gs Hg.
  - destruct (fsim_inv_cons f [] gs) as (fs' & -> & Hf); [unfold notlist; rewrite H1; exact I|auto|]. inversion Hf. reflexivity.
  - destruct (fsim_inv_cons f fs gs) as (fs' & -> & Hf); [unfold notlist; rewrite H1; exact I|auto|]. f_equal. auto.
Qed.
Lemma tstack_lcor src fs l : tstack fs l -> forall ls, lcor src fs ls -> ls = [].
Proof. induction 1 as [f H1 H2 H3|f fs l L p m H IH H1 H2 H3]; intros ls Hl; cbn [lcor] in Hl; rewrite H1 in Hl; auto. Qed.
Lemma tstack_lin fs l : tstack fs l -> forall pb b, lin pb b fs.
Proof. induction 1 as [f H1 H2 H3|f fs l L p m H IH H1 H2 H3]; intros pb b; cbn [lin]; unfold lnd; rewrite H1; auto. Qed.
Lemma tstack_reach src f fs l y pos : tstack (f :: fs) l -> zip src (f :: fs) y pos -> okend y -> exists m, y = XTop l m.
Proof.
  intros Ht Hz Hy. inversion Hz as [|? ? ? ? Z1 Z2 Z3 Z4]; subst. apply sq_reach in Z4. inversion Ht as [? T1 T2 T3|? ? ? ? ? ? T0 T1 T2 T3 T4]; subst.
  - rewrite T2 in Z4. exact Z4.
  - rewrite T2 in Z4. destruct Z4 as [->|Z4]; [contradiction|exact Z4].
Qed.

Definition pend (s : tstate) (fs : list frame) (A : list bev) (i e start : nat) : Prop :=
  match t_attr s with
  | None => A = [] /\ e = start
  | Some a => a + i = length (flatten fs) /\ exists ev, nth_error (t_events s) a = Some ev /\ ss (bsp ev) = e
  end.
Lemma close_secs_ok src e start A : span_ok src (Sp e e) -> forall n i s f fs l m p, tstack (f :: fs) l -> zip src (f :: fs) (XTop l m) p -> p <= e ->
  t_open s = opens (f :: fs) -> t_events s = flatten (f :: fs) ++ A -> pend s (f :: fs) A i e start -> n <= length fs ->
  exists s' g gs l' m', close_secs n i start s = Ok s' /\ tstack (g :: gs) l' /\ zip src (g :: gs) (XTop l' m') e /\
    t_open s' = opens (g :: gs) /\ t_events s' = flatten (g :: gs) ++ A /\ t_secs s' = t_secs s /\ t_lists s' = t_lists s /\ vis (t_events s') = vis (t_events s) /\
    secs (g :: gs) = firstn (length fs - n) (secs (f :: fs)) /\
    match n with 0 => m' = m | _ => m' = nth_error (secs (f :: fs)) (length fs - n) end.
Proof.
  intros He. induction n as [|n IH]; intros i s f fs l m p Ht Hz Hp Ho Hev Hpe Hn.
  - cbn [close_secs]. exists s, f, fs, l, m. split; [auto|]. split; [auto|]. split; [inversion Hz; subst; constructor; auto; eapply sq_hi; eauto|].
    split; [auto|]. split; [auto|]. split; [auto|]. split; [auto|]. split; [auto|]. split; [|auto]. rewrite Nat.sub_0_r.
    destruct (tstack_secs _ _ Ht) as [Hls _]. cbn [length] in Hls. rewrite firstn_all2 by lia. auto.
  - destruct fs as [|g gs]; [cbn in Hn; lia|]. cbn [close_secs].
    assert (Hnd : nth_error (t_events s) (f_at f (g :: gs)) = Some (BE (BEnter (f_nd f)) (f_sp f))).
    { rewrite Hev, nth_error_app1; [apply f_at_nth|]. apply nth_error_Some. rewrite f_at_nth. discriminate. }
    rewrite (pop_open s f (g :: gs)) by auto. cbn [bind].
    set (s1 := t_set_open s (opens (g :: gs))).
    inversion Ht as [|? ? l0 ? p0 m0 Ht' N1 N2 N3 N4]; subst.
    set (ex := BE (BExit (f_nd f)) (Sp e e)).
    set (evs := flatten (f :: g :: gs) ++ ex :: A).
    assert (Hins : exists evs', (let! e' := (match t_attr s with
                 | None => Ok start
                 | Some a => let! ev := get_at (t_events s) a "block.rs:553" in Ok (ss (bsp ev))
                 end) in
      let at_ := match t_attr s with None => length (t_events s) | Some a => a + i end in
      let! evs := insert_at (t_events s) at_ (BE (BExit (f_nd f)) (Sp e' e')) "block.rs:554" in
      close_secs n (S i) start (t_set_events s1 evs)) = close_secs n (S i) start (t_set_events s1 evs') /\ evs' = evs /\
      pend (t_set_events s1 evs) (addb g (closed f (Sp e e)) :: gs) A (S i) e start).
    { assert (Hlf : length (flatten (addb g (closed f (Sp e e)) :: gs)) = S (length (flatten (f :: g :: gs)))).
      { rewrite flatten_addb. cbn [flatten]. unfold closed. rewrite !app_length. cbn. lia. }
      unfold pend in *. cbn [t_set_events t_set_open s1 t_attr t_events] in *. destruct (t_attr s) as [a|] eqn:Ea.
      - destruct Hpe as (P1 & ev & P2 & P3). rewrite (get_at_yes _ _ _ _ P2). cbn [bind]. rewrite P3.
        rewrite insert_at_yes by (rewrite P1, Hev, app_length; lia). cbn [bind]. eexists. split; [reflexivity|].
        rewrite P1, Hev. rewrite firstn_at, skipn_at by auto. split; [reflexivity|]. split; [rewrite Hlf; lia|].
        destruct (Nat.eq_dec i 0) as [->|Hi].
        + exists ex. split; [|reflexivity]. unfold evs. apply nth_at. lia.
        + exists ev. split; [|auto]. unfold evs. rewrite Hev in P2. rewrite nth_error_app1 in P2 |- * by lia. exact P2.
      - destruct Hpe as [-> ->]. cbn [bind]. rewrite app_nil_r in Hev. rewrite insert_at_yes by lia. cbn [bind]. eexists. split; [reflexivity|].
        rewrite firstn_all, skipn_all, Hev. split; [reflexivity|auto]. }
    destruct Hins as (evs' & Ei & -> & Hpe'). cbv zeta in Ei. rewrite Ei.
    pose proof (zip_close src f g gs (XTop l m) p (Sp e e) Hz I ltac:(cbn; lia) He ltac:(rewrite N1; exact (conj N4 eq_refl)) ltac:(rewrite N1; exact I)) as Hz'. cbn [se] in Hz'. rewrite N3, N2 in Hz'. cbn [aft] in Hz'.
    destruct (IH (S i) (t_set_events s1 evs) (addb g (closed f (Sp e e))) gs l0 (Some l) e) as (s' & g' & gs' & l' & m' & E & R1 & R2 & R3 & R4 & R5 & R6 & Rv & R7 & R8); auto.
    + apply tstack_addb. auto.
    + cbn [t_set_events t_events]. unfold evs. rewrite flatten_addb. cbn [flatten]. unfold closed, ex. rewrite <- !app_assoc. reflexivity.
    + cbn in Hn. lia.
    + exists s', g', gs', l', m'. split; [exact E|]. split; [auto|]. split; [auto|]. split; [auto|]. split; [auto|]. split; [auto|]. split; [auto|]. split; [rewrite Rv, Hev; change (vis evs = vis (flatten (f :: g :: gs) ++ A)); unfold evs, ex; rewrite !vis_app; f_equal; unfold vis at 1; cbn [map bk filter]; rewrite N1; reflexivity|].
      destruct (tstack_secs _ _ Ht') as [Hls _]. cbn [length] in Hls.
      assert (Hsec : secs (f :: g :: gs) = secs (g :: gs) ++ [l]) by (cbn [secs]; rewrite N2; reflexivity).
      change (secs (addb g (closed f (Sp e e)) :: gs)) with (secs (g :: gs)) in *. rewrite Hsec. cbn [length]. cbn [length] in Hn.
      split.
      * rewrite R7, firstn_app. replace (S (length gs) - S n - length (secs (g :: gs))) with 0 by lia. cbn [firstn]. rewrite app_nil_r. f_equal.
      * destruct n as [|n].
        -- rewrite R8. rewrite nth_error_app2 by lia. replace (_ - _ - _) with 0 by lia. reflexivity.
        -- rewrite R8. rewrite nth_error_app1 by lia. f_equal.
Qed.
