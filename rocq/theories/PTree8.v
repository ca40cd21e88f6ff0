(** * PTree8: the top level *)
From Verif Require Import Base Lex Attr Block Lib PSafe SpecAttr PAttr SpecBlock PBlock1 PBlock2 PBlock3 PBlock4 PGram SpecView PView PTree1 PTree2 PTable PTree3 PTree4 PTree5 PTree6 PTree7.
Local Open Scope nat_scope.

Lemma rposition_none {A} (f : A -> bool) l : rposition f l = None -> forall i x, nth_error l i = Some x -> f x = false.
Proof.
  induction l as [|y l IH]; intros H i x Hx; [destruct i; discriminate|]. cbn in H. destruct (rposition f l); [discriminate|]. destruct (f y) eqn:E; [discriminate|].
  destruct i as [|i]; cbn in Hx; [congruence|eauto].
Qed.
Lemma rposition_some {A} (f : A -> bool) l n : rposition f l = Some n ->
  (exists x, nth_error l n = Some x /\ f x = true) /\ forall i x, n < i -> nth_error l i = Some x -> f x = false.
Proof.
  revert n; induction l as [|y l IH]; intros n H; [discriminate|]. cbn in H. destruct (rposition f l) as [k|] eqn:E.
  - injection H as <-. destruct (IH k eq_refl) as [H1 H2]. split; [exact H1|]. intros i x Hi Hx. destruct i; [lia|]. cbn in Hx. apply (H2 i x); [lia|auto].
  - destruct (f y) eqn:Ey; [|discriminate]. injection H as <-. split; [exists y; auto|]. intros i x Hi Hx. destruct i; [lia|]. cbn in Hx. eapply rposition_none; eauto.
Qed.
Lemma last_firstn {A} (l : list A) n x d : nth_error l n = Some x -> last (firstn (S n) l) d = x.
Proof.
  intros H. assert (E : firstn (S n) l = firstn n l ++ [x]).
  { revert n H; induction l as [|y l IH]; intros [|n] H; try discriminate; cbn in H.
    - injection H as ->. reflexivity.
    - cbn [firstn app]. f_equal. apply IH. auto. }
  rewrite E. apply last_last.
Qed.

Definition attr_sq (src : bytes) (e : nat) (A : list bev) (pos : nat) : Prop := forall l m, sq src from_start (XTop l m) e A (XTop l m) pos.

Lemma open_section_ok src s f fs l p A e start level pos : tstack (f :: fs) l -> zip src (f :: fs) (XTop l None) p -> p <= e -> span_ok src (Sp e e) ->
  t_open s = opens (f :: fs) -> t_events s = flatten (f :: fs) ++ A -> t_secs s = secs (f :: fs) -> t_lists s = [] ->
  pend s (f :: fs) A 0 e start -> attr_sq src e A pos -> pos <= start -> span_ok src (Sp start start) -> 1 <= level -> walk None (vis (t_events s)) ->
  exists s' nf gs, open_section s level start = Ok s' /\ vis (t_events s') = vis (t_events s) /\ tstack (nf :: gs) level /\ notlist nf /\ inv src s' (nf :: gs) (XSec level (to_u32 start)) start.
Proof.
  intros Ht Hz Hp He Ho Hev Hs Hl Hpe HA Hpos Hst Hlev Hwk. unfold open_section. rewrite Hs.
  destruct (tstack_secs _ _ Ht) as [Hls _]. cbn [length] in Hls. assert (Hls' : length (secs (f :: fs)) = length fs) by lia. rewrite Hls'.
  set (fc := match rposition (fun l => Nat.ltb l level) (secs (f :: fs)) with None => 0 | Some i => i + 1 end).
  assert (Hfc : fc <= length fs).
  { unfold fc. destruct (rposition _ _) as [i|] eqn:E; [|lia]. apply rposition_some in E. destruct E as [(x & E & _) _].
    assert (i < length (secs (f :: fs))) by (apply nth_error_Some; congruence). lia. }
  destruct (close_secs_ok src e start A He (length fs - fc) 0 s f fs l None p) as (s1 & g & gs & l' & m' & E & R1 & R2 & R3 & R4 & R5 & R6 & Rv & R7 & R8); auto; [lia|].
  rewrite E. cbn [bind]. replace (length fs - (length fs - fc)) with fc in * by lia.
  destruct (tstack_secs _ _ R1) as [_ Hlast]. rewrite R7 in Hlast.
  assert (Hl' : l' < level).
  { unfold fc in Hlast. destruct (rposition _ _) as [i|] eqn:Er; [|cbn in Hlast; lia]. apply rposition_some in Er. destruct Er as [(x & Ex & Hx) _].
    rewrite Nat.add_1_r, (last_firstn _ _ _ _ Ex) in Hlast. apply Nat.ltb_lt in Hx. lia. }
  assert (Hm' : forall k, m' = Some k -> level <= k).
  { intros k ->. assert (Hk : nth_error (secs (f :: fs)) fc = Some k) by (destruct (length fs - fc); congruence).
    unfold fc in Hk. destruct (rposition _ _) as [i|] eqn:Er.
    - apply rposition_some in Er. destruct Er as [_ Er]. specialize (Er (i + 1) k ltac:(lia) Hk). apply Nat.ltb_ge in Er. auto.
    - pose proof (rposition_none _ _ Er 0 k Hk) as Hx. apply Nat.ltb_ge in Hx. auto. }
  set (nf := Fr [] (NCont (BSection (to_u32 start))) (Sp start start) (XSec level (to_u32 start)) (XTop l' m') pos []).
  exists (t_enter (t_set_secs s1 (firstn fc (t_secs s1) ++ [level])) (NCont (BSection (to_u32 start))) (Sp start start)), nf, (addb g A :: gs).
  assert (Hvs : vis (t_events s1 ++ [BE (BEnter (NCont (BSection (to_u32 start)))) (Sp start start)]) = vis (t_events s)) by (rewrite vis_app, Rv; apply app_nil_r).
  split; [reflexivity|]. split; [exact Hvs|]. assert (Hnt : tstack (nf :: addb g A :: gs) level).
  { eapply ts_sec; [apply tstack_addb; eauto|reflexivity|reflexivity|reflexivity|reflexivity]. }
  split; [exact Hnt|]. split; [exact I|]. split; [split; [|split; [|split]]|split; [|split; [exact (tstack_lin _ _ Hnt _ _)|change (walk None (vis (t_events s1 ++ [BE (BEnter (NCont (BSection (to_u32 start)))) (Sp start start)]))); rewrite Hvs; exact Hwk] ] ].
  - constructor; cbn [nf f_x f_lo f_ic f_sp f_body se].
    + eapply zip_add; [exact R2|]. rewrite (tstack_view src _ _ R1). apply HA.
    + eapply frame_cont; [apply (ci_sec l' m' level (Sp start start)); auto|reflexivity|cbn; auto|auto].
    + right. cbn [f_x f_nd f_ic]. split; [exact I|]. right; left. exists level, (to_u32 start). reflexivity.
    + constructor. auto.
  - change (length (t_events s1) :: t_open s1 = f_at nf (addb g A :: gs) :: opens (addb g A :: gs)). change (opens (addb g A :: gs)) with (opens (g :: gs)). rewrite R3. f_equal.
    unfold f_at. cbn [nf f_pre length]. rewrite flatten_addb, R4, Nat.add_0_r. reflexivity.
  - change (lcor src (nf :: addb g A :: gs) (t_lists s1)). rewrite R6, Hl. cbn [lcor nf f_nd addb].
    assert (Hnil : forall fs l, tstack fs l -> lcor src fs []).
    { clear. intros fs l. induction 1 as [f H1 H2 H3|f fs l L p m H IH H1 H2 H3]; cbn [lcor]; rewrite H1; auto. }
    apply (Hnil (g :: gs) l' R1).
  - change (firstn fc (t_secs s1) ++ [level] = secs (nf :: addb g A :: gs)). change (secs (nf :: addb g A :: gs)) with (secs (g :: gs) ++ [level]). rewrite R5, Hs, R7. reflexivity.
  - change (t_events s1 ++ [BE (BEnter (NCont (BSection (to_u32 start)))) (Sp start start)] = flatten (nf :: addb g A :: gs)). rewrite R4.
    rewrite <- flatten_addb. reflexivity.
Qed.

Definition pending (src : bytes) (s : tstate) (f : frame) (fs : list frame) (l pos : nat) (a : nat) : Prop :=
  exists f0 A e p0, f = addb f0 A /\ a = length (flatten (f0 :: fs)) /\ zip src (f0 :: fs) (XTop l None) p0 /\ p0 <= e /\ span_ok src (Sp e e) /\
    (exists ev A', A = ev :: A' /\ ss (bsp ev) = e) /\ attr_sq src e A pos.
Definition TD (src : bytes) (s : tstate) (pl : list frame) (f : frame) (fs : list frame) (l pos : nat) : Prop :=
  BD src s pl f fs (XTop l None) pos /\ tstack (f :: fs) l /\ forall a, t_attr s = Some a -> pl = [] /\ pending src s f fs l pos a.

Lemma top_step src rec s pl f fs l pos line0 rest hi : wfb src -> TD src s pl f fs l pos -> lines_ok src pos (line0 :: rest) hi -> viewed src from_start (line0 :: rest) ->
  (forall ls', size ls' < size (line0 :: rest) -> rec_ok src rec ls') -> nxl src s (line0 :: rest) ->
  safe (lim src) (fun '(n, s') => 1 <= n <= length (line0 :: rest) /\ nxl src s' (skipn n (line0 :: rest)) /\ exists pl' f' fs' l' pos', TD src s' pl' f' fs' l' pos' /\ lines_ok src pos' (skipn n (line0 :: rest)) hi)
    (parse_block rec src s line0 rest true).
Proof.
  intros Hw (HB & Ht & Hat) Hls Hvw Hrec Hnx0. rewrite parse_block_prep.
  destruct (prep_ok src line0 rest pos hi Hw Hls) as (k & sp_start & sp_end & ol & ls & n & Ep & Hn & Hk & Hs1 & Hp & Hl & Hs2 & Hrest & Hsz & Htx & Hkv).
  pose proof (prep_next src _ _ _ _ _ _ _ _ (proj1 Hls) Ep) as Hnn. destruct (prep_starts src _ _ _ _ _ _ _ _ (proj1 Hls) Ep) as (k0 & sp0 & Ei & Hst). rewrite Ep.
  cbn [bind fin]. specialize (Hkv _ Hvw).
  destruct (update_lists_ok src s pl f fs (XTop l None) pos k (ss sp_start) HB Hp) as (s1 & pl1 & f1 & -> & HB1 & [b1 G1] & T1 & A1 & Hn1 & N1).
  { apply point_ok. auto. } { destruct k; auto. apply Hk. } { intros b Hb. apply (Hnx0 _ _ Ei). apply Hst. exact Hb. }
  cbn [bind]. destruct (update_loose_ok src s1 pl1 f1 fs (XTop l None) (ss sp_start) k HB1) as (s2 & pl2 & fs2 & -> & HB2 & F2 & P2 & A2 & Hm2). cbn [bind].
  assert (Hnx : nxt s2 k) by (intros b Hb; apply Hm2; apply Hn1; exact Hb).
  assert (Ht1 : tstack (f1 :: fs) l) by (rewrite G1; apply tstack_addb; auto).
  assert (Ef2 : fs2 = fs).
  { assert (E : f1 :: fs2 = f1 :: fs) by (eapply tstack_fsim; [exact Ht1|apply fsim_cons; auto]). congruence. }
  subst fs2.
  assert (T2 : takes pl2 k) by (eapply takes_fsim; eauto).
  assert (Hse : se sp_start <= ss sp_end) by (destruct Hl as [_ H]; apply chain_le in H; auto).
  (* pending attributes *)
  assert (Hatt : forall a, t_attr s2 = Some a -> pl2 = [] /\ pending src s2 f1 fs l (ss sp_start) a).
  { intros a Ha. rewrite A2, A1 in Ha. destruct (Hat a Ha) as [Epl (f0 & A & e & p0 & Q1 & Q2 & Q3 & Q4 & Q5 & Q6 & Q7)].
    destruct (N1 Epl) as (Es & Ef & Epl1). split; [rewrite Epl1 in P2; inversion P2; auto|]. rewrite Ef.
    exists f0, A, e, p0. repeat (split; [assumption|]). intros l1 m1. eapply sq_hi; [apply Q7|auto]. }
  destruct (match k with KHeading _ => true | KAtom BAttributes => true | _ => false end) eqn:Ek.
  - rename HB2 into HBf. assert (HB2 : BD src s2 pl2 f1 fs (XTop l None) (ss sp_start)) by (eapply before_BD; [exact HBf|destruct k as [[]| | | | | | |]; discriminate]). clear HBf.
    assert (pl2 = []) by (eapply takes_nil; [eauto|destruct k; auto; discriminate]). subst pl2. pose proof HB2 as (_ & Hnl & ((Hz & Ho & Hlc & Hsc) & Hev & _ & Hwk)).
    destruct k; try discriminate Ek.
    + (* attributes *) destruct a; try discriminate Ek. cbn [emit bind safe set_attr_after]. split; [auto|].
      split; [eapply (ends_nxl src _ (KAtom BAttributes) (BAtom BAttributes)); [apply last_snoc; reflexivity|reflexivity|exact Hnn]|].
      set (ev := BE (BAtom BAttributes) sp_start).
      set (s3 := t_push s2 (BAtom BAttributes) sp_start).
      assert (Hsq : forall l m, sq src from_start (XTop l m) (ss sp_start) [ev] (XTop l m) (se sp_end)).
      { intros l1 m1. apply s_atom; auto; [right; eauto|]. constructor. destruct Hs2 as (? & _). lia. }
      exists [], (addb f1 [ev]), fs, l, (se sp_end). split; [|auto]. split; [|split].
      * split; [right; eauto|]. split; [exact Hnl|].
        assert (Hi : inv src (t_set_events s2 (t_events s2 ++ [ev])) (addb f1 [ev] :: fs) (XTop l None) (se sp_end)) by (eapply inv_add; [apply HB2|rewrite (tstack_view src _ _ Ht1); apply Hsq|split; [apply Hnx; reflexivity|exact I] ]).
        eapply inv_same; [exact Hi|reflexivity..|auto].
      * apply tstack_addb. auto.
      * intros a Ha. split; [auto|]. cbn [t_set_attr t_attr s3 t_push t_set_events] in Ha. destruct (t_attr s2) as [a2|] eqn:Ea2.
        -- injection Ha as <-. destruct (Hatt a2 eq_refl) as [_ (f0 & A & e & p0 & Q1 & Q2 & Q3 & Q4 & Q5 & (ev0 & A' & Q6 & Q8) & Q7)].
           exists f0, (A ++ [ev]), e, p0. rewrite Q1, addb_addb. split; [auto|]. split; [auto|]. split; [auto|]. split; [auto|]. split; [auto|].
           split; [exists ev0, (A' ++ [ev]); rewrite Q6; auto|]. intros l1 m1. eapply sq_app; [apply Q7|apply Hsq].
        -- injection Ha as <-. exists f1, [ev], (ss sp_start), (ss sp_start). split; [auto|]. split.
           ++ cbn [s3 t_push t_set_events t_events]. rewrite app_length. cbn [length]. rewrite Hev. lia.
           ++ split; [auto|]. split; [auto|]. split; [apply point_ok; auto|]. split; [exists ev, []; auto|]. exact Hsq.
    + (* heading *) cbn [emit]. destruct Hk as (K1 & K2 & K3 & K4 & K5). unfold to_u16.
      destruct (N.ltb_spec (N.of_nat level) 65536) as [Hlt|Hge]; cbn [bind safe].
      2:{ left. split; [auto|]. exists K3, level, K4. auto. }
      unfold parse_leaf. destruct (leaf_lines_ok src (FHeading level true (to_u32 (ss sp_start))) (KHeading level) _ _ _ Hw Hl) as (ls' & Els & Hi & Hc). pose proof (leaf_lines_eols _ _ _ _ _ _ _ Hw Hl Els) as Heo. rewrite Els. cbn [bind].
      assert (Hsec : exists f0 A e p0, f1 = addb f0 A /\ pend s2 (f0 :: fs) A 0 e (ss sp_start) /\ zip src (f0 :: fs) (XTop l None) p0 /\ p0 <= e /\ span_ok src (Sp e e) /\ attr_sq src e A (ss sp_start)).
      { unfold pend. destruct (t_attr s2) as [a2|] eqn:Ea2.
        - destruct (Hatt a2 eq_refl) as [_ (f0 & A & e & p0 & Q1 & Q2 & Q3 & Q4 & Q5 & (ev0 & A' & Q6 & Q8) & Q7)].
          exists f0, A, e, p0. split; [auto|]. split; [|auto]. split; [lia|]. exists ev0. split; [|auto].
          rewrite Hev, Q1, flatten_addb, Q6. apply nth_at. auto.
        - exists f1, [], (ss sp_start), (ss sp_start). rewrite addb_nil. split; [auto|]. split; [auto|]. split; [auto|]. split; [auto|]. split; [apply point_ok; auto|].
          intros l1 m1. constructor. auto. }
      destruct Hsec as (f0 & A & e & p0 & Q1 & Q2 & Q3 & Q4 & Q5 & Q6).
      destruct (open_section_ok src s2 f0 fs l p0 A e (ss sp_start) level (ss sp_start)) as (s3 & nf & gs & -> & Ov & O1 & O2 & O3); auto.
      * rewrite Q1 in Ht1. inversion Ht1; subst; [apply ts_doc; auto|eapply ts_sec; eauto].
      * rewrite Ho, Q1. reflexivity.
      * rewrite Hev, Q1, flatten_addb. reflexivity.
      * rewrite Hsc, Q1. reflexivity.
      * eapply tstack_lcor; [exact Ht1|exact Hlc].
      * apply point_ok. auto.
      * cbn [bind]. rewrite leaf_chunk. cbn [bind safe]. split; [auto|].
        assert (Hop : opart (lastev s3) (BEnter (NLeaf (FHeading level true (to_u32 (ss sp_start)))))) by (unfold lastev; rewrite Ov; apply Hnx; do 2 eexists; reflexivity).
        destruct (walk_leaf (lastev s3) _ sp_start (filter (fun l => negb (sp_empty l)) ls') sp_end Hop) as [Hw1 Hw2].
        set (ch := BE (BEnter (NLeaf (FHeading level true (to_u32 (ss sp_start))))) sp_start :: inl_evs (filter (fun l => negb (sp_empty l)) ls') ++ [BE (BExit (NLeaf (FHeading level true (to_u32 (ss sp_start))))) sp_end]).
        assert (Hq : sq src (view_of src (nf :: gs)) (XSec level (to_u32 (ss sp_start))) (ss sp_start) ch (XTop level None) (se sp_end)).
        { eapply s_leaf; [apply li_sec; auto|apply lf_eols_filter; exact Heo|auto|auto| |auto|constructor; auto|exact Htx].
          split; [apply incl_Forall with (l1 := ls'); [apply incl_filter|auto]|apply chain_filter; auto]. }
        split; [eapply (ends_nxl src _ (KHeading level)); [|do 2 eexists; reflexivity|exact Hnn]; unfold lastev; change (t_events _) with (t_events s3 ++ ch); rewrite vis_app, lastk_app; exact Hw2|].
        exists [], (addb nf ch), gs, level, (se sp_end). split; [|auto]. split; [|split].
        -- split; [right; eauto|]. split; [exact O2|]. eapply inv_same; [eapply inv_add; [exact O3|exact Hq|exact Hw1]|reflexivity..|auto].
        -- apply tstack_addb. auto.
        -- intros a Ha. discriminate Ha.
  - eapply safe_bind.
    + apply (emit_ok src rec s2 pl2 f1 fs (XTop l None) (ss sp_start) true k sp_start sp_end ol ls); auto.
      * intros Hd ls' Hsz'. apply Hrec. lia.
      * destruct k; try exact I. discriminate.
      * rewrite (tstack_view src _ _ Ht1). exact Hkv.
    + intros s3 [(pl3 & f3 & fs3 & HB3 & [b3 G3] & F3) (b & Hlb & Heb)]. cbn [safe]. split; [auto|].
      split; [eapply (ends_nxl src (set_attr_after k s3)); [rewrite lastev_set_attr; exact Hlb|exact Heb|exact Hnn]|].
      assert (Ef3 : fs3 = fs). { assert (E : f1 :: fs3 = f1 :: fs) by (eapply tstack_fsim; [exact Ht1|apply fsim_cons; auto]). congruence. }
      subst fs3. exists pl3, f3, fs, l, (se sp_end). split; [|auto]. split; [apply set_attr_BD; auto|]. split; [rewrite G3; apply tstack_addb; auto|].
      intros a Ha. destruct k as [[]| | | | | | |]; try discriminate Ek; discriminate Ha.
Qed.

Lemma top_gen src : wfb src -> forall fuel ls, size ls <= fuel -> forall s pl f fs l lo hi, TD src s pl f fs l lo -> lines_ok src lo ls hi -> viewed src from_start ls -> nxl src s ls ->
  safe (lim src) (fun s' => exists pl' f' fs' l', BD src s' pl' f' fs' (XTop l' None) hi /\ tstack (f' :: fs') l') (parse_blocks fuel src true s ls).
Proof.
  intros Hw. induction fuel as [|fuel IH]; intros ls Hsz s pl f fs l lo hi HT Hls Hvw Hnl.
  - destruct ls as [|l0 ls]; [|rewrite size_cons in Hsz; lia]. cbn [parse_blocks safe].
    exists pl, f, fs, l. split; [|apply HT]. eapply BD_pos; [apply HT|]. destruct Hls as [_ H]. exact H.
  - destruct ls as [|l0 ls]; cbn [parse_blocks].
    + exists pl, f, fs, l. split; [|apply HT]. eapply BD_pos; [apply HT|]. destruct Hls as [_ H]. exact H.
    + eapply safe_bind.
      * eapply top_step; eauto. intros ls' Hs. apply inner_ok; auto. lia.
      * intros [n s'] (Hn & Hnx' & pl' & f' & fs' & l' & pos' & HT' & Hls'). pose proof (size_skip n l0 ls ltac:(lia)).
        eapply IH; [lia|exact HT'|exact Hls'|apply viewed_skipn; auto|exact Hnx'].
Qed.

(** ** The end of the document *)
Lemma exit_n_ok src n : span_ok src (Sp n n) -> forall c s f fs l m p, tstack (f :: fs) l -> zip src (f :: fs) (XTop l m) p -> p <= n ->
  t_open s = opens (f :: fs) -> t_events s = flatten (f :: fs) -> c = length fs ->
  exists s' g m', exit_n c n s = Ok s' /\ tstack [g] 0 /\ zip src [g] (XTop 0 m') n /\ t_open s' = opens [g] /\ t_events s' = flatten [g] /\ vis (t_events s') = vis (t_events s).
Proof.
  intros Hn. induction c as [|c IH]; intros s f fs l m p Ht Hz Hp Ho Hev Hc.
  - destruct fs; [|discriminate]. cbn [exit_n]. inversion Ht as [? T1 T2 T3|? ? ? ? ? ? T0]; subst; [|inversion T0].
    exists s, f, m. split; [auto|]. split; [auto|]. split; [inversion Hz; subst; constructor; auto; eapply sq_hi; eauto|]. auto.
  - destruct fs as [|g gs]; [discriminate|]. cbn [exit_n]. unfold t_exit. rewrite (pop_open s f (g :: gs)) by (auto; rewrite Hev; apply f_at_nth). cbn [bind].
    inversion Ht as [|? ? l0 ? p0 m0 T0 T1 T2 T3 T4]; subst.
    pose proof (zip_close src f g gs (XTop l m) p (Sp n n) Hz I ltac:(cbn; lia) Hn ltac:(rewrite T1; exact (conj T4 eq_refl)) ltac:(rewrite T1; exact I)) as Hz'. cbn [se] in Hz'. rewrite T3, T2 in Hz'. cbn [aft] in Hz'.
    match goal with |- exists s' g m', exit_n c n ?s9 = _ /\ _ => assert (Hv : vis (t_events s9) = vis (t_events s)) by (change (t_events s9) with (t_events s ++ [BE (BExit (f_nd f)) (Sp n n)]); rewrite vis_app, T1; apply app_nil_r); rewrite <- Hv end.
    apply (IH _ (addb g (closed f (Sp n n))) gs l0 (Some l) n); auto.
    + apply tstack_addb. auto.
    + cbn [t_push t_set_events t_events t_set_open]. rewrite flatten_addb, Hev. cbn [flatten]. unfold closed. rewrite <- !app_assoc. reflexivity.
Qed.

Theorem block_parse_ok src : wfb src -> safe (lim src) (fun evs => sq src from_start XRoot 0 evs XDone (length src) /\ walk None (vis evs)) (block_parse src).
Proof.
  intros Hw. unfold block_parse. set (f0 := Fr [] (NCont BDocument) (Sp 0 0) (XTop 0 None) XRoot 0 []).
  assert (S0 : span_ok src (Sp 0 0)) by (destruct Hw as [Hw _]; repeat split; cbn [ss se]; auto; lia).
  assert (Sn : span_ok src (Sp (length src) (length src))) by (repeat split; cbn [ss se]; auto using boundary_end).
  set (s0 := t_enter t_new (NCont BDocument) (Sp 0 0)).
  assert (HT : TD src s0 [] f0 [] 0 0).
  { split; [|split; [apply ts_doc; reflexivity|discriminate]]. split; [right; eauto|]. split; [exact I|]. split; [split; [|split; [|split]]|split; [|split] ]; try reflexivity; [|exact (conj I I)|exact (conj I I)].
    constructor; cbn [f0 f_x f_lo f_ic f_sp f_body se]; [constructor|eapply frame_cont; [constructor|reflexivity|cbn; lia|auto]|left; auto|constructor; auto]. }
  eapply safe_bind.
  - eapply (top_gen src Hw (block_fuel src) (lines src)); [|exact HT|apply lines_lines_ok; auto|apply viewed_all|apply nxl_quiet; apply quiet_enter]. pose proof (lines_size src). unfold block_fuel. lia.
  - intros s1 (pl & f & fs & l & HB & Ht).
    assert (Hcl : exists s2 g, close_lists (length (t_lists s1)) (length src) s1 = Ok s2 /\ tstack (g :: fs) l /\ inv src s2 (g :: fs) (XTop l None) (length src)).
    { destruct HB as (Hx & Hn & H). destruct pl as [|lf [|]]; [| |contradiction].
      - exists s1, f. pose proof H as ((_ & _ & Hlc & _) & _). rewrite (tstack_lcor _ _ _ Ht _ Hlc). auto.
      - destruct H as (ty & t & (Hnd & Hic & Hfx & Hpre & Hfsp) & H). pose proof H as ((Hz & Ho & Hlc & Hs) & He & _).
        cbn [lcor] in Hlc. rewrite Hnd in Hlc. destruct (t_lists s1) as [|l1 ls] eqn:El; [contradiction|].
        destruct Hlc as (D1 & D2 & D3 & D4 & D5 & D6 & D7 & D8 & _). assert (ls = []) by (eapply tstack_lcor; [exact Ht|exact D8]). subst ls.
        cbn [close_lists length]. rewrite El.
        destruct (close_list_ok src s1 lf f fs (XList (lt_class ty)) (length src) l1 [] (length src) ty t H Hnd) with (s0 := t_set_lists s1 []) as (s' & b & E & Hi & _ & _); auto.
        + intros L q. rewrite Hic. discriminate.
        + exact I.
        + exists s', (addb f b). rewrite E. cbn [bind]. split; [auto|]. split; [apply tstack_addb; auto|]. rewrite Hfx, Hic, flow_aft in Hi by auto. exact Hi. }
    destruct Hcl as (s2 & g & -> & Ht2 & ((Hz & Ho & Hlc & Hs) & Hev & _ & Hwk)). cbn [bind].
    destruct (tstack_secs _ _ Ht2) as [Hls _].
    destruct (exit_n_ok src (length src) Sn (length (t_secs s2)) (t_set_secs s2 []) g fs l None (length src)) as (s3 & d & m & -> & Td & Zd & Od & Ed & Vd); auto.
    { rewrite Hs, Hls. cbn. lia. }
    cbn [bind]. unfold t_exit. rewrite (pop_open s3 d []) by (auto; rewrite Ed; apply f_at_nth). cbn [bind].
    change (t_open (t_push (t_set_open s3 (opens [])) (BExit (f_nd d)) (Sp (length src) (length src)))) with (@nil nat). cbn [assert bind safe].
    cbn [t_push t_set_events t_events t_set_open]. split; [|apply walk_snoc; [rewrite Vd; exact Hwk|apply opart_exit]]. rewrite Ed. inversion Zd as [|? ? ? ? Z1 [_ Z2] Z3 Z4]; subst. inversion Td as [? T1 T2 T3|]; subst; [|match goal with H : tstack [] _ |- _ => inversion H end].
    inversion Z1 as [Q1 Q2 Q3|]; subst. cbn [flatten app]. unfold f_evs. rewrite <- app_assoc. cbn [app].
    specialize (Z2 (f_nd d) (f_body d) (XTop 0 m) (length src) (Sp (length src) (length src)) (sim_refl _) Z4 I ltac:(cbn; lia) Sn ltac:(rewrite T1; exact I) ltac:(rewrite T1; exact I)).
    rewrite T3 in Z2. cbn [aft se] in Z2. rewrite T3, <- Q3 in *. exact Z2.
Qed.
