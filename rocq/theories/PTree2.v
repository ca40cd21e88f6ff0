(** * PTree2: list bookkeeping at block boundaries *)
From Verif Require Import Base Lex Attr Block Lib PSafe SpecAttr PAttr SpecBlock PBlock1 PBlock2 PBlock3 PGram PTree1.
Local Open Scope nat_scope.

(** The first event of a block (after a list has been closed), and what may come last before it. *)
Definition starts (k : bkind) (b : bkind_ev) : Prop :=
  match k with
  | KAtom a => b = BAtom a
  | KParagraph => b = BEnter (NLeaf FParagraph)
  | KHeading lv => exists h p, b = BEnter (NLeaf (FHeading lv h p))
  | KFenced _ _ _ _ _ _ => (exists l, b = BEnter (NLeaf (FCodeBlock l))) \/ exists c, b = BEnter (NCont (BDiv c))
  | KDefinition _ _ _ _ => (exists l, b = BEnter (NLeaf (FLinkDefinition l))) \/ exists l, b = BEnter (NCont (BFootnote l))
  | KBlockquote => b = BEnter (NCont BBlockquote)
  | KListItem _ ty _ => (exists t, b = BEnter (NCont (BList ty t))) \/ (exists ik, b = BEnter (NCont (BListItem ik))) \/ b = BEnter (NLeaf FDescriptionTerm)
  | KTable _ _ => b = BEnter (NCont BTable)
  end.
Definition nxt (s : tstate) (k : bkind) : Prop := forall b, starts k b -> opart (lastev s) b.
Lemma lt_continues_none a b : lt_continues a b = Ok None -> ordered_lt a = false -> lt_class a <> lt_class b.
Proof.
  unfold lt_continues. intros H Ho E. destruct (list_type_eqb a b) eqn:Eb; [discriminate H|]. destruct a, b; try discriminate Ho; try discriminate E; try (cbn in Eb; discriminate Eb); injection E as ->; cbn in Eb; rewrite ?beq_refl in Eb; discriminate Eb.
Qed.
Lemma class_ordered a b : lt_class a = lt_class b -> ordered_lt a = ordered_lt b.
Proof. destruct a, b; cbn; congruence. Qed.
(** Between two blocks of the container [f]: possibly one list is open. *)
Definition lframe (lf : frame) (ty : list_type) (t : bool) (x : ctx) : Prop :=
  f_nd lf = NCont (BList ty t) /\ f_ic lf = XList (lt_class ty) /\ f_x lf = x /\ f_pre lf = [] /\ f_sp lf = Sp (f_lo lf) (f_lo lf).
Definition BD (src : bytes) (s : tstate) (pl : list frame) (f : frame) (fs : list frame) (x : ctx) (pos : nat) : Prop :=
  flow x /\ notlist f /\
  match pl with
  | [] => inv src s (f :: fs) x pos
  | [lf] => exists ty t, lframe lf ty t x /\ inv src s (lf :: f :: fs) (XList (lt_class ty)) pos
  | _ => False
  end.
Definition grow (f f' : frame) : Prop := exists b, f' = addb f b.
Lemma grow_refl f : grow f f.
Proof. exists []. destruct f; unfold addb; cbn. rewrite app_nil_r. reflexivity. Qed.
Lemma grow_trans a b c : grow a b -> grow b c -> grow a c.
Proof. intros [x ->] [y ->]. exists (x ++ y). unfold addb. cbn. rewrite app_assoc. reflexivity. Qed.
Lemma grow_notlist f f' : grow f f' -> notlist f -> notlist f'.
Proof. intros [b ->]. auto. Qed.
Lemma sq_okend_flow x : flow x -> okend x.
Proof. intros [->|[l ->]]; exact I. Qed.
Lemma flow_aft x c : flow x -> aft x (XList c) = x.
Proof. intros [->|[l ->]]; reflexivity. Qed.
Lemma BD_hi_flow src s f fs x pos : flow x -> notlist f -> inv src s (f :: fs) x pos -> BD src s [] f fs x pos.
Proof. repeat split; auto; apply H1. Qed.
Lemma inv_pos src s f fs x pos pos' : inv src s (f :: fs) x pos -> pos <= pos' -> inv src s (f :: fs) x pos'.
Proof.
  intros ((Hz & Ho & Hl & Hs) & He & Hli & Hwk) Hp. split; [split; [|auto]|auto]. inversion Hz; subst. constructor; auto. eapply sq_hi; eauto.
Qed.
Lemma BD_pos src s pl f fs x pos pos' : BD src s pl f fs x pos -> pos <= pos' -> BD src s pl f fs x pos'.
Proof.
  intros (Hx & Hn & H) Hp. split; [auto|]. split; [auto|]. destruct pl as [|lf [|]]; [eapply inv_pos; eauto| |contradiction].
  destruct H as (ty & t & Hl & H). exists ty, t. split; [auto|]. eapply inv_pos; eauto.
Qed.
(** Only the flags of a state that the invariant mentions matter. *)
Lemma inv_same src s s' fs y pos : inv src s fs y pos -> t_open s' = t_open s -> t_lists s' = t_lists s -> t_secs s' = t_secs s ->
  t_events s' = t_events s -> (t_pblank s' = true -> t_pblank s = true) -> inv src s' fs y pos.
Proof.
  intros ((Hz & Ho & Hl & Hs) & He & Hli & Hwk) E1 E2 E3 E4 E5. unfold inv, invs. rewrite E1, E2, E3, E4. split; [auto|]. split; [auto|]. split; [|exact Hwk].
  eapply lin_weaken; [exact Hli|auto|auto].
Qed.
Lemma BD_same src s s' pl f fs x pos : BD src s pl f fs x pos -> t_open s' = t_open s -> t_lists s' = t_lists s -> t_secs s' = t_secs s ->
  t_events s' = t_events s -> (t_pblank s' = true -> t_pblank s = true) -> BD src s' pl f fs x pos.
Proof.
  intros (Hx & Hn & H) E1 E2 E3 E4 E5. split; [auto|]. split; [auto|]. destruct pl as [|lf [|]]; [eapply inv_same; eauto| |contradiction].
  destruct H as (ty & t & Hl & H). exists ty, t. split; [auto|]. eapply inv_same; eauto.
Qed.

Definition is_item_kind (k : bkind) : bool := match k with KListItem _ _ _ => true | _ => false end.
(** The list (if any) still open after [update_lists] takes the new item. *)
Definition takes (pl : list frame) (k : bkind) : Prop :=
  match pl with
  | [] => True
  | lf :: _ => match k with KListItem _ ty _ => f_ic lf = XList (lt_class ty) | _ => False end
  end.

Lemma lcor_below src f fs l ls : notlist f -> lcor src (f :: fs) (l :: ls) -> ol_depth l <= length fs.
Proof. unfold notlist. cbn [lcor]. destruct (f_nd f) as [[]|]; try (intros _ H; apply lcor_depth in H; auto; fail). contradiction. Qed.

Lemma update_lists_ok src s pl f fs x pos k start : BD src s pl f fs x pos -> pos <= start -> span_ok src (Sp start start) ->
  match k with KListItem _ ty _ => lt_ok ty | _ => True end -> nxt s k ->
  exists s' pl' f', update_lists s k start = Ok s' /\ BD src s' pl' f' fs x start /\ grow f f' /\ takes pl' k /\ t_attr s' = t_attr s /\ nxt s' k /\
    (pl = [] -> s' = s /\ f' = f /\ pl' = []).
Proof.
  intros HB Hp Hsp Hk Hnx. pose proof HB as (Hx & Hn & H). unfold update_lists. destruct pl as [|lf [|]]; [| |contradiction].
  - assert (Hs : update_lists s k start = Ok s).
    { unfold update_lists. pose proof H as ((_ & Ho & Hl & _) & _). destruct (t_lists s) as [|l ls] eqn:El; [auto|].
      apply lcor_below in Hl; auto. rewrite Ho, opens_length. cbn [length].
      replace (Nat.leb _ _) with true by (symmetry; apply Nat.leb_le; lia). cbn [assert bind].
      replace (Nat.eqb _ _) with false by (symmetry; apply Nat.eqb_neq; lia). auto. }
    unfold update_lists in Hs. rewrite Hs. exists s, [], f. split; [auto|]. split; [eapply BD_pos; eauto|]. split; [apply grow_refl|]. split; [exact I|]. split; [auto|]. split; [exact Hnx|auto].
  - destruct H as (ty & t & (Hnd & Hic & Hfx & Hpre & Hfsp) & H). pose proof H as ((Hz & Ho & Hl & Hs) & He & Hli & Hwk).
    cbn [lcor] in Hl. rewrite Hnd in Hl. destruct (t_lists s) as [|l ls] eqn:El; [contradiction|].
    pose proof Hl as (D1 & D2 & D3 & D4 & D5 & D6 & D7 & D8 & D9 & D10).
    rewrite Ho, opens_length, D1. rewrite Nat.leb_refl, Nat.eqb_refl. cbn [assert bind].
    assert (Hclose : (match k with KListItem _ tyn _ => lt_continues (ol_prev l) tyn = Ok None | _ => True end) -> exists s' pl' f', close_list (t_set_lists s ls) l start = Ok s' /\ BD src s' pl' f' fs x start /\ grow f f' /\ takes pl' k /\ t_attr s' = t_attr s /\ nxt s' k /\ ([lf] = [] -> s' = s /\ f' = f /\ pl' = [])).
    { intros Hlt. destruct (close_list_ok src s lf f fs (XList (lt_class ty)) pos l ls start ty t H Hnd) with (s0 := t_set_lists s ls) as (s' & b & E & Hi & Ha & _ & tt' & Hla); auto.
      - intros L p. rewrite Hic. discriminate.
      - exact I.
      - exists s', [], (addb f b). split; [exact E|]. split.
        + split; [auto|]. split; [exact Hn|]. rewrite Hfx, Hic, flow_aft in Hi by auto. exact Hi.
        + split; [exists b; auto|]. split; [exact I|]. split; [auto|]. split; [|discriminate]. intros bb Hbb. rewrite Hla. cbn [opart].
          destruct k; cbn [starts] in Hbb; try (decompose record Hbb; subst bb; cbn; auto; intros; discriminate);
          try (destruct Hbb as [[? ->]|[? ->]]; cbn; auto; intros; discriminate).
          destruct Hbb as [ [tt -> ] | [ [ik -> ] | -> ] ]; cbn [apart]; try (intros; discriminate). intros ty' t0 [= <- <-] Hord.
          rewrite D3, <- D4. apply lt_continues_none; [exact Hlt|]. rewrite <- Hord. apply class_ordered. congruence. }
    destruct k; cbn [bind]; try exact (Hclose I).
    rename ty0 into tyn. destruct (lt_continues_ok (ol_prev l) tyn D6 Hk) as (r & Er & Hr). rewrite Er. cbn [bind].
    destruct r as [[pr nr]|]; [|exact (Hclose Er)]. destruct Hr as (R1 & R2 & R3 & R4 & R5 & R6).
    eexists. exists [lf], f. split; [reflexivity|]. split.
    + split; [auto|]. split; [auto|]. exists ty, t. split; [repeat split; auto|]. eapply inv_pos; [|exact Hp].
      split; [split; [|split; [|split]]|split; [|split]]; auto. cbn [t_set_lists t_lists lcor]. rewrite Hnd. cbn [ol_depth ol_event ol_start ol_prev].
      split; [auto|]. split; [exact D2|]. split.
      * destruct (list_type_eqb (ol_start l) (ol_prev l)); [congruence|auto].
      * split; [congruence|]. split; [destruct (list_type_eqb _ _); auto|]. split; [auto|]. split; [auto|]. split; [auto|]. split; [|exact D10].
        destruct (list_type_eqb (ol_start l) (ol_prev l)) eqn:Eq; [|exact D9]. apply list_type_eqb_eq in Eq. rewrite Eq in D9. destruct D9 as (u & v & D9 & D9'). exists u, v. auto.
    + split; [apply grow_refl|]. split; [cbn; rewrite Hic; congruence|]. split; [auto|]. split; [exact Hnx|discriminate].
Qed.

Lemma fsim_inv src a b s y pos : fsim a b -> inv src s a y pos -> forall s', t_open s' = t_open s -> t_lists s' = t_lists s -> t_secs s' = t_secs s ->
  t_events s' = flatten b -> lin (t_pblank s') False b -> inv src s' b y pos.
Proof.
  intros Hf ((Hz & Ho & Hl & Hs) & He & Hli & Hwk) s' E1 E2 E3 E4 E5. split; [split; [|split; [|split]]|split; [|split]].
  - eapply fsim_zip; eauto.
  - rewrite E1, Ho. apply fsim_opens. auto.
  - rewrite E2. eapply fsim_lcor; eauto.
  - rewrite E3, Hs. apply fsim_secs. auto.
  - exact E4.
  - exact E5.
  - rewrite E4. rewrite He in Hwk. eapply walk_ksim; [apply vis_ksim; apply fsim_ksim; exact Hf| |exact Hwk]. auto.
Qed.
Lemma fsim_notlist f g : notlist f -> forall nd, sim (f_nd f) nd -> g = rename f nd -> g = f.
Proof.
  intros Hn nd [E|(ty & t & ty' & t' & E & _)] ->; [subst nd; apply rename_id|]. unfold notlist in Hn. rewrite E in Hn. contradiction.
Qed.
Lemma fsim_inv_cons f fs c : notlist f -> fsim (f :: fs) c -> exists fs', c = f :: fs' /\ fsim fs fs'.
Proof.
  intros Hn H. inversion H as [|? nd ? fs' H1 H2]; subst. exists fs'. split; [f_equal; eapply fsim_notlist; eauto|auto].
Qed.
Lemma fsim_BD src s s' pl f fs x pos c : BD src s pl f fs x pos -> fsim (pl ++ f :: fs) c ->
  t_open s' = t_open s -> t_lists s' = t_lists s -> t_secs s' = t_secs s -> t_events s' = flatten c -> lin (t_pblank s') False c ->
  exists pl' fs', BD src s' pl' f fs' x pos /\ fsim fs fs' /\ fsim pl pl' /\ c = pl' ++ f :: fs'.
Proof.
  intros (Hx & Hn & H) Hf E1 E2 E3 E4 E5. destruct pl as [|lf [|]]; [| |contradiction]; cbn [app] in *.
  - destruct (fsim_inv_cons _ _ _ Hn Hf) as (fs' & -> & Hf'). exists [], fs'. split; [|split; [auto|split; [constructor|auto]]].
    split; [auto|]. split; [auto|]. eapply fsim_inv; eauto.
  - inversion Hf as [|? nd ? c2 H1 H2]; subst. destruct (fsim_inv_cons _ _ _ Hn H2) as (fs' & -> & Hf').
    exists [rename lf nd], fs'. split; [|split; [auto|split; [constructor; [auto|constructor]|auto]]].
    split; [auto|]. split; [auto|]. destruct H as (ty & t & (Hnd & Hic & Hfx & Hpre & Hfsp) & H).
    destruct H1 as [E|(ty1 & t1 & ty' & t' & E & -> & Hc & Hok)].
    + subst nd. rewrite rename_id in *. exists ty, t. split; [repeat split; auto|]. eapply fsim_inv; eauto.
    + rewrite Hnd in E. injection E as <- <-. exists ty', t'. cbn [lframe]. split; [repeat split; cbn; auto; congruence|].
      rewrite <- Hc. eapply fsim_inv; eauto.
Qed.
Lemma takes_fsim pl pl' k : fsim pl pl' -> takes pl k -> takes pl' k.
Proof. intros H Ht. inversion H; subst; [exact I|]. cbn in *. destruct k; auto. Qed.

(** After a blank line its event is still to be written. *)
Definition before (src : bytes) (s : tstate) (k : bkind) (pl : list frame) (f : frame) (fs : list frame) (x : ctx) (pos : nat) : Prop :=
  BD src (t_set_blank s false) pl f fs x pos /\ (k = KAtom BBlankline \/ t_pblank s = false).
Lemma before_BD src s k pl f fs x pos : before src s k pl f fs x pos -> k <> KAtom BBlankline -> BD src s pl f fs x pos.
Proof. intros [H [E|E]] Hk; [contradiction|]. destruct s as [pb0 a1 a2 a3 a4 a5 a6]. cbn [t_pblank] in E. subst. exact H. Qed.
Lemma before_pb src s k pl f fs x pos : before src s k pl f fs x pos -> k <> KAtom BBlankline -> t_pblank s = false.
Proof. intros [_ [E|E]] Hk; [contradiction|exact E]. Qed.
(** The event of a blank line. *)
Lemma inv_blank src s f fs y pos sp y' pos' : inv src (t_set_blank s false) (f :: fs) y pos -> sq src (view_of src (f :: fs)) y pos [BE (BAtom BBlankline) sp] y' pos' -> opart (lastev s) (BAtom BBlankline) ->
  inv src (t_set_events s (t_events s ++ [BE (BAtom BBlankline) sp])) (addb f [BE (BAtom BBlankline) sp] :: fs) y' pos'.
Proof.
  intros H Hq Hop. pose proof (inv_add _ _ _ _ _ _ _ _ _ H Hq (conj Hop I)) as [Hi [He [_ Hw]]]. split; [exact Hi|]. split; [exact He|]. split; [|exact Hw].
  destruct H as (_ & _ & Hli & _). eapply lin_addb; [exact Hli|]. intros _. right. exists sp. left. reflexivity.
Qed.
Lemma update_loose_ok src s pl f fs x pos k : BD src s pl f fs x pos -> 
  exists s' pl' fs', update_loose s k = Ok s' /\ before src s' k pl' f fs' x pos /\ fsim fs fs' /\ fsim pl pl' /\ t_attr s' = t_attr s /\ (forall b, opart (lastev s) b -> opart (lastev s') b).
Proof.
  intros HB. assert (Hsame : forall s', t_open s' = t_open s -> t_lists s' = t_lists s -> t_secs s' = t_secs s -> t_events s' = t_events s -> t_attr s' = t_attr s -> k = KAtom BBlankline \/ t_pblank s' = false ->
    exists s'' pl' fs', Ok s' = Ok s'' /\ before src s'' k pl' f fs' x pos /\ fsim fs fs' /\ fsim pl pl' /\ t_attr s'' = t_attr s /\ (forall b, opart (lastev s) b -> opart (lastev s'') b)).
  { intros s' E1 E2 E3 E4 E5 E6. exists s', pl, fs. split; [auto|]. split; [split; [eapply BD_same; eauto; discriminate|exact E6]|]. split; [apply fsim_refl|]. split; [apply fsim_refl|]. split; [auto|]. unfold lastev. rewrite E4. auto. }
  assert (Hmain : exists s'' pl' fs', (let s1 := t_set_loose s false in
      let! s2 :=
        (if t_pblank s1 then
           match t_lists s1 with
           | [] => Ok s1
           | l :: _ =>
               if Nat.leb (length (t_open s1)) (ol_depth l)
                  || match k with KListItem _ _ _ => false | _ => true end then
                 let! e := get_at (t_events s1) (ol_event l) "block.rs:411" in
                 match bk e with
                 | BEnter (NCont (BList ty true)) =>
                     Ok (t_set_loose
                           (t_set_events s1 (upd (t_events s1) (ol_event l)
                                                 (BE (BEnter (NCont (BList ty false))) (bsp e))))
                           true)
                 | _ => Ok s1
                 end
               else Ok s1
           end
         else Ok s1) in
      Ok (t_set_blank s2 false)) = Ok s'' /\ before src s'' k pl' f fs' x pos /\ fsim fs fs' /\ fsim pl pl' /\ t_attr s'' = t_attr s /\ (forall b, opart (lastev s) b -> opart (lastev s'') b)).
  { cbv zeta. cbn [t_set_loose t_pblank t_lists t_open t_events]. destruct (t_pblank s) eqn:Epb; [|cbn [bind]; apply Hsame; auto].
    destruct (t_lists s) as [|l ls] eqn:El; [cbn [bind]; apply Hsame; auto|].
    destruct (_ || _); [|cbn [bind]; apply Hsame; auto].
    assert (Hlc : exists y q, inv src s (pl ++ f :: fs) y q) .
    { destruct HB as (_ & _ & H). destruct pl as [|lf [|]]; [eauto| |contradiction]. destruct H as (ty & t & _ & H). eauto. }
    destruct Hlc as (y & q & ((_ & _ & Hl & _) & He & Hli & Hwk)). rewrite El in Hl. rewrite Epb in Hli.
    destruct (list_event _ _ _ _ Hl) as (ty & t & sp & H1 & H2 & H3 & H4). rewrite He, (get_at_yes _ _ _ _ H1). cbn [bind bk bsp].
    destruct t; [|cbn [bind]; apply Hsame; auto]. destruct (H4 ty false eq_refl H2) as (c & Hc & Hu). cbn [bind].
    match goal with |- exists s'' pl' fs', Ok ?s' = _ /\ _ => destruct (fsim_BD src s s' pl f fs x pos c HB Hc) as (pl' & fs' & HB' & F1 & F2 & _); try reflexivity end.
    { cbn [t_events t_set_blank t_set_loose t_set_events]. rewrite <- Hu. reflexivity. }
    { eapply lin_fsim; [exact Hc|exact Hli|auto]. }
    do 3 eexists. split; [reflexivity|]. split; [split; [exact HB'|right; reflexivity]|]. split; [auto|]. split; [auto|]. split; [reflexivity|]. unfold lastev. cbn [t_set_blank t_set_loose t_set_events t_events]. rewrite He in Hwk |- *. rewrite Hu. eapply walk_ksim; [apply vis_ksim; apply fsim_ksim; exact Hc| |exact Hwk]. auto. }
  unfold update_loose. destruct k as [[]| | | | | | |]; try exact Hmain. apply Hsame; auto.
Qed.
