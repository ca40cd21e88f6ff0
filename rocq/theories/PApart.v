(** * PApart: what follows the end of a block in the document's events *)
From Verif Require Import Base Lex Attr Block Inline Doc SpecLex Lib SpecAttr SpecSrc PAttr PAttr3 PAttr4 PSafe PBlock1 PBlock2 PLex PBlock3 PBlock4 PInl1 PInl2 PInl3 PInl4 PInl5 PInl6 PInl7 PropsPunct PInl8 PInl9 PInl10 PInl11 PInl12 PMark SpecBlock PGram PDoc1 PDoc2 PDoc3 PDoc4 PDoc5 SpecSrc SpecMark SpecApart.
From Verif Require PCov10 PTree8.
Local Open Scope nat_scope.

Section PA.
Variable src : bytes.
Variable pp : prepass.
Hypothesis Hw : wfb src.
Hypothesis Hdw : defs_written src pp.
Notation ev := (event * span)%type.

Definition popart (q : option ev) (e : ev) : Prop := match q with Some (End_ c, _) => after_block src c (fst e) (snd e) | _ => True end.
Fixpoint pwalk (q : option ev) (l : list ev) : Prop := match l with [] => True | e :: r => popart q e /\ pwalk (Some e) r end.
Fixpoint plast (q : option ev) (l : list ev) : option ev := match l with [] => q | e :: r => plast (Some e) r end.
Lemma pwalk_app a : forall q b, pwalk q (a ++ b) <-> pwalk q a /\ pwalk (plast q a) b.
Proof. induction a as [|k a IH]; intros q b; cbn [app pwalk plast]; [tauto|]. rewrite IH. tauto. Qed.
Lemma plast_app a : forall q b, plast q (a ++ b) = plast (plast q a) b.
Proof. induction a as [|k a IH]; intros q b; cbn [app plast]; auto. Qed.
Definition pquiet (q : option ev) : Prop := forall e, popart q e.
Lemma popart_end q c sp : popart q (End_ c, sp).
Proof. destruct q as [[[] ?]|]; cbn; try exact I. left. eauto. Qed.
Lemma pq_start c a sp : pquiet (Some (Start c a, sp)).
Proof. intros e. exact I. Qed.

(** What a block event may give. *)
Definition pub (k : bkind_ev) (e : event) (sp : span) : Prop :=
  match k with
  | BAtom BBlankline => e = Blankline
  | BAtom BAttributes => attributed src sp \/ exists a, e = Attributes a
  | BAtom BThematicBreak => exists a, e = ThematicBreak a
  | BEnter (NLeaf lf) => exists hr a, e = Start (leafc pp hr lf) a
  | BEnter (NCont c) => cok c /\ exists a, e = Start (contc pp c) a
  | _ => False
  end.
Definition R (b : pend) (p : option bkind_ev) (q : option ev) : Prop :=
  match b with
  | None => forall k e sp, pub k e sp -> opart p k -> popart q (e, sp)
  | Some _ => forall e sp, pub (BAtom BAttributes) e sp -> popart q (e, sp)
  end.
Lemma R_quiet b p q : pquiet q -> R b p q.
Proof. intros H. destruct b; cbn; intros; apply H. Qed.
Lemma R_attr b p q e sp : R b p q -> opart p (BAtom BAttributes) -> pub (BAtom BAttributes) e sp -> popart q (e, sp).
Proof. intros H Ho Hp. destruct b; cbn in H; eauto. Qed.

Lemma sets_attributed sp : sets_text (slice src sp) -> attributed src sp.
Proof. intros (x & b & E & (m & ->) & _). unfold attributed. rewrite E. reflexivity. Qed.
(** A start or break after a possible set of attributes. *)
Lemma R_pub b x lo nxt p q k e sp : R b p q -> bok src x b lo nxt -> lo <= ss sp -> span_ok src sp -> opart p k -> (forall sp', pub k e sp') -> popart q (e, spn b sp).
Proof.
  intros H Hb Hlo Hs Ho Hp. destruct b as [[a asp]|]; cbn [R spn] in *; [|eauto]. apply H. left.
  destruct Hb as (A1 & A2 & _ & _ & _ & A6). destruct A6 as (x1 & b1 & E1 & (m1 & ->) & _). unfold attributed.
  destruct A1 as (B1 & B2 & _). destruct Hs as (C1 & C2 & _).
  rewrite <- (slice_app src (ss asp) (se asp) (se sp)) by lia. rewrite span_eta, E1. reflexivity.
Qed.

Lemma body_walk c lo O hi q : body src pp c lo O hi -> pquiet q -> pwalk q (filter (shown src) O) /\ pquiet (plast q (filter (shown src) O)).
Proof.
  intros [(m & _ & H) _]. apply qsteps_psteps in H. revert q. induction H as [|s [e sp] s1 E s2 H1 H2 IH]; intros q Hq; [split; [exact I|exact Hq]|].
  assert (He : shown src (e, sp) = true /\ pquiet (Some (e, sp))).
  { inversion H1; subst; unfold shown; cbn [fst snd]; try (split; [reflexivity|intros z; exact I]).
    - destruct e; try discriminate; split; try reflexivity; intros z; exact I.
    - destruct c0; try discriminate; split; try reflexivity; intros z; exact I.
    - destruct c0; try discriminate; split; try reflexivity; intros z; cbn; right; exact I. }
  destruct He as [He1 He2]. cbn [filter]. rewrite He1. cbn [pwalk plast]. destruct (IH _ He2) as [I1 I2]. split; [split; [apply Hq|exact I1]|exact I2].
Qed.

(** ** The end of a block *)
Lemma R_leaf hr lf sp : R None (Some (BExit (NLeaf lf))) (Some (End_ (leafc pp hr lf), sp)).
Proof.
  intros k e sp' Hp Ho. cbn [popart fst snd].
  assert (Hnx : forall n, k <> BExit n) by (intros n ->; exact Hp).
  destruct lf as [|lv h ps| | | | |lang]; cbn [leafc]; try (right; exact I).
  - assert (E : k = BAtom BBlankline) by (destruct k; try exact Ho; exfalso; eapply Hnx; reflexivity). subst k. right. exact Hp.
  - right. assert (E : k <> BEnter (NLeaf FParagraph) /\ forall h p, k <> BEnter (NLeaf (FHeading lv h p))) by (destruct k; try exact Ho; exfalso; eapply Hnx; reflexivity).
    destruct E as [E1 E2]. destruct k as [[c|lf]| | |[]|]; cbn [pub] in Hp; try contradiction.
    + destruct Hp as (_ & a & ->). right. intros c' a' [= <- <-]. destruct c; cbn; try (split; discriminate); [destruct ty; split; discriminate|destruct k; split; discriminate].
    + destruct Hp as (hr' & a & ->). right. intros c' a' [= <- <-]. destruct lf as [|lv' h' ps'| | | | |lang]; cbn [leafc]; try (split; discriminate).
      * congruence.
      * split; [discriminate|]. intros h0 i0 [= -> _ _]. eapply E2; reflexivity.
      * destruct lang as [|c0 l0]; [split; discriminate|destruct (beq c0 "="); split; discriminate].
    + subst e. right. discriminate.
    + destruct Hp as [Hp|[a ->]]; [left; exact Hp|right; discriminate].
    + destruct Hp as [a ->]. right. discriminate.
  - destruct lang as [|c0 l0]; [right; exact I|destruct (beq c0 "="); right; exact I].
Qed.
Lemma contc_start_ne c ty0 t0 : (forall ty t, c = BList ty t -> ordered_lt ty0 = false -> lt_class ty0 <> lt_class ty) -> lt_ok ty0 -> cok c -> ordered_lt ty0 = false ->
  match contc pp (BList ty0 t0) with ListC k _ => forall t, contc pp c <> ListC k t | DescriptionList => contc pp c <> DescriptionList | _ => True end.
Proof.
  intros H H1 H2 Ho.
  assert (Hk : forall k t, contc pp (BList ty0 t0) = ListC k t -> forall t', contc pp c <> ListC k t').
  { intros k t E t' E'. destruct c as [| | |ty t1| | | | |]; try discriminate E'.
    - apply (H ty t1 eq_refl Ho). assert (t = t0) as -> by (destruct ty0; inversion E; reflexivity). assert (t' = t1) as -> by (destruct ty; inversion E'; reflexivity). rewrite <- (kclass_of pp _ _ _ E H1), <- (kclass_of pp _ _ _ E' H2). reflexivity.
    - destruct k0; discriminate E'. }
  destruct (contc pp (BList ty0 t0)) eqn:E; try exact I; [intros t; eapply Hk; reflexivity|].
  intros E'. destruct c as [| | |ty t1|k| | | |]; try discriminate E'; [|destruct k; discriminate E'].
  destruct ty0; try discriminate E. destruct ty; try discriminate E'. apply (H LDescription t1 eq_refl Ho). reflexivity.
Qed.
Lemma R_cont c sp : cok c -> (forall p, c <> BSection p) -> R None (Some (BExit (NCont c))) (Some (End_ (contc pp c), sp)).
Proof.
  intros Hc Hns k e sp' Hp Ho. cbn [popart fst snd].
  assert (Hnx : forall n, k <> BExit n) by (intros n ->; exact Hp).
  destruct c as [| | |ty t|ik| | | |]; try (right; exact I).
  - right. assert (E : k <> BEnter (NLeaf FParagraph) /\ k <> BEnter (NCont BBlockquote)) by (destruct k; try exact Ho; exfalso; eapply Hnx; reflexivity).
    destruct E as [E1 E2]. destruct k as [[c|lf]| | |[]|]; cbn [pub] in Hp; try contradiction.
    + destruct Hp as (_ & a & ->). right. intros c' a' [= <- <-]. destruct c; cbn; try (split; discriminate); [congruence|destruct ty; split; discriminate|destruct k; split; discriminate].
    + destruct Hp as (hr' & a & ->). right. intros c' a' [= <- <-]. destruct lf as [|lv' h' ps'| | | | |lang]; cbn [leafc]; try (split; discriminate).
      * congruence.
      * destruct lang as [|c0 l0]; [split; discriminate|destruct (beq c0 "="); split; discriminate].
    + subst e. right. discriminate.
    + destruct Hp as [Hp|[a ->]]; [left; exact Hp|right; discriminate].
    + destruct Hp as [a ->]. right. discriminate.
  - right.
    assert (E : forall ty' t', k = BEnter (NCont (BList ty' t')) -> ordered_lt ty = false -> lt_class ty <> lt_class ty') by (destruct k; try exact Ho; exfalso; eapply Hnx; reflexivity).
    destruct (ordered_lt ty) eqn:Eo; [destruct ty; try discriminate Eo; exact I|].
    assert (Hcs : attributed src sp' \/ match contc pp (BList ty t) with ListC k _ => forall t a, e <> Start (ListC k t) a | DescriptionList => forall a, e <> Start DescriptionList a | _ => True end).
    { destruct k as [[c|lf]| | |[]|]; cbn [pub] in Hp; try contradiction.
      - destruct Hp as (Hc' & a & ->). right.
        pose proof (contc_start_ne c ty t ltac:(intros ty' t' -> _; eapply E; reflexivity) Hc Hc' Eo) as K.
        destruct (contc pp (BList ty t)); try exact I; congruence.
      - destruct Hp as (hr' & a & ->). right. assert (K : forall k t, leafc pp hr' lf <> ListC k t /\ leafc pp hr' lf <> DescriptionList).
        { intros k0 t0. destruct lf as [|lv' h' ps'| | | | |lang]; cbn [leafc]; try (split; discriminate). destruct lang as [|c0 l0]; [split; discriminate|destruct (beq c0 "="); split; discriminate]. }
        destruct (contc pp (BList ty t)); try exact I; intros; intros X; injection X as X _; first [exact (proj1 (K _ _) X)|exact (proj2 (K (LkTask BuDash) true) X)].
      - subst e. right. destruct (contc pp (BList ty t)); try exact I; discriminate.
      - destruct Hp as [Hp|[a ->]]; [left; exact Hp|right; destruct (contc pp (BList ty t)); try exact I; discriminate].
      - destruct Hp as [a ->]. right. destruct (contc pp (BList ty t)); try exact I; discriminate. }
    destruct ty; try discriminate Eo; cbn [contc] in *; exact Hcs.
  - destruct ik; right; exact I.
  - right. assert (E : k <> BEnter (NCont BTable)) by (destruct k; try exact Ho; exfalso; eapply Hnx; reflexivity).
    destruct k as [[c|lf]| | |[]|]; cbn [pub] in Hp; try contradiction.
    + destruct Hp as (_ & a & ->). right. intros a' [= X _]. destruct c; try discriminate X; [destruct ty; discriminate X|destruct k; discriminate X|congruence].
    + destruct Hp as (hr' & a & ->). right. intros a' [= X _]. destruct lf as [|lv' h' ps'| | | | |lang]; try discriminate X. destruct lang as [|c0 l0]; [discriminate X|cbn in X; destruct (beq c0 "="); discriminate X].
    + subst e. right. discriminate.
    + destruct Hp as [Hp|[a ->]]; [left; exact Hp|right; discriminate].
    + destruct Hp as [a ->]. right. discriminate.
Qed.

(** ** The whole document *)
Definition intab (x : ctx) : Prop := match x with XTable _ _ _ => True | _ => False end.
Definition Ta evs rest x y hi b hr s : Prop :=
  exists O b' hr' s', (forall O', Tb src pp (PS rest b' hr' false s') O' -> Tb src pp (PS (evs ++ rest) b hr false s) (O ++ O')) /\
    Idle s' /\ bok src y b' hi rest /\
    forall p q, R b p q -> (intab x -> pquiet q) -> walk p (vis evs) ->
      pwalk q (filter (shown src) O) /\ R b' (lastk p (vis evs)) (plast q (filter (shown src) O)).
Lemma leaf_in_tab x lf sp il x' : leaf_in x lf sp il x' -> ~ intab x'.
Proof. intros H. destruct H; try (cbn; tauto); match goal with H : flow ?x |- _ => destruct H as [-> | [? ->]]; cbn; tauto end. Qed.
Lemma cont_in_tab x c sp ic x' : cont_in x c sp ic x' -> intab x' -> (exists h, c = BTableRow h).
Proof. intros H. destruct H; try (cbn; tauto); try (match goal with H : flow ?x |- _ => destruct H as [-> | [? ->]]; cbn; tauto end). intros _. eauto. Qed.
Lemma cont_in_ic x c sp ic x' : cont_in x c sp ic x' -> intab ic -> c = BTable.
Proof. intros H. destruct H; cbn; tauto. Qed.
Lemma vis_cons k sp r : vis (BE k sp :: r) = if seen k then k :: vis r else vis r.
Proof. reflexivity. Qed.
Lemma filter_blanks l : filter (shown src) (blanks l) = blanks l.
Proof. induction l as [|y l IH]; [reflexivity|]. cbn [blanks map filter]. change (shown src (Blankline, y)) with true. cbn iota. f_equal. exact IH. Qed.
Lemma blanks_walk l q : pquiet q -> pwalk q (blanks l) /\ pquiet (plast q (blanks l)).
Proof.
  revert q. induction l as [|y l IH]; intros q Hq; [split; [exact I|exact Hq]|]. cbn [blanks map pwalk plast].
  destruct (IH (Some (Blankline, y)) ltac:(intros z; exact I)) as [I1 I2]. split; [split; [apply Hq|exact I1]|exact I2].
Qed.
Lemma battr_walk b p q : R b p q -> pwalk q (filter (shown src) (battr_ev b)) /\ R None p (plast q (filter (shown src) (battr_ev b))) \/ b = None.
Proof.
  intros H. destruct b as [[a asp]|]; [left|right; reflexivity]. cbn [battr_ev filter]. change (shown src (Attributes a, asp)) with true. cbn [pwalk plast]. split; [split; [|exact I]|].
  - apply H. right. eauto.
  - apply R_quiet. intros z. exact I.
Qed.
Lemma contc_shown c a sp : (forall p, c <> BSection p) -> shown src (Start (contc pp c) a, sp) = true /\ shown src (End_ (contc pp c), sp) = true.
Proof. intros H. destruct c; try (split; reflexivity); [destruct ty; split; reflexivity|destruct k; split; reflexivity|destruct (H pos eq_refl)]. Qed.
Lemma leafc_shown hr lf a sp : shown src (Start (leafc pp hr lf) a, sp) = true /\ shown src (End_ (leafc pp hr lf), sp) = true.
Proof. destruct lf as [|lv' h' ps'| | | | |lang]; try (split; reflexivity). cbn [leafc]. destruct lang as [|c0 l0]; [split; reflexivity|destruct (beq c0 "="); split; reflexivity]. Qed.
Lemma sec_seen c : (exists p, c = BSection p) \/ (forall p, c <> BSection p) /\ seen (BEnter (NCont c)) = true /\ seen (BExit (NCont c)) = true.
Proof. destruct c; try (right; split; [discriminate|split; reflexivity]). left. eauto. Qed.
Lemma pub_leaf lf hr a : forall sp, pub (BEnter (NLeaf lf)) (Start (leafc pp hr lf) a) sp.
Proof. intros sp. cbn. eauto. Qed.
Lemma pub_cont c a : cok c -> forall sp, pub (BEnter (NCont c)) (Start (contc pp c) a) sp.
Proof. intros H sp. cbn. eauto. Qed.

Lemma main_apart v x lo evs y hi : sq src v x lo evs y hi -> forall rest b hr s, Idle s -> bok src x b lo (evs ++ rest) -> Ta evs rest x y hi b hr s.
Proof.
  induction 1 as [v x lo hi Hle|v x lo a sp r y hi Hin Hlo Hok Hsq IH|v x lo lf sp il sp' x' r y hi Hin Heo Hlo Hsp Hil Hsp' Hsq IH Htx
    |v tb als due als' lo sp r y hi Hlo Hsp Hrow Hdue Hnn Hsq IH|v als lo sp il sp' r y hi Hlo Hsp Heo Hil Hsp' Hsq IH|v x lo c sp ic inner m q sp' x' r y hi Hin Hlo Hsp Hsq1 IH1 Hend Hq Hsp' Hsq IH Htx
    |v lo st sp il sp1 bl sp2 inner m q sp3 r y hi Hst Hlo Hlt Hsp Heo Hil Hsp1 Hbl Hch Hsp2 Hsq1 IH1 Hq Hsp3 Hsq IH Htx Htp Htb]; intros rest b hr s Hi Hb; unfold Ta.
  - exists [], b, hr, s. cbn [app]. split; [auto|]. split; [auto|]. split; [|intros p q H _ _; cbn; auto].
    destruct b as [[a asp]|]; [|exact I]. destruct Hb as (H1 & H2 & H3). cbn. split; [exact H1|]. split; [lia|exact H3].
  - destruct Hok as (Hsp & Hat & Hbl & Hbr). pose proof (proj1 Hsp) as Hss. destruct a.
    + (* Blankline *)
      assert (b = None) as -> by (destruct b as [[a asp]|]; [destruct Hb as (_ & _ & _ & Hb & _); discriminate|auto]).
      destruct (idle_T src pp s Hi) as (s1 & I1 & _ & I2). destruct (IH rest None hr s1 I1 I) as (O & b' & hr' & s' & T1 & T2 & T3 & T4).
      exists ((Blankline, sp) :: O), b', hr', s'. split; [|split; [auto|split; [auto|]]].
      * intros O' HT. cbn [app]. eapply t_emit; [reflexivity|]. apply I2. apply T1. exact HT.
      * intros p q HR Hq0 HW. rewrite vis_cons in *. cbn [seen walk lastk filter] in *. change (shown src (Blankline, sp)) with true. cbn [pwalk plast]. destruct HW as [W1 W2].
        assert (Hqq : pquiet (Some (Blankline, sp))) by (intros z; exact I).
        destruct (T4 (Some (BAtom BBlankline)) (Some (Blankline, sp)) (R_quiet None _ _ Hqq) (fun _ => Hqq) W2) as [T5 T6].
        split; [split; [|exact T5]|exact T6]. apply (HR (BAtom BBlankline)); [reflexivity|exact W1].
    + (* Attributes *)
      specialize (Hat eq_refl).
      assert (Hwi : SpecMark.within src (ss (spn b sp)) (se (spn b sp)) (batt b ++ attrs_at src sp)).
      { destruct (spn_begun _ _ _ _ _ _ Hb Hlo Hsp) as (_ & _ & W & _). eapply within_app; [exact W|]. replace (se (spn b sp)) with (se sp) by (destruct b as [[? ?]|]; reflexivity). apply aspan_within; [exact Hw|split; auto]. }
      set (a0 := batt b ++ attrs_at src sp) in *.
      assert (Hst : sets_text (slice src (spn b sp))) by (eapply spn_sets; eauto).
      set (asp := spn b sp) in *.
      destruct (spn_ok _ _ _ _ _ _ Hb Hlo Hsp) as (S1 & S2 & S3).
      assert (Hx : PGram.flow x \/ exists l m, x = XTop l m) by (destruct Hin as [Hin|[_ Hin]]; auto).
      assert (Hnt : ~ intab x) by (destruct Hx as [[-> | [l ->]]|(l & m & ->)]; cbn; tauto).
      assert (Est : block_step src pp (PS (BE (BAtom BAttributes) sp :: r ++ rest) b hr false s) =
        Ok (if next_is_blank (r ++ rest) then SEmit (Attributes a0) asp (PS (r ++ rest) None hr false s) else SLoop (PS (r ++ rest) (Some (a0, asp)) hr false s))).
      { unfold block_step. cbn [p_blocks p_battr]. destruct b as [[a1 asp1]|]; rewrite span_ok_ssub by auto; cbn [bind]; rewrite attrs_parse_text by auto; cbn [bind]; try reflexivity.
        unfold asp, spn. destruct (next_is_blank _); [destruct sp; reflexivity|]. destruct sp; reflexivity. }
      destruct (next_is_blank (r ++ rest)) eqn:En.
      * destruct (idle_T src pp s Hi) as (s1 & I1 & _ & I2). destruct (IH rest None hr s1 I1 I) as (O & b' & hr' & s' & T1 & T2 & T3 & T4).
        exists ((Attributes a0, asp) :: O), b', hr', s'. split; [|split; [auto|split; [auto|]]].
        -- intros O' HT. cbn [app]. eapply t_emit; [exact Est|]. apply I2. apply T1. exact HT.
        -- intros p q HR Hq0 HW. rewrite vis_cons in *. cbn [seen walk lastk filter] in *. change (shown src (Attributes a0, asp)) with true. cbn [pwalk plast]. destruct HW as [W1 W2].
           assert (Hqq : pquiet (Some (Attributes a0, asp))) by (intros z; exact I).
           destruct (T4 (Some (BAtom BAttributes)) (Some (Attributes a0, asp)) (R_quiet None _ _ Hqq) (fun _ => Hqq) W2) as [T5 T6].
           split; [split; [|exact T5]|exact T6]. eapply R_attr; [exact HR|exact W1|]. right. eauto.
      * assert (Hb' : bok src x (Some (a0, asp)) (se sp) (r ++ rest)) by (split; [auto|]; split; [unfold asp; lia|]; split; [auto|]; split; [auto|]; split; [exact Hwi|exact Hst]).
        destruct (IH rest (Some (a0, asp)) hr s Hi Hb') as (O & b' & hr' & s' & T1 & T2 & T3 & T4).
        exists O, b', hr', s'. split; [|split; [auto|split; [auto|]]].
        -- intros O' HT. cbn [app]. eapply t_loop; [exact Est|]. apply T1. exact HT.
        -- intros p q HR Hq0 HW. rewrite vis_cons in *. cbn [seen walk lastk] in *. destruct HW as [W1 W2].
           apply T4; [|tauto|exact W2]. intros e sp0 Hp. eapply R_attr; [exact HR|exact W1|exact Hp].
    + (* ThematicBreak *)
      destruct (idle_T src pp s Hi) as (s1 & I1 & _ & I2). destruct (IH rest None hr s1 I1 I) as (O & b' & hr' & s' & T1 & T2 & T3 & T4).
      exists ((ThematicBreak (batt b), spn b sp) :: O), b', hr', s'. split; [|split; [auto|split; [auto|]]].
      * intros O' HT. cbn [app]. eapply t_emit; [|apply I2; apply T1; exact HT]. unfold block_step. cbn [p_blocks p_battr]. destruct b as [[a asp]|]; reflexivity.
      * intros p q HR Hq0 HW. rewrite vis_cons in *. cbn [seen walk lastk filter] in *. change (shown src (ThematicBreak (batt b), spn b sp)) with true. cbn [pwalk plast]. destruct HW as [W1 W2].
        assert (Hqq : pquiet (Some (ThematicBreak (batt b), spn b sp))) by (intros z; exact I).
        destruct (T4 (Some (BAtom BThematicBreak)) (Some (ThematicBreak (batt b), spn b sp)) (R_quiet None _ _ Hqq) (fun _ => Hqq) W2) as [T5 T6].
        split; [split; [|exact T5]|exact T6]. eapply R_pub; eauto. intros sp'. cbn. eauto.
  - (* leaf *)
    pose proof (proj1 Hsp) as Hss. rewrite <- app_comm_cons, <- app_assoc. cbn [app].
    destruct (leaf_tr src pp Hw Hdw lf sp il sp' (r ++ rest) b hr s Hi Heo Hil) as (O1 & s1 & A1 & A2 & A3 & _).
    destruct (IH rest None hr s1 A2 I) as (O & b' & hr' & s' & T1 & T2 & T3 & T4).
    exists ((Start (leafc pp hr lf) (batt b), spn b sp) :: O1 ++ (End_ (leafc pp hr lf), sp') :: O), b', hr', s'. split; [|split; [auto|split; [auto|]]].
    + intros O' HT. cbn [app]. rewrite <- app_assoc. cbn [app]. apply A1. apply T1. exact HT.
    + intros p q HR Hq0 HW. rewrite vis_cons in *. cbn [seen walk lastk] in *. destruct HW as [W1 W2]. rewrite vis_app in *. rewrite vis_cons in *. cbn [seen] in *.
      apply walk_app in W2. destruct W2 as [_ [_ W3]]. rewrite lastk_app. cbn [lastk].
      cbn [filter]. rewrite (proj1 (leafc_shown _ _ _ _)). cbn [pwalk plast]. rewrite filter_app. cbn [filter]. rewrite (proj2 (leafc_shown _ _ [] _)).
      rewrite pwalk_app, plast_app. cbn [pwalk plast]. destruct (body_walk _ _ _ _ (Some (Start (leafc pp hr lf) (batt b), spn b sp)) A3 ltac:(intros z; exact I)) as [B1 B2].
      destruct (T4 (Some (BExit (NLeaf lf))) (Some (End_ (leafc pp hr lf), sp')) (R_leaf _ _ _) ltac:(intros K; destruct (leaf_in_tab _ _ _ _ _ Hin K)) W3) as [T5 T6].
      split; [|exact T6]. split; [eapply R_pub; eauto; apply pub_leaf|]. split; [exact B1|]. split; [apply popart_end|exact T5].
  - (* separator row *)
    assert (b = None) as -> by (eapply bnone; [exact Hb|intros [|[]]; discriminate|discriminate]).
    destruct (IH rest None hr s Hi I) as (O & b' & hr' & s' & T1 & T2 & T3 & T4).
    exists O, b', hr', s'. split; [auto|split; [auto|split; [auto|]]].
    intros p q HR Hq0 HW. specialize (Hq0 I). apply T4; [exact HR|intros _; exact Hq0|exact HW].
  - (* caption *)
    pose proof (proj1 Hsp) as Hss. rewrite <- app_comm_cons, <- app_assoc. cbn [app].
    assert (b = None) as -> by (eapply bnone; [exact Hb|intros [|[]]; discriminate|discriminate]).
    destruct (leaf_tr src pp Hw Hdw FCaption sp il sp' (r ++ rest) None hr s Hi Heo Hil) as (O1 & s1 & A1 & A2 & A3 & _).
    destruct (IH rest None hr s1 A2 I) as (O & b' & hr' & s' & T1 & T2 & T3 & T4).
    exists ((Start Caption [], sp) :: O1 ++ (End_ Caption, sp') :: O), b', hr', s'. split; [|split; [auto|split; [auto|]]].
    + intros O' HT. cbn [app]. rewrite <- app_assoc. cbn [app]. apply A1. apply T1. exact HT.
    + intros p q HR Hq0 HW. rewrite vis_cons in *. cbn [seen walk lastk] in *. destruct HW as [W1 W2]. rewrite vis_app in *. rewrite vis_cons in *. cbn [seen] in *.
      apply walk_app in W2. destruct W2 as [_ [_ W3]]. rewrite lastk_app. cbn [lastk].
      cbn [filter]. change (shown src (Start Caption [], sp)) with true. cbn [pwalk plast]. rewrite filter_app. cbn [filter]. change (shown src (End_ Caption, sp')) with true. cbn iota.
      rewrite pwalk_app, plast_app. cbn [pwalk plast]. destruct (body_walk _ _ _ _ (Some (Start Caption [], sp)) A3 ltac:(intros z; exact I)) as [B1 B2].
      assert (Hqq : pquiet (Some (End_ Caption, sp'))) by (intros z; right; exact I).
      destruct (T4 (Some (BExit (NLeaf FCaption))) (Some (End_ Caption, sp')) (R_quiet None _ _ Hqq) (fun _ => Hqq) W3) as [T5 T6].
      split; [|exact T6]. split; [apply Hq0; exact I|]. split; [exact B1|]. split; [apply popart_end|exact T5].
  - (* container *)
    pose proof (proj1 Hsp) as Hss. rewrite <- app_comm_cons, <- app_assoc. cbn [app].
    destruct (cont_gcont src pp _ _ _ _ _ hr _ _ _ Hin Hb) as [Hg Hc].
    destruct (cont_start src pp c sp (inner ++ BE (BExit (NCont c)) sp' :: r ++ rest) b hr s Hi Hc) as (s1 & A1 & A2).
    destruct (IH1 (BE (BExit (NCont c)) sp' :: r ++ rest) None (rowh c hr) s1 A1 I) as (O1 & b1 & hr1 & s2 & B1 & B2 & B3 & B4).
    destruct (cont_end src pp c sp' (r ++ rest) b1 hr1 s2 B2 Hc) as (s3 & C1 & C2).
    destruct (IH rest None hr1 s3 C1 I) as (O & b' & hr' & s' & T1 & T2 & T3 & T4).
    exists ((Start (contc pp c) (batt b), spn b sp) :: (O1 ++ battr_ev b1) ++ (End_ (contc pp c), sp') :: O), b', hr', s'. split; [|split; [auto|split; [auto|]]].
    + intros O' HT. cbn [app]. rewrite <- !app_assoc. cbn [app]. apply A2. apply B1. apply C2. apply T1. exact HT.
    + intros p q0 HR Hq0 HW. set (st0 := (Start (contc pp c) (batt b), spn b sp)) in *. rewrite vis_cons, vis_app, vis_cons in HW |- *.
      destruct (sec_seen c) as [[ps ->]|(Hns & Hs1 & Hs2)].
      * (* section *)
        cbn [seen] in *. apply walk_app in HW. destruct HW as [W1 W2]. rewrite lastk_app.
        assert (Hpq : exists q1, pwalk q0 (filter (shown src) [st0]) /\ plast q0 (filter (shown src) [st0]) = q1 /\ R None p q1).
        { unfold st0. destruct b as [[a asp]|].
          - exists (Some st0). cbn [filter]. assert (Ha : attributed src (spn (Some (a, asp)) sp)).
            { destruct Hb as (U1 & U2 & _ & _ & _ & U6). destruct U6 as (x1 & b1' & E1 & (m1 & ->) & _). unfold attributed. cbn [spn].
              destruct U1 as (V1 & V2 & _). destruct Hsp as (V3 & V4 & _). rewrite <- (slice_app src (ss asp) (se asp) (se sp)) by lia. rewrite span_eta, E1. reflexivity. }
            change (shown src (Start (contc pp (BSection ps)) (batt (Some (a, asp))), spn (Some (a, asp)) sp)) with (starts_c (slice src (spn (Some (a, asp)) sp)) "{"). rewrite Ha.
            cbn [pwalk plast]. split; [split; [apply HR; left; exact Ha|exact I]|]. split; [reflexivity|]. apply R_quiet. intros z. exact I.
          - exists q0. cbn [filter spn]. change (shown src (Start (contc pp (BSection ps)) (batt None), sp)) with (starts_c (slice src sp) "{"). destruct Htx as [X1 X2].
            assert (E0 : slice src sp = []) by (destruct sp as [u w]; unfold point in X1; cbn [ss se] in X1; rewrite X1; apply slice_nil). rewrite E0. cbn. auto. }
        destruct Hpq as (q1 & P1 & P2 & P3).
        rewrite (app_comm_cons (O1 ++ battr_ev b1)). cbn [app]. change (st0 :: (O1 ++ battr_ev b1) ++ (End_ (contc pp (BSection ps)), sp') :: O) with ([st0] ++ (O1 ++ battr_ev b1) ++ [(End_ (contc pp (BSection ps)), sp')] ++ O).
        rewrite !filter_app. change (filter (shown src) [(End_ (contc pp (BSection ps)), sp')]) with (@nil ev). cbn [app]. rewrite !pwalk_app, !plast_app, P2.
        destruct (B4 p q1 P3 ltac:(intros K; pose proof (cont_in_ic _ _ _ _ _ Hin K); discriminate) W1) as [B5 B6].
        destruct (battr_walk _ _ _ B6) as [[D1 D2]|D].
        -- destruct (T4 _ _ D2 ltac:(intros K; destruct (cont_in_tab _ _ _ _ _ Hin K); discriminate) W2) as [T5 T6]. auto 6.
        -- subst b1. cbn [battr_ev filter pwalk plast]. destruct (T4 _ _ B6 ltac:(intros K; destruct (cont_in_tab _ _ _ _ _ Hin K); discriminate) W2) as [T5 T6]. auto 8.
      * rewrite Hs1, Hs2 in *. cbn [walk lastk] in *. destruct HW as [W0 W1]. apply walk_app in W1. destruct W1 as [W1 [_ W2]]. rewrite lastk_app. cbn [lastk].
        cbn [filter]. unfold st0 at 1 3. rewrite (proj1 (contc_shown _ _ _ Hns)). fold st0. cbn [pwalk plast]. rewrite !filter_app. cbn [filter]. rewrite (proj2 (contc_shown _ [] _ Hns)).
        rewrite !pwalk_app, !plast_app. cbn [pwalk plast].
        assert (Hqq : pquiet (Some st0)) by (intros z; exact I).
        destruct (B4 (Some (BEnter (NCont c))) (Some st0) (R_quiet None _ _ Hqq) (fun _ => Hqq) W1) as [B5 B6].
        assert (HT4 : pwalk (Some (End_ (contc pp c), sp')) (filter (shown src) O) /\ R b' (lastk (Some (BExit (NCont c))) (vis r)) (plast (Some (End_ (contc pp c), sp')) (filter (shown src) O))).
        { apply T4; [apply R_cont; auto| |exact W2]. intros K. destruct (cont_in_tab _ _ _ _ _ Hin K) as [h ->]. intros z. right. exact I. }
        destruct HT4 as [T5 T6]. split; [|exact T6]. split; [unfold st0; eapply R_pub; eauto; apply pub_cont; exact Hc|].
        split; [split; [exact B5|]|split; [apply popart_end|exact T5]].
        destruct (battr_walk _ _ _ B6) as [[D1 D2]|D]; [exact D1|subst b1; exact I].
  - (* description *)
    rewrite <- !app_assoc. cbn [app]. rewrite <- !app_assoc. cbn [app]. rewrite <- !app_assoc. cbn [app]. rewrite <- !app_assoc. cbn [app].
    assert (b = None) as -> by (eapply bnone; [exact Hb|intros [|[]]; discriminate|discriminate]).
    set (it := BListItem IDescription). assert (Hc : cok it) by exact I.
    set (R1 := BE (BEnter (NCont it)) sp2 :: inner ++ BE (BExit (NCont it)) sp3 :: r ++ rest).
    destruct (leaf_tr src pp Hw Hdw FDescriptionTerm sp il sp1 (blank_evs bl ++ R1) None hr s Hi Heo Hil) as (O0 & s0 & Z1 & Z2 & Z3 & _).
    destruct (blank_tr src pp R1 hr bl s0 Z2) as (s01 & Y1 & Y2).
    destruct (cont_start src pp it sp2 (inner ++ BE (BExit (NCont it)) sp3 :: r ++ rest) None hr s01 Y1 Hc) as (s1 & A1 & A2).
    destruct (IH1 (BE (BExit (NCont it)) sp3 :: r ++ rest) None (rowh it hr) s1 A1 I) as (O1 & b1 & hr1 & s2 & B1 & B2 & B3 & B4).
    destruct (cont_end src pp it sp3 (r ++ rest) b1 hr1 s2 B2 Hc) as (s3 & C1 & C2).
    destruct (IH rest None hr1 s3 C1 I) as (O & b' & hr' & s' & T1 & T2 & T3 & T4).
    exists ((Start DescriptionTerm [], sp) :: O0 ++ (End_ DescriptionTerm, sp1) :: blanks bl ++ (Start DescriptionDetails [], sp2) :: (O1 ++ battr_ev b1) ++ (End_ DescriptionDetails, sp3) :: O), b', hr', s'.
    split; [|split; [auto|split; [auto|]]].
    + intros O' HT. apply stale_tr. cbn [app]. rewrite <- app_assoc. cbn [app]. rewrite <- app_assoc. cbn [app]. rewrite <- !app_assoc. cbn [app]. apply Z1. apply Y2. apply A2. apply B1. apply C2. apply T1. exact HT.
    + intros p q0 HR Hq0 HW.
      assert (Hvs : vis (stale_evs st) = []) by (destruct st as [[? ?]|]; reflexivity).
      repeat (rewrite vis_app in HW || rewrite vis_cons in HW). repeat (rewrite vis_app || rewrite vis_cons). rewrite Hvs in *. cbn [seen app walk lastk it] in *.
      destruct HW as [W0 W1]. apply walk_app in W1. destruct W1 as [_ [_ W1]]. apply walk_app in W1. destruct W1 as [_ [_ W1]]. apply walk_app in W1. destruct W1 as [W1 [_ W2]].
      repeat (rewrite lastk_app; cbn [lastk]).
      repeat (rewrite filter_app || (progress (cbn [filter]; change (shown src (Start DescriptionTerm [], sp)) with true; change (shown src (End_ DescriptionTerm, sp1)) with true;
        change (shown src (Start DescriptionDetails [], sp2)) with true; change (shown src (End_ DescriptionDetails, sp3)) with true; cbn iota))).
      rewrite !filter_blanks. cbn [pwalk plast].
      rewrite pwalk_app, plast_app. cbn [pwalk plast]. rewrite pwalk_app, plast_app. cbn [pwalk plast]. rewrite !pwalk_app, !plast_app. cbn [pwalk plast].
      destruct (body_walk _ _ _ _ (Some (Start DescriptionTerm [], sp)) Z3 ltac:(intros z; exact I)) as [X1 X2].
      destruct (blanks_walk bl (Some (End_ DescriptionTerm, sp1)) ltac:(intros z; right; exact I)) as [X3 X4].
      set (st2 := (Start DescriptionDetails [], sp2)) in *. assert (Hqq : pquiet (Some st2)) by (intros z; exact I).
      destruct (B4 (Some (BEnter (NCont it))) (Some st2) (R_quiet None _ _ Hqq) (fun _ => Hqq) W1) as [B5 B6].
      assert (Hq3 : pquiet (Some (End_ DescriptionDetails, sp3))) by (intros z; right; exact I).
      destruct (T4 (Some (BExit (NCont it))) (Some (End_ DescriptionDetails, sp3)) (R_quiet None _ _ Hq3) (fun _ => Hq3) W2) as [T5 T6].
      split; [|exact T6]. split; [apply (HR _ _ _ (pub_leaf FDescriptionTerm hr [] sp) W0)|]. split; [exact X1|]. split; [apply popart_end|].
      split; [exact X3|]. split; [apply X4|]. split; [split; [exact B5|]|split; [apply popart_end|exact T5]].
      destruct (battr_walk _ _ _ B6) as [[D1 D2]|D]; [exact D1|subst b1; exact I].
Qed.
End PA.

Theorem doc_apart src evs : wfb src -> parse_spans src = Ok evs -> pwalk src None (filter (shown src) evs).
Proof.
  intros Hw HP. pose proof (PTree8.block_parse_ok src Hw) as HB. destruct (block_parse src) as [blocks|m|] eqn:Eb; cbn [safe] in HB.
  2: { unfold parse_spans, p_new in HP. rewrite Eb in HP. discriminate. } 2: { contradiction. }
  destruct HB as [HB HWk].
  pose proof (sq_Fl _ _ _ _ _ _ _ HB [] (fl_nil src)) as HF. rewrite app_nil_r in HF.
  destruct (pre_new_ok src blocks Hw HF) as (s & D & H & heads & E1 & I1 & P1 & P2). set (pp := PP (rev D) heads (sort_heads heads)) in *.
  destruct (idle_T src pp s I1) as (s1 & I2 & _ & I3).
  assert (Hdw : defs_written src pp).
  { intros l u a Hin. pose proof (Pre_written _ _ _ _ _ Hw P1 (Fl_attr_spans _ _ HF) (Forall_nil _)) as HD. rewrite Forall_forall in HD.
    unfold pp in Hin. cbn [pp_defs] in Hin. apply in_rev in Hin. exact (HD _ Hin). }
  destruct (main_tr src pp Hw Hdw _ _ _ _ _ _ HB [] None false s1 I2 I) as (O0 & b0 & hr0 & s0 & Q1 & Q2 & Q3 & Q4 & Q5 & [Q6 Qi] & L & Q7 & Q8).
  assert (Eb0 : b0 = None) by (eapply bnone; [exact Q3|intros [|[]]; discriminate|discriminate]). subst b0.
  destruct (main_apart src pp Hw Hdw _ _ _ _ _ _ HB [] None false s1 I2 I) as (O & b' & hr' & s' & T1 & T2 & T3 & T4).
  assert (Eb' : b' = None) by (eapply bnone; [exact T3|intros [|[]]; discriminate|discriminate]). subst b'.
  assert (TO : T src pp (PS blocks None false false s) O0).
  { apply I3. rewrite <- (app_nil_r O0). rewrite <- (app_nil_r blocks). apply Q1. apply t_end; reflexivity. }
  assert (TC : T src pp (PS blocks None false false s) O).
  { apply I3. rewrite <- (app_nil_r O). rewrite <- (app_nil_r blocks). apply T1. apply t_end; reflexivity. }
  pose proof (proj1 (PCov10.T_fun src pp) _ _ TO _ TC) as ->.
  assert (E : parse_spans src = Ok O0).
  { unfold parse_spans, p_new. rewrite Eb. cbn [bind]. rewrite E1. cbn [bind]. apply T_all; [exact TO|].
    unfold all_fuel. cbn [p_blocks]. set (K := 4 * S (length src)) in *. assert (4 <= K) by (unfold K; lia). clearbody K. nia. }
  rewrite E in HP. apply PTable.okp1 in HP. subst evs.
  apply (T4 None None); [intros k e sp _ _; exact I|intros _ z; exact I|exact HWk].
Qed.
