(** * PDoc7: headings and link definitions of the pre-pass and of the events *)
From Verif Require Import Base Lex Attr Block Inline Doc SpecLex Lib SpecAttr PAttr PSafe SpecBlock PBlock1 PBlock2 PBlock3 PBlock4 PInl12 PGram PIds PDoc1 PDoc2 PDoc3 PDoc4 PDoc5 SpecView.
From Coq Require Import Sorting.Sorted.
Local Open Scope nat_scope.

(** The marks, with the attributes of the event a suffix of those the pre-pass collected. *)
Inductive corr : list (mark N) -> list (bytes * (bytes * attrs)) -> list (N * attrs) -> Prop :=
| c_nil : corr [] [] []
| c_head p a pre L D H : corr L D H -> corr (MHead p a :: L) D ((p, pre ++ a) :: H)
| c_def l u a pre L D H : corr L D H -> corr (MDef l u a :: L) ((l, (u, pre ++ a)) :: D) H.
Lemma corr_app L1 D1 H1 L2 D2 H2 : corr L1 D1 H1 -> corr L2 D2 H2 -> corr (L1 ++ L2) (D1 ++ D2) (H1 ++ H2).
Proof. induction 1; intros; cbn [app]; auto; constructor; auto. Qed.

(** Heading locations in order. *)
Fixpoint hseq (lo : nat) (H : list (N * attrs)) (hi : nat) : Prop :=
  match H with
  | [] => lo <= hi
  | (n, _) :: r => exists p, n = to_u32 p /\ lo <= p /\ hseq (S p) r hi
  end.
Lemma hseq_app a : forall lo m b hi, hseq lo a m -> hseq m b hi -> hseq lo (a ++ b) hi.
Proof.
  induction a as [|[n x] a IH]; intros lo m b hi H1 H2; cbn [app hseq] in *.
  - destruct b as [|[n x] b]; cbn [hseq] in *; [lia|]. destruct H2 as (p & ? & ? & ?). exists p. repeat split; auto; lia.
  - destruct H1 as (p & ? & ? & ?). exists p. repeat split; eauto.
Qed.
Lemma hseq_lo a lo lo' hi : hseq lo a hi -> lo' <= lo -> hseq lo' a hi.
Proof. destruct a as [|[n x] a]; cbn; [lia|]. intros (p & ? & ? & ?) ?. exists p. repeat split; auto; lia. Qed.

Section S.
Variable src : bytes.
Notation fa := (flat_map (attrs_at src)).
Definition bsuf (x : ctx) (b : attrs) (ap : list span) : Prop :=
  (exists pre, fa ap = pre ++ b) /\ (b = [] \/ flow x \/ exists l m, x = XTop l m).
Lemma bsuf_nil x ap : bsuf x [] ap.
Proof. split; [exists (fa ap); rewrite app_nil_r; reflexivity|auto]. Qed.
Lemma bsuf_no x b ap : bsuf x b ap -> ~ flow x -> (forall l m, x <> XTop l m) -> b = [].
Proof. intros [_ [H|[H|(l & m & H)]]] H1 H2; auto; [contradiction|exfalso; eapply H2; eauto]. Qed.

Lemma pre_tail lf sp r D H : forall il ap, Pre src ap (inl_evs il ++ BE (BExit (NLeaf lf)) sp :: r) D H -> Pre src [] r D H.
Proof.
  induction il as [|x il IH]; intros ap HP; cbn [inl_evs map app] in HP.
  - inversion HP; subst; auto; cbn in *; contradiction.
  - inversion HP; subst; cbn in *; try contradiction. eapply IH; eauto.
Qed.
Lemma pre_plain ap lf sp il sp' r D H : pre_leaf lf = false -> Pre src ap (BE (BEnter (NLeaf lf)) sp :: inl_evs il ++ BE (BExit (NLeaf lf)) sp' :: r) D H -> Pre src [] r D H.
Proof. intros Hl HP. inversion HP; subst; try discriminate Hl; [|cbn in *; contradiction]. eapply pre_tail; eauto. Qed.
Lemma inl_eq il1 n1 s1 r1 il2 n2 s2 r2 : inl_evs il1 ++ BE (BExit n1) s1 :: r1 = inl_evs il2 ++ BE (BExit n2) s2 :: r2 -> il1 = il2 /\ r1 = r2.
Proof.
  intros E. assert (H : il1 = il2) by (rewrite <- (ilead_inl il1 n1 s1 r1), E; apply ilead_inl). subst il2. split; [auto|]. apply app_inv_head in E. congruence.
Qed.
Lemma pre_deft ap l sp il sp' r D H : Pre src ap (BE (BEnter (NLeaf (FLinkDefinition l))) sp :: inl_evs il ++ BE (BExit (NLeaf (FLinkDefinition l))) sp' :: r) D H ->
  exists D', D = (l, (url_of src il, fa ap)) :: D' /\ Pre src ap r D' H.
Proof.
  intros HP. inversion HP; subst; try (cbn in *; contradiction); try discriminate.
  match goal with E : inl_evs _ ++ _ = _ |- _ => apply inl_eq in E; destruct E as [-> ->] end. eauto.
Qed.
Lemma pre_headt ap lv hs pos sp il sp' r D H : Pre src ap (BE (BEnter (NLeaf (FHeading lv hs pos))) sp :: inl_evs il ++ BE (BExit (NLeaf (FHeading lv hs pos))) sp' :: r) D H ->
  exists H', H = (to_u32 (ss sp), fa ap) :: H' /\ Pre src ap r D H'.
Proof.
  intros HP. inversion HP; subst; try (cbn in *; contradiction); try discriminate.
  match goal with E : inl_evs _ ++ _ = _ |- _ => apply inl_eq in E; destruct E as [-> ->] end. eauto.
Qed.
Lemma pre_blank r D H : forall bl ap, Pre src ap (blank_evs bl ++ r) D H -> exists ap', Pre src ap' r D H.
Proof. induction bl as [|x bl IH]; intros ap HP; cbn in HP; [eauto|]. inversion HP; subst; cbn in *; try contradiction. eauto. Qed.

Definition corrx (x y : ctx) (ap : list span) L D1 H1 : Prop :=
  match x with
  | XSec K p => (L = [] /\ D1 = [] /\ H1 = [] /\ y = x) \/ exists H1', H1 = (p, fa ap) :: H1' /\ corr L D1 H1'
  | _ => corr L D1 H1
  end.
Lemma corrx_no x y ap L D H : (forall K p, x <> XSec K p) -> corrx x y ap L D H -> corr L D H.
Proof. destruct x; cbn; auto. intros Hn. exfalso. eapply Hn; eauto. Qed.
Lemma corrx_yes x y ap L D H : (forall K p, x <> XSec K p) -> corr L D H -> corrx x y ap L D H.
Proof. destruct x; cbn; auto. intros Hn. exfalso. eapply Hn; eauto. Qed.
Lemma flow_nosec x K p : flow x -> x <> XSec K p.
Proof. intros [-> |[l ->]]; discriminate. Qed.

Definition Go evs rest x lo y hi b ap D H : Prop :=
  exists L D1 H1 D2 H2 b' ap', D = D1 ++ D2 /\ H = H1 ++ H2 /\ att src b (evs ++ rest) = L ++ att src b' rest /\ Pre src ap' rest D2 H2 /\
    bsuf y b' ap' /\ hseq lo H1 hi /\ corrx x y ap L D1 H1.
Lemma Go_pre evs rest x lo y hi b ap D H L0 D0 H0 evs0 b0 ap0 D' H' x0 lo0 :
  Go evs rest x lo y hi b ap D H -> D' = D0 ++ D -> H' = H0 ++ H -> att src b0 (evs0 ++ rest) = L0 ++ att src b (evs ++ rest) ->
  hseq lo0 H0 lo -> (forall K p, x <> XSec K p) -> (forall L1 D1 H1, corr L1 D1 H1 -> corrx x0 y ap0 (L0 ++ L1) (D0 ++ D1) (H0 ++ H1)) ->
  Go evs0 rest x0 lo0 y hi b0 ap0 D' H'.
Proof.
  intros (L & D1 & H1 & D2 & H2 & b' & ap' & -> & -> & E3 & P & S & Hs & Hc) -> -> Ea Hh Hn Hx.
  exists (L0 ++ L), (D0 ++ D1), (H0 ++ H1), D2, H2, b', ap'. rewrite <- !app_assoc. do 2 (split; [reflexivity|]).
  split; [rewrite Ea, E3; reflexivity|]. do 2 (split; [assumption|]). split; [eapply hseq_app; eauto|]. apply Hx. eapply corrx_no; eauto.
Qed.
Lemma go v x lo evs y hi : sq src v x lo evs y hi -> forall rest b ap D H, bsuf x b ap -> Pre src ap (evs ++ rest) D H -> Go evs rest x lo y hi b ap D H.
Proof.
  induction 1 as [v x lo hi Hle|v x lo a sp r y hi Hin Hlo Hok Hsq IH|v x lo lf sp il sp' x' r y hi Hin Heo Hlo Hsp Hil Hsp' Hsq IH Htx
    |v tb als due als' lo sp r y hi Hlo Hsp Hrow Hdue Hnn Hsq IH|v als lo sp il sp' r y hi Hlo Hsp Heo Hil Hsp' Hsq IH|v x lo c sp ic inner m q sp' x' r y hi Hin Hlo Hsp Hsq1 IH1 Hend Hq Hsp' Hsq IH Htx Hloose
    |v lo st sp il sp1 bl sp2 inner m q sp3 r y hi Hst Hlo Hlt Hsp Heo Hil Hsp1 Hbl Hch Hsp2 Hsq1 IH1 Hq Hsp3 Hsq IH Htx Htp Htb]; intros rest b ap D H Hb HP.
  - exists [], [], [], D, H, b, ap. cbn [app] in *. do 5 (split; [first [assumption | reflexivity]|]). split; [exact Hle|]. destruct x; cbn; auto; constructor.
  - assert (Hns : forall K p, x <> XSec K p) by (intros K p ->; destruct Hin as [[|[]]|[_ (? & ? & ?)]]; discriminate).
    assert (Hsq' : lo <= se sp) by (destruct Hok as [[? _] _]; lia).
    assert (Hgo : forall b1 ap1, bsuf x b1 ap1 -> Pre src ap1 (r ++ rest) D H -> att src b ((BE (BAtom a) sp :: r) ++ rest) = att src b1 (r ++ rest) ->
      Go (BE (BAtom a) sp :: r) rest x lo y hi b ap D H).
    { intros b1 ap1 B1 P1 Ea. eapply (Go_pre _ _ _ _ _ _ _ _ _ _ [] [] [] _ b ap D H x lo (IH rest b1 ap1 D H B1 P1)); auto. intros; apply corrx_yes; auto. }
    cbn [app] in HP. destruct a.
    + apply (Hgo [] []); [apply bsuf_nil| |reflexivity]. inversion HP; subst; auto; cbn in *; contradiction.
    + inversion HP; subst; [|cbn in *; contradiction]. destruct (next_is_blank (r ++ rest)) eqn:En.
      * apply (Hgo [] (ap ++ [sp])); [apply bsuf_nil|auto|cbn [app att]; rewrite En; reflexivity].
      * apply (Hgo (b ++ attrs_at src sp) (ap ++ [sp])); [|auto|cbn [app att]; rewrite En; reflexivity].
        destruct Hb as [[pre Hb] _]. split; [exists pre; rewrite flat_map_app, Hb; cbn [flat_map]; rewrite app_nil_r, app_assoc; reflexivity|].
        right. destruct Hin as [Hin|[_ Hin]]; auto.
    + apply (Hgo [] []); [apply bsuf_nil| |reflexivity]. inversion HP; subst; auto; cbn in *; contradiction.
  - rewrite <- app_comm_cons, <- app_assoc in HP. cbn [app] in HP.
    assert (Hm : se sp <= ss sp') by (destruct Hil as [_ Hil]; apply chain_le in Hil; auto). assert (H1 : ss sp <= se sp) by apply Hsp. assert (H2 : ss sp' <= se sp') by apply Hsp'.
    assert (Hlt : lo <= se sp') by lia.
    assert (Ea : att src b ((BE (BEnter (NLeaf lf)) sp :: inl_evs il ++ BE (BExit (NLeaf lf)) sp' :: r) ++ rest) = one_start src (NLeaf lf) il b ++ att src [] (r ++ rest)).
    { rewrite <- app_comm_cons, <- app_assoc. cbn [app]. rewrite att_enter, att_inl, ilead_inl. reflexivity. }
    destruct (pre_leaf lf) eqn:Epl.
    + destruct lf; try discriminate Epl.
      * destruct (pre_headt _ _ _ _ _ _ _ _ _ _ HP) as (H' & -> & HP').
        inversion Hin; subst.
        -- eapply (Go_pre _ _ _ _ _ _ _ _ _ _ [MHead (to_u32 (ss sp)) b] [] [(to_u32 (ss sp), fa ap)] _ b ap D _ XFlow lo (IH rest [] ap D H' (bsuf_nil _ _) HP')); auto.
           ++ exists (ss sp). repeat split; auto. cbn. lia.
           ++ discriminate.
           ++ intros. cbn [corrx app]. destruct Hb as [[pre ->] _]. constructor; auto.
        -- assert (b = []) as -> by (eapply bsuf_no; [exact Hb|intros [|[]]; discriminate|discriminate]).
           eapply (Go_pre _ _ _ _ _ _ _ _ _ _ [] [] [(to_u32 (ss sp), fa ap)] _ [] ap D _ _ lo (IH rest [] ap D H' (bsuf_nil _ _) HP')); auto.
           ++ exists (ss sp). repeat split; auto. cbn. lia.
           ++ discriminate.
           ++ intros. cbn [corrx app]. right. eexists. split; [reflexivity|auto].
      * destruct (pre_deft _ _ _ _ _ _ _ _ HP) as (D' & -> & HP').
        inversion Hin; subst.
        eapply (Go_pre _ _ _ _ _ _ _ _ _ _ [MDef label (url_of src il) b] [(label, (url_of src il, fa ap))] [] _ b ap _ _ x' lo (IH rest [] ap D' H (bsuf_nil _ _) HP')); auto.
        -- intros. apply flow_nosec; auto.
        -- intros. cbn [app]. apply corrx_yes; [intros; apply flow_nosec; auto|]. destruct Hb as [[pre ->] _]. constructor; auto.
    + apply pre_plain in HP; [|auto].
      assert (Hns : (forall K p, x <> XSec K p) /\ (forall K p, x' <> XSec K p)).
      { destruct Hin; try discriminate Epl; split; intros; try discriminate; apply flow_nosec; auto. }
      destruct Hns as [N1 N2].
      eapply (Go_pre _ _ _ _ _ _ _ _ _ _ [] [] [] _ b ap D H x lo (IH rest [] [] D H (bsuf_nil _ _) HP)); auto.
      * rewrite Ea. destruct lf; try discriminate Epl; reflexivity.
      * intros. apply corrx_yes; auto.
  - assert (b = []) as -> by (eapply bsuf_no; [exact Hb|intros [|[]]; discriminate|discriminate]).
    assert (H1 : ss sp <= se sp) by apply Hsp.
    eapply (Go_pre _ _ _ _ _ _ _ _ _ _ [] [] [] _ [] ap D H _ lo (IH rest [] ap D H (bsuf_nil _ _) HP)); auto; try discriminate. cbn. lia.
  - rewrite <- app_comm_cons, <- app_assoc in HP. cbn [app] in HP. apply pre_plain in HP; [|reflexivity].
    eapply (Go_pre _ _ _ _ _ _ _ _ _ _ [] [] [] _ b ap D H _ lo (IH rest [] [] D H (bsuf_nil _ _) HP)); auto; try discriminate.
    + rewrite <- app_comm_cons, <- app_assoc. cbn [app]. rewrite att_enter, att_inl. reflexivity.
    + cbn. lia.
  - rewrite <- app_comm_cons, <- app_assoc in HP. cbn [app] in HP.
    assert (HP1 : Pre src ap (inner ++ BE (BExit (NCont c)) sp' :: r ++ rest) D H) by (inversion HP; subst; [auto|cbn in *; contradiction]). clear HP.
    assert (H1 : ss sp <= se sp) by apply Hsp. assert (H2 : ss sp' <= se sp') by apply Hsp'.
    destruct (IH1 (BE (BExit (NCont c)) sp' :: r ++ rest) [] ap D H (bsuf_nil _ _) HP1) as (L1 & D1 & H1' & D2 & H2' & b1 & ap1 & -> & -> & E1 & HP2 & B2 & S2 & C2).
    assert (HP3 : exists ap2, Pre src ap2 (r ++ rest) D2 H2') by (inversion HP2; subst; eauto). destruct HP3 as [ap2 HP3].
    assert (N2 : forall K p, x' <> XSec K p) by (destruct Hin; intros; try discriminate; apply flow_nosec; auto).
    assert (N1 : forall K p, x <> XSec K p) by (destruct Hin; intros; try discriminate; apply flow_nosec; auto).
    eapply (Go_pre _ _ _ _ _ _ _ _ _ _ (one_start src (NCont c) [] b ++ L1) D1 H1' _ b ap _ _ x lo (IH rest [] ap2 D2 H2' (bsuf_nil _ _) HP3)); auto.
    + rewrite <- app_comm_cons, <- app_assoc. cbn [app]. rewrite att_enter. replace (one_start src (NCont c) (ilead _)) with (one_start src (NCont c) []) by (destruct c; reflexivity).
      rewrite E1, <- app_assoc. reflexivity.
    + eapply hseq_lo; [|exact (Nat.le_trans _ _ _ Hlo H1)]. rewrite <- (app_nil_r H1'). eapply hseq_app; [exact S2|]. cbn. lia.
    + intros L3 D3 H3 C3. apply corrx_yes; [auto|]. rewrite <- app_assoc. destruct Hin; cbn [one_start app];
        try (apply corr_app; [|auto]; eapply corrx_no; [|exact C2]; intros; discriminate).
      cbn [corrx] in C2. destruct C2 as [(_ & _ & _ & ->)|(H4 & -> & C2)]; [contradiction|]. cbn [app]. destruct Hb as [[pre ->] _]. constructor. apply corr_app; auto.
  - assert (b = []) as -> by (eapply bsuf_no; [exact Hb|intros [|[]]; discriminate|discriminate]).
    set (it := NCont (BListItem IDescription)) in *. set (R1 := BE (BEnter it) sp2 :: inner ++ BE (BExit it) sp3 :: r ++ rest).
    assert (E0 : (stale_evs st ++ BE (BEnter (NLeaf FDescriptionTerm)) sp :: inl_evs il ++ BE (BExit (NLeaf FDescriptionTerm)) sp1 :: blank_evs bl ++ BE (BEnter it) sp2 :: inner ++ BE (BExit it) sp3 :: r) ++ rest
      = stale_evs st ++ BE (BEnter (NLeaf FDescriptionTerm)) sp :: inl_evs il ++ BE (BExit (NLeaf FDescriptionTerm)) sp1 :: blank_evs bl ++ R1).
    { unfold R1. rewrite <- !app_assoc. cbn [app]. rewrite <- !app_assoc. cbn [app]. rewrite <- !app_assoc. cbn [app]. rewrite <- !app_assoc. reflexivity. }
    assert (E1 : forall b, att src b (BE (BEnter (NLeaf FDescriptionTerm)) sp :: inl_evs il ++ BE (BExit (NLeaf FDescriptionTerm)) sp1 :: blank_evs bl ++ R1) = att src [] (inner ++ BE (BExit it) sp3 :: r ++ rest)).
    { intros. rewrite att_enter, att_inl. cbn [one_start app att]. rewrite att_blank. unfold R1. rewrite att_enter. reflexivity. }
    rewrite E0 in HP.
    assert (HP0 : exists ap0, Pre src ap0 (BE (BEnter (NLeaf FDescriptionTerm)) sp :: inl_evs il ++ BE (BExit (NLeaf FDescriptionTerm)) sp1 :: blank_evs bl ++ R1) D H).
    { destruct st as [[s1 s2]|]; cbn [stale_evs app] in HP; [|eauto]. inversion HP; subst. match goal with H : Pre src [] _ _ _ |- _ => inversion H; subst end. eauto. }
    destruct HP0 as [ap0 HP0]. apply pre_plain in HP0; [|reflexivity]. apply pre_blank in HP0. destruct HP0 as [ap1 HP0].
    assert (HP1 : Pre src ap1 (inner ++ BE (BExit it) sp3 :: r ++ rest) D H) by (unfold R1 in HP0; inversion HP0; subst; [auto|cbn in *; contradiction]).
    destruct (IH1 (BE (BExit it) sp3 :: r ++ rest) [] ap1 D H (bsuf_nil _ _) HP1) as (L1 & D1 & H1' & D2 & H2' & b1 & ap3 & -> & -> & E2 & HP2 & B2 & S2 & C2).
    assert (HP3 : exists ap2, Pre src ap2 (r ++ rest) D2 H2') by (inversion HP2; subst; eauto). destruct HP3 as [ap2 HP3].
    eapply (Go_pre _ _ _ _ _ _ _ _ _ _ L1 D1 H1' _ [] ap _ _ _ lo (IH rest [] ap2 D2 H2' (bsuf_nil _ _) HP3)); auto; try discriminate.
    + rewrite E0. replace (att src [] (stale_evs st ++ _)) with (att src [] (BE (BEnter (NLeaf FDescriptionTerm)) sp :: inl_evs il ++ BE (BExit (NLeaf FDescriptionTerm)) sp1 :: blank_evs bl ++ R1)) by (destruct st as [[? ?]|]; reflexivity).
      rewrite E1, E2. reflexivity.
    + assert (H1 : ss sp <= se sp) by apply Hsp. assert (H3 : ss sp1 <= se sp1) by apply Hsp1. assert (H4 : ss sp2 <= se sp2) by apply Hsp2. assert (H5 : ss sp3 <= se sp3) by apply Hsp3.
      assert (H6 : se sp <= ss sp1) by (destruct Hil as [_ Hil]; apply chain_le in Hil; auto). apply chain_le in Hch.
      eapply (hseq_lo _ (se sp2)); [|lia]. rewrite <- (app_nil_r H1'). eapply hseq_app; [exact S2|]. cbn. lia.
    + intros. cbn [corrx app]. apply corr_app; [exact C2|assumption].
Qed.
End S.

Lemma doc_corr src blocks D H : sq src from_start XRoot 0 blocks XDone (length src) -> Pre src [] blocks D H ->
  corr (att src [] blocks) D H /\ hseq 0 H (length src).
Proof.
  intros Hs HP. rewrite <- (app_nil_r blocks) in HP.
  destruct (go src _ _ _ _ _ _ Hs [] [] [] D H (bsuf_nil _ _ _) HP) as (L & D1 & H1 & D2 & H2 & b' & ap' & -> & -> & E & P & _ & S & C).
  inversion P; subst. rewrite !app_nil_r. rewrite app_nil_r in E. cbn [att] in E. rewrite app_nil_r in E. rewrite E. auto.
Qed.
(** The attributes of the pre-pass are among the block attributes. *)
Lemma Pre_incl src ap evs D H : Pre src ap evs D H ->
  Forall (fun x => incl (snd x) (flat_map (attrs_at src) ap ++ battrs src evs)) H /\
  Forall (fun x => incl (snd (snd x)) (flat_map (attrs_at src) ap ++ battrs src evs)) D.
Proof.
  assert (Hw : forall (X Y : attrs) (H : list (N * attrs)) (D : list (bytes * (bytes * attrs))), incl X Y ->
    Forall (fun x => incl (snd x) X) H /\ Forall (fun x => incl (snd (snd x)) X) D -> Forall (fun x => incl (snd x) Y) H /\ Forall (fun x => incl (snd (snd x)) Y) D).
  { intros X Y H0 D0 Hi [H1 H2]. split; (eapply Forall_impl; [|eassumption]); cbn; intros; eapply incl_tran; eauto. }
  induction 1.
  - split; constructor.
  - eapply Hw; [|exact IHPre]. rewrite flat_map_app. cbn [flat_map]. rewrite app_nil_r, battrs_cons, app_assoc. apply incl_refl.
  - rewrite battrs_cons, battrs_app, battrs_inl, battrs_cons. cbn [app]. destruct IHPre. split; [auto|]. constructor; [|auto]. cbn. apply incl_appl, incl_refl.
  - rewrite battrs_cons, battrs_app, battrs_inl, battrs_cons. cbn [app]. destruct IHPre. split; [|auto]. constructor; [|auto]. cbn. apply incl_appl, incl_refl.
  - rewrite battrs_cons. exact IHPre.
  - rewrite battrs_cons. exact IHPre.
  - eapply Hw; [|exact IHPre]. cbn [flat_map app]. rewrite battrs_cons. apply incl_appr, incl_appr, incl_refl.
Qed.

(** ** Finding a heading by its location *)
Lemma hseq_bound H : forall lo hi, hseq lo H hi -> (N.of_nat hi <= 4294967296)%N ->
  StronglySorted N.lt (map fst H) /\ Forall (fun n => (N.of_nat lo <= n)%N) (map fst H) /\ lo <= hi.
Proof.
  induction H as [|[n a] H IH]; intros lo hi Hs Hh; cbn [map fst hseq] in *; [repeat split; try constructor; auto|].
  destruct Hs as (p & -> & Hp & Hs). destruct (IH _ _ Hs Hh) as (I1 & I2 & I3).
  assert (E : to_u32 p = N.of_nat p) by (unfold to_u32; apply N.mod_small; lia). rewrite E.
  split; [|split; [|lia]].
  - constructor; [auto|]. eapply Forall_impl; [|exact I2]. cbn. intros. lia.
  - constructor; [lia|]. eapply Forall_impl; [|exact I2]. cbn. intros. lia.
Qed.
Lemma by_location heads defs lx : StronglySorted N.lt (map h_loc heads) ->
  forall h, List.In h heads -> heading_id_by_location (PP defs heads lx) (h_loc h) = Some (heading_id h).
Proof.
  intros Hs h Hin. unfold heading_id_by_location. cbn [pp_heads]. set (cmp := fun i => _).
  assert (Hn : forall i j x y, i < j -> nth_error heads i = Some x -> nth_error heads j = Some y -> (h_loc x < h_loc y)%N).
  { intros i j x y Hij Ex Ey. apply (nth_sorted _ _ Hs i j); auto; apply map_nth_error; auto. }
  apply In_nth_error in Hin. destruct Hin as [k Hk].
  assert (Hkl : k < length heads) by (apply nth_error_Some; congruence).
  assert (Hg : forall i, i < length heads -> exists x, nth_error heads i = Some x).
  { intros i Hi. destruct (nth_error heads i) eqn:E; [eauto|]. apply nth_error_None in E. lia. }
  assert (Hc : forall i, i < length heads -> cmp i = match Nat.compare i k with Eq => Eq | Datatypes.Lt => Datatypes.Lt | Gt => Gt end).
  { intros i Hi. destruct (Hg i Hi) as [x Ex]. unfold cmp. rewrite Ex. destruct (Nat.compare_spec i k) as [-> |Hl|Hl].
    - rewrite Hk in Ex. injection Ex as <-. apply N.compare_refl.
    - apply N.compare_lt_iff. eapply Hn; eauto.
    - apply N.compare_gt_iff. eapply Hn; eauto. }
  assert (M : mono cmp (length heads)).
  { split; intros i j Hij H; rewrite Hc in * by lia; destruct (Nat.compare_spec i k); destruct (Nat.compare_spec j k); try congruence; lia. }
  pose proof (binary_search_ok cmp _ M) as H. destruct (binary_search cmp _) as [i|].
  - destruct H as [Hi E]. rewrite Hc in E by auto. destruct (Nat.compare_spec i k); try discriminate. subst i. rewrite Hk. reflexivity.
  - exfalso. apply (H k Hkl). rewrite Hc by auto. rewrite Nat.compare_refl. reflexivity.
Qed.
