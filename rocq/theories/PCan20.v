(** * PCan20: the tree parser on list items *)
From Verif Require Import Base Lex Attr Inline Block Doc Lib PSafe PIds SpecBlock PCan1 PCan2 PCan3 PCan12 PCan13 PCan14 PCan15 PCan16 PCan17 PCan18 PCan19.
From Verif Require Import SpecCanon.
Local Open Scope nat_scope.

Lemma list_type_eqb_eq a b : list_type_eqb a b = true -> a = b.
Proof.
  destruct a as [c|[n v] s|c|], b as [d|[n' v'] s'|d|]; cbn; intros H; try discriminate H; try reflexivity; try (apply beq_eq in H as ->; reflexivity).
  apply andb_prop in H as [H H3]. apply andb_prop in H as [H1 H2]. apply N.eqb_eq in H2 as ->.
  destruct n, n'; try discriminate H1; destruct s, s'; try discriminate H3; reflexivity.
Qed.
Lemma beq_refl' c : beq c c = true.
Proof. apply beq_eq. reflexivity. Qed.
Lemma lt_continues_mark m i j : lt_continues (mark_ty m i) (mark_ty m j) = Ok (Some (mark_ty m i, mark_ty m j)).
Proof.
  destruct m as [b|b|n st]; unfold lt_continues; cbn [mark_ty list_type_eqb].
  - rewrite beq_refl'. reflexivity.
  - rewrite beq_refl'. reflexivity.
  - destruct (_ && _); [reflexivity|]. cbn. destruct st; reflexivity.
Qed.
Lemma mark_ty0 m : mark_ty m 0 = mark_type m.
Proof. destruct m; cbn; rewrite ?N.add_0_r; reflexivity. Qed.

Section Canon.
Variable src : bytes.
Notation at_ := (PCan15.at_ src).
Notation V := (PCan15.V src).
Notation den := (PCan13.den src).
Notation Post := (PCan18.Post src).
Notation Good := (PCan19.Good src).

(** A list open at this level. *)
Definition Ls (pb pl : bool) (m : marks) (tp : list_type) (L : list open_list) (O : list nat) (E : list bev) ty0 t sp X : tstate :=
  St pb pl (OL (mark_type m) tp (S (length O)) (length E) :: L) (length E :: O) (E ++ BE (BEnter (NCont (BList ty0 t))) sp :: X).

Section Item.
Variables (rec : tstate -> list span -> res tstate) (m : marks) (i : N) (ck loose : bool) (body : list blk) (L : list open_list) (O : list nat) (E X : list bev) (k : nat) (top : bool) (s : tstate) (TQ : bool -> Prop).
Let kd lb := KListItem k (mark_ty m i) lb.
Definition Ready (s1 : tstate) : Prop := exists pl ty0 t sp, TQ t /\ s1 = Ls false pl m (mark_ty m i) L O E ty0 t sp X.
Hypothesis HUp : forall st lb, pc (fun s2 => pc Ready (maybe_open_list s2 (kd lb) st)) (let! s1 := update_lists s (kd lb) st in update_loose s1 (kd lb)).
Hypothesis Hrec : Good rec.
Hypothesis Hm : marks_ok m i.
Hypothesis Hf : first_ok body = true.
Hypothesis Hadj : no_adjacent_lists body = true.
Hypothesis Hok : forallb blk_ok body = true.
Hypothesis Ht : loose = false -> tight_body body = true.

Definition ItemPost (t' : bool) (x : nat * tstate) : Prop :=
  fst x = length (blks_lines body) + length (tlb t') /\
  exists pb pl ty0 t0 t sp Y, TQ t0 /\ snd x = Ls pb pl m (mark_ty m i) L O E ty0 t sp (X ++ Y)
    /\ map den Y = SEnter (NCont (BListItem (mark_item m ck))) :: blks_bevs body t' ++ [SExit (NCont (BListItem (mark_item m ck)))]
    /\ (t0 = false -> t = false /\ pl = false) /\ (loose = false -> t = t0 /\ pl = false)
    /\ (t' = false -> pb = false) /\ (t' = true -> last_list body = false -> pb = true).

Lemma bind_assoc {A C D} (r : res A) (f : A -> res C) (g : C -> res D) : (let! y := (let! x := r in f x) in g y) = let! x := r in let! y := f x in g y.
Proof. destruct r; reflexivity. Qed.

Lemma item_step t' line0 rest R : V k (line0 :: rest) (hang (mark_text m i ck) (blks_lines body) ++ tlb t' ++ R) -> item_stop k t' R ->
  pc (ItemPost t') (parse_block rec src s line0 rest top).
Proof.
  intros HV HR. destruct (body_first body Hf Hok) as (l & ls & Els & Hl). pose proof (blks_good body Hok) as Hg. unfold ItemPost. rewrite Els in HV, Hg |- *.
  assert (Hbody : body <> []) by (destruct body; discriminate).
  pose proof (identify_mark k m i ck l Hm Hl) as Hid.
  set (mk := mark_text m i ck) in *.
  unfold parse_block. eapply pc_bind; [eapply metered_item; [exact Hid|exact HV|exact HR]|]. intros y (lb & ->). cbn [table_trailing bind].
  assert (HV1 : V k (firstn (S (length ls) + length (tlb t')) (line0 :: rest)) ((mk ++ SP :: l) :: map (indent_line (S (length mk))) (ls ++ tlb t'))).
  { cbn [hang] in HV. rewrite app_assoc in HV. apply V_firstn in HV. cbn [app length] in HV. rewrite app_length, map_length in HV.
    rewrite map_app. replace (map (indent_line (S (length mk))) (tlb t')) with (tlb t') by (destruct t'; reflexivity). exact HV. }
  cbn [Nat.add firstn] in HV1 |- *. apply V_cons in HV1 as [H0 HV1]. match goal with |- context [firstn ?n rest] => set (rs := firstn n rest) end.
  match type of HV1 with PCan15.V _ _ ?z _ => change z with rs in HV1 end.
  destruct (last_opt_some (line0 :: rs)) as (el & Eel); [discriminate|]. rewrite Eel. cbn [unwrap bind ss se].
  unfold usub. assert (Nat.leb (ss line0) (k + length mk + ss line0) = true) as -> by (apply Nat.leb_le; lia). cbn [bind tl].
  replace (k + length mk + ss line0 - ss line0) with (k + length mk) by lia.
  rewrite <- bind_assoc. eapply pc_bind; [apply HUp|]. intros s2 Hs2.
  assert (Hl0 : at_ (Sp (ss line0 + (k + length mk)) (se line0)) (full 1 l)).
  { destruct Hl as (c & r & -> & _). pose proof (at_skip src line0 (repeat SP k ++ mk) (SP :: (c :: r) ++ [NL])) as K.
    rewrite app_length, repeat_length in K. apply K. clear - H0. unfold full in H0. destruct (mk ++ SP :: c :: r) eqn:Em; [destruct mk; discriminate|]. rewrite <- Em in H0.
    rewrite <- !app_assoc in H0 |- *. exact H0. }
  eapply pc_bind with (P := fun s' => exists pb pl ty0 t0 t sp Y, TQ t0 /\ s' = Ls pb pl m (mark_ty m i) L O E ty0 t sp (X ++ Y)
    /\ map den Y = SEnter (NCont (BListItem (mark_item m ck))) :: blks_bevs body t' ++ [SExit (NCont (BListItem (mark_item m ck)))]
    /\ (t0 = false -> t = false /\ pl = false) /\ (loose = false -> t = t0 /\ pl = false)
    /\ (t' = false -> pb = false) /\ (t' = true -> last_list body = false -> pb = true)).
  - (* the kind of the item *)
    eapply pc_bind with (P := eq (mark_item m ck)).
    { destruct m as [b|b|n st]; cbn [mark_ty mark_item]; try (apply pc_ok; reflexivity).
      assert (En : nth_error src (k + ss line0 + 3) = Some (if ck then "x" else SP)%char).
      { destruct H0 as [H1 H2]. pose proof (slice_nth src line0 (k + 3)) as K.
        assert (Ef : full k (mk ++ SP :: l) = repeat SP k ++ [bullet_char b; SP; "["%char; if ck then "x"%char else SP; "]"%char; SP] ++ l ++ [NL]).
        { unfold mk. destruct ck; reflexivity. }
        rewrite Ef in H1, H2. replace (k + ss line0 + 3) with (ss line0 + (k + 3)) by lia. rewrite <- K by (rewrite H2, !app_length, repeat_length; cbn [length]; lia).
        rewrite H1, nth_error_app2 by (rewrite repeat_length; lia). rewrite repeat_length. replace (k + 3 - k) with 3 by lia. reflexivity. }
      unfold get_at. rewrite En. cbn [unwrap bind]. apply pc_ok. destruct ck; reflexivity. }
    intros ik <-. unfold parse_container.
    eapply pc_bind with (P := fun ls' => V 1 ls' ((l :: ls) ++ tlb t')).
    { eapply pc_bind; [eapply (mapr_F2 (cont_line src (KListItem k (mark_ty m i) lb) (k + length mk)) (fun sp l => at_ sp (full k (indent_line (S (length mk)) l))) (fun sp l => at_ sp (full 1 l)) _ (ls ++ tlb t'))|].
      - intros a d Hd Ha. apply cont_item; [|exact Ha]. apply in_app_or in Hd as [Hd|Hd].
        + inversion Hg as [|? ? _ Hg']; subst. rewrite Forall_forall in Hg'. auto.
        + destruct t'; [destruct Hd as [<-|[]]|destruct Hd]. apply good_nil.
      - clear - HV1. revert HV1. generalize rs, (ls ++ tlb t'). clear. intros sps Z H. unfold PCan15.V in H. remember (map _ Z) as M eqn:EM. revert Z EM.
        induction H as [|sp x sps M H1 H2 IH]; intros [|y Z] EM; try discriminate EM; constructor; injection EM as -> ->; auto.
      - intros ls' Hls'. apply pc_ok. constructor; assumption. }
    intros ls' Hls'. eapply pc_bind; [exact Hs2|]. intros s1 (pl0 & ty0 & t0 & sp0 & HTQ & ->). unfold Ls.
    assert (Ec : forall (A1 A2 : res tstate), match BListItem (mark_item m ck) with BListItem IDescription => A1 | _ => A2 end = A2) by (intros; destruct m; reflexivity).
    rewrite Ec.
    set (L' := OL (mark_type m) (mark_ty m i) (S (length O)) (length E) :: L). set (E1 := E ++ BE (BEnter (NCont (BList ty0 t0))) sp0 :: X).
    assert (Hlv : lv L' (length E1 :: length E :: O) (E1 ++ [BE (BEnter (NCont (BListItem (mark_item m ck)))) (Sp (k + ss line0) (k + length mk + ss line0))])).
    { cbn. unfold E1. rewrite !app_length. cbn. lia. }
    assert (Hn : nth_error E1 (length E) = Some (BE (BEnter (NCont (BList ty0 t0))) sp0)).
    { unfold E1. rewrite nth_error_app2, Nat.sub_diag by lia. reflexivity. }
    assert (HlE : length E < length E1) by (unfold E1; rewrite app_length; cbn; lia).
    (* the contents *)
    cbv zeta.
    pose proof (Hrec body 1 L' (length E1 :: length E :: O) (E1 ++ [BE (BEnter (NCont (BListItem (mark_item m ck)))) (Sp (k + ss line0) (k + length mk + ss line0))]) false pl0 loose t' ls' Hbody Hok Hadj) as Hr.
    rewrite Els in Hr. specialize (Hr Hls' Hlv). 
    assert (Htc : tc loose false body) by (unfold tc; destruct loose; [left; reflexivity|right; left; split; [reflexivity|apply Ht; reflexivity]]).
    specialize (Hr Htc).
    eapply pc_bind; [exact Hr|]. intros s5 (E2 & fl & pb' & pl' & G1 & G2 & G3 & G4 & G5 & G6).
    assert (Hlv' : lv L' (length E1 :: length E :: O) E1) by (cbn; clear - HlE; lia).
    destruct (flip_app _ _ _ _ _ _ Hlv' G1) as (E1' & -> & Hfl). pose proof (flip_len _ _ _ _ Hfl) as HE1.
    eapply pc_bind; [eapply close_inner_is; [|exact G6]; cbn; rewrite app_length, HE1; cbn; clear - HlE; lia|].
    intros s7 (Y & -> & HY). rewrite <- app_assoc. cbn [app]. rewrite exit_is by exact HE1. apply pc_ok.
    assert (EE : exists t, E1' = E ++ BE (BEnter (NCont (BList ty0 t))) sp0 :: X /\ (t0 = false -> t = false /\ fl = false) /\ (fl = false -> t = t0)).
    { destruct fl; cbn in Hfl.
      - destruct Hfl as (l1 & L1 & ty1 & sp1 & EL & Hn1 & ->). injection EL as <- <-. cbn [ol_event] in *. rewrite Hn in Hn1. injection Hn1 as -> -> ->.
        exists false. split; [|split; [discriminate|discriminate]]. unfold E1. rewrite <- (Nat.add_0_r (length E)), upd_app_r. reflexivity.
      - subst E1'. exists t0. repeat split; auto. }
    destruct EE as (t & -> & Ht0 & Ht1).
    exists (if last_list body then false else pb'), (if last_list body then false else pl'), ty0, t0, t, sp0.
    eexists (BE (BEnter (NCont (BListItem (mark_item m ck)))) (Sp (k + ss line0) (k + length mk + ss line0)) :: Y ++ [BE (BExit (NCont (BListItem (mark_item m ck)))) _]).
    split; [exact HTQ|]. split; [rewrite <- app_assoc; reflexivity|]. split; [cbn [map]; rewrite map_app, HY; reflexivity|].
    assert (Hpl : fl = false -> (if last_list body then false else pl') = false).
    { intros ->. destruct (last_list body); [reflexivity|]. destruct pl'; [discriminate (G3 eq_refl)|reflexivity]. }
    split; [intros K; destruct (Ht0 K) as [A1 A2]; split; auto|].
    split; [intros K; assert (fl = false) as Kf by (destruct fl; [specialize (G2 eq_refl); congruence|reflexivity]); split; auto|].
    split; [intros K; destruct (last_list body); auto|]. intros K1 K2. rewrite K2. auto.
  - intros s' (pb & pl & ty0 & t0 & t & sp0 & Y & H1 & -> & H2). apply pc_ok. split.
    + cbn [fst length]. rewrite (V_len _ _ _ _ HV1), map_length, app_length. reflexivity.
    + exists pb, pl, ty0, t0, t, sp0, Y. split; [exact H1|]. split; [reflexivity|exact H2].
Qed.
End Item.

(** The first item opens the list. *)
Lemma first_up pb pl L O E m k : lv L O E -> forall st lb,
  pc (fun s2 => pc (Ready m 0 L O E [] (fun t => t = true)) (maybe_open_list s2 (KListItem k (mark_ty m 0) lb) st))
     (let! s1 := update_lists (St pb pl L O E) (KListItem k (mark_ty m 0) lb) st in update_loose s1 (KListItem k (mark_ty m 0) lb)).
Proof.
  intros Hlv st lb. rewrite update_lists_closed by exact Hlv. cbn [bind]. rewrite update_loose_item by exact Hlv. apply pc_ok.
  unfold maybe_open_list. change (t_lists (St false false L O E)) with L. change (t_open (St false false L O E)) with O.
  assert ((match L with [] => true | l :: _ => Nat.ltb (ol_depth l) (length O) end) = true) as ->.
  { destruct L as [|l L']; [reflexivity|]. destruct Hlv as [Hlv _]. apply Nat.ltb_lt, Hlv. }
  cbv zeta. unfold to_u16. change (length (t_open (t_enter (St false false L O E) (NCont (BList (mark_ty m 0) true)) (Sp st st)))) with (S (length O)).
  destruct (_ <? _)%N; [|apply pc_panic]. cbn [bind]. apply pc_ok. exists false, (mark_ty m 0), true, (Sp st st). split; [reflexivity|]. unfold Ls, St. rewrite mark_ty0. reflexivity.
Qed.
(** Later items continue it. *)
Lemma next_up pb pl L O E X m j i k ty0 t sp : forall st lb,
  pc (fun s2 => pc (Ready m i L O E X (fun t' => t' = t && negb pb)) (maybe_open_list s2 (KListItem k (mark_ty m i) lb) st))
     (let! s1 := update_lists (Ls pb pl m (mark_ty m j) L O E ty0 t sp X) (KListItem k (mark_ty m i) lb) st in update_loose s1 (KListItem k (mark_ty m i) lb)).
Proof.
  intros st lb. unfold update_lists, Ls, St. cbn [t_lists t_open ol_depth length]. rewrite Nat.leb_refl, Nat.eqb_refl. cbn [assert bind ol_prev].
  rewrite lt_continues_mark. cbn [bind ol_start].
  assert ((if list_type_eqb (mark_type m) (mark_ty m j) then mark_ty m j else mark_type m) = mark_type m) as ->.
  { destruct (list_type_eqb _ _) eqn:Eq; [|reflexivity]. symmetry. apply list_type_eqb_eq, Eq. }
  unfold t_set_lists. cbn [t_pblank t_ploose t_attr t_lists t_secs t_open t_events ol_event]. unfold update_loose.
  cbn [t_set_loose t_pblank t_lists t_open t_events t_ploose t_attr t_secs].
  assert (Hmo : forall pl' t' ev, ev = E ++ BE (BEnter (NCont (BList ty0 t'))) sp :: X -> t' = t && negb pb ->
    pc (Ready m i L O E X (fun t' => t' = t && negb pb)) (maybe_open_list (T false pl' None (OL (mark_type m) (mark_ty m i) (S (length O)) (length E) :: L) [] (length E :: O) ev) (KListItem k (mark_ty m i) lb) st)).
  { intros pl' t' ev -> Ht'. cbn [maybe_open_list t_lists t_open ol_depth length]. rewrite Nat.ltb_irrefl. apply pc_ok. exists pl', ty0, t', sp. split; [exact Ht'|reflexivity]. }
  destruct pb; cbn [t_set_blank t_pblank t_lists t_open t_events t_ploose t_attr t_secs bind].
  - cbn [ol_depth length ol_event]. rewrite Nat.leb_refl. cbn [orb]. unfold get_at. rewrite nth_error_app2, Nat.sub_diag by lia. cbn [nth_error unwrap bind bk bsp].
    destruct t; cbn [bind]; apply pc_ok.
    + unfold t_set_loose, t_set_blank, t_set_events. cbn [t_pblank t_lists t_open t_events t_ploose t_attr t_secs]. apply (Hmo true false); [|reflexivity].
      rewrite <- (Nat.add_0_r (length E)), upd_app_r. reflexivity.
    + unfold t_set_loose, t_set_blank, t_set_events. cbn [t_pblank t_lists t_open t_events t_ploose t_attr t_secs]. apply (Hmo false false); reflexivity.
  - apply pc_ok. unfold t_set_loose, t_set_blank, t_set_events. cbn [t_pblank t_lists t_open t_events t_ploose t_attr t_secs]. apply (Hmo false t); [reflexivity|]. rewrite andb_true_r. reflexivity.
Qed.
End Canon.
