(** * PCan18: the tree parser on blocks that are not lists *)
From Verif Require Import Base Lex Attr Inline Block Doc Lib PSafe PIds SpecBlock PCan1 PCan2 PCan3 PCan12 PCan13 PCan14 PCan15 PCan16 PCan17.
From Verif Require Import SpecCanon.
Local Open Scope nat_scope.

(** ** Looseness: the innermost list can change from tight to loose *)
Definition flip (L : list open_list) (E E' : list bev) (fl : bool) : Prop :=
  if fl then exists l L' ty sp, L = l :: L' /\ nth_error E (ol_event l) = Some (BE (BEnter (NCont (BList ty true))) sp)
                               /\ E' = upd E (ol_event l) (BE (BEnter (NCont (BList ty false))) sp)
  else E' = E.
(** No list is open at this level. *)
Definition lv (L : list open_list) (O : list nat) (E : list bev) : Prop :=
  match L with [] => True | l :: _ => ol_depth l < length O /\ ol_event l < length E end.
Lemma flip_len L E E' fl : flip L E E' fl -> length E' = length E.
Proof. destruct fl; cbn; [|intros ->; reflexivity]. intros (l & L' & ty & sp & _ & _ & ->). apply upd_length. Qed.
Lemma flip_app L O E X E'' fl : lv L O E -> flip L (E ++ X) E'' fl -> exists E', E'' = E' ++ X /\ flip L E E' fl.
Proof.
  intros Hl. destruct fl; cbn; [|intros ->; eauto]. intros (l & L' & ty & sp & -> & H1 & ->). destruct Hl as [_ Hl].
  rewrite nth_error_app1 in H1 by exact Hl. eexists. split; [apply upd_app_l, Hl|]. eauto 8.
Qed.
Lemma flip_trans L E E1 E2 f1 f2 : flip L E E1 f1 -> flip L E1 E2 f2 -> flip L E E2 (f1 || f2).
Proof.
  destruct f1, f2; cbn; intros H1 H2; subst; auto.
  destruct H1 as (l & L' & ty & sp & -> & H1 & ->). destruct H2 as (l2 & L2 & ty2 & sp2 & EQ & H2 & _). injection EQ as <- <-.
  rewrite upd_nth_eq in H2 by (apply nth_error_Some; congruence). discriminate H2.
Qed.
Lemma lv_more L O E E' x X : lv L O E -> length E' = length E -> lv L (x :: O) (E' ++ X).
Proof. destruct L as [|l L]; [auto|]. cbn. intros [H1 H2] H. rewrite app_length. lia. Qed.
Lemma lv_app L O E E' X : lv L O E -> length E' = length E -> lv L O (E' ++ X).
Proof. destruct L as [|l L]; [auto|]. cbn. intros [H1 H2] H. rewrite app_length. lia. Qed.

Definition St (pb pl : bool) (L : list open_list) (O : list nat) (E : list bev) : tstate := T pb pl None L [] O E.

Lemma update_lists_closed pb pl L O E k st : lv L O E -> update_lists (St pb pl L O E) k st = Ok (St pb pl L O E).
Proof.
  intros H. unfold update_lists, St. cbn [t_lists t_open]. destruct L as [|l L]; [reflexivity|]. destruct H as [H _].
  assert (Nat.leb (ol_depth l) (length O) = true) as -> by (apply Nat.leb_le; lia). cbn [assert bind].
  assert (Nat.eqb (length O) (ol_depth l) = false) as -> by (apply Nat.eqb_neq; lia). reflexivity.
Qed.
Definition is_item_kind (k : bkind) : bool := match k with KListItem _ _ _ => true | _ => false end.
Lemma update_loose_plain pb pl L O E k : lv L O E -> is_blank_kind k = false -> is_item_kind k = false ->
  pc (fun s' => exists fl E', s' = St false fl L O E' /\ flip L E E' fl /\ (fl = true -> pb = true)) (update_loose (St pb pl L O E) k).
Proof.
  intros Hlv Hb Hi.
  assert (K : pc (fun s' => exists fl E', s' = St false fl L O E' /\ flip L E E' fl /\ (fl = true -> pb = true))
     (let s1 := t_set_loose (St pb pl L O E) false in
      let! s2 :=
        (if t_pblank s1 then
           match t_lists s1 with
           | [] => Ok s1
           | l :: _ =>
               if Nat.leb (length (t_open s1)) (ol_depth l) || negb (is_item_kind k) then
                 let! e := get_at (t_events s1) (ol_event l) "block.rs:411" in
                 match bk e with
                 | BEnter (NCont (BList ty true)) =>
                     Ok (t_set_loose (t_set_events s1 (upd (t_events s1) (ol_event l) (BE (BEnter (NCont (BList ty false))) (bsp e)))) true)
                 | _ => Ok s1
                 end
               else Ok s1
           end
         else Ok s1) in
      Ok (t_set_blank s2 false))).
  { cbv zeta. unfold St. cbn [t_set_loose t_pblank t_lists t_open t_events t_ploose t_attr t_secs]. destruct pb; [|cbn; apply pc_ok; exists false, E; repeat split; auto].
    destruct L as [|l L]; [cbn; apply pc_ok; exists false, E; repeat split; auto|]. rewrite Hi. cbn [negb]. rewrite orb_true_r.
    assert (D : forall e, nth_error E (ol_event l) = Some e ->
       pc (fun s' => exists fl E', s' = St false fl (l :: L) O E' /\ flip (l :: L) E E' fl /\ (fl = true -> true = true))
        (let! s2 := match bk e with
                 | BEnter (NCont (BList ty true)) =>
                     Ok (t_set_loose (t_set_events (T true false None (l :: L) [] O E) (upd E (ol_event l) (BE (BEnter (NCont (BList ty false))) (bsp e)))) true)
                 | _ => Ok (T true false None (l :: L) [] O E)
                 end in Ok (t_set_blank s2 false))).
    { intros e He. assert (D0 : pc (fun s' => exists fl E', s' = St false fl (l :: L) O E' /\ flip (l :: L) E E' fl /\ (fl = true -> true = true)) (let! s2 := Ok (T true false None (l :: L) [] O E) in Ok (t_set_blank s2 false))).
      { cbn. apply pc_ok. exists false, E. repeat split; auto. }
      destruct e as [ke spe]. cbn [bk bsp]. destruct ke as [n| | | |]; try exact D0. destruct n as [c|]; [|exact D0]. destruct c as [| | |ty t| | | | |]; try exact D0. destruct t; [|exact D0].
      cbn. apply pc_ok. exists true. eexists. split; [reflexivity|]. split; [|auto]. exists l, L, ty, spe. auto. }
    unfold get_at. destruct (nth_error E (ol_event l)) as [e|] eqn:He; [|apply pc_panic]. cbn [unwrap bind]. exact (D e eq_refl). }
  destruct k as [a| | | | | | |]; try discriminate; try exact K. destruct a; try discriminate; exact K.
Qed.
Lemma update_loose_item pb pl L O E i ty lb : lv L O E -> update_loose (St pb pl L O E) (KListItem i ty lb) = Ok (St false false L O E).
Proof.
  intros H. unfold update_loose, St. cbn [t_set_loose t_pblank t_lists t_open t_events t_ploose t_attr t_secs]. destruct pb; [|reflexivity]. destruct L as [|l L]; [reflexivity|].
  destruct H as [H _]. assert (Nat.leb (length O) (ol_depth l) = false) as -> by (apply Nat.leb_gt; lia). reflexivity.
Qed.

(** ** Leaves *)
Lemma t_inlines_is ls : forall s, t_inlines s ls = t_set_events s (t_events s ++ map (BE BInline) ls).
Proof.
  unfold t_inlines. induction ls as [|l ls IH]; intros s; cbn [fold_left map].
  - rewrite app_nil_r. destruct s; reflexivity.
  - rewrite IH. unfold t_inline, t_push. cbn. rewrite <- app_assoc. destruct s; reflexivity.
Qed.
Section Canon.
Variable src : bytes.
Notation at_ := (PCan15.at_ src).
Notation V := (PCan15.V src).
Notation den := (PCan13.den src).

Lemma exit_is pb pl L O (E E' : list bev) n sp0 sp X : length E' = length E ->
  t_exit (St pb pl L (length E :: O) (E' ++ BE (BEnter n) sp0 :: X)) sp = Ok (St pb pl L O (E' ++ BE (BEnter n) sp0 :: X ++ [BE (BExit n) sp])).
Proof.
  intros H. unfold t_exit, t_pop_open, St. cbn [t_open t_events]. unfold get_at. rewrite <- H, nth_error_app2, Nat.sub_diag by lia. cbn.
  unfold t_push, t_set_events. cbn. rewrite <- app_assoc. reflexivity.
Qed.
Lemma parse_leaf_is (Q : list span -> Prop) pb pl L O (E : list bev) lf kd sp0 sp1 ls : (match kd with KHeading _ => False | _ => True end) ->
  pc Q (leaf_lines src lf kd ls) ->
  pc (fun s' => exists r, Q r /\ s' = St pb pl L O (E ++ BE (BEnter (NLeaf lf)) sp0 :: map (BE BInline) (filter (fun l => negb (sp_empty l)) r) ++ [BE (BExit (NLeaf lf)) sp1]))
     (parse_leaf src (St pb pl L O E) lf kd sp0 sp1 ls).
Proof.
  intros Hk HQ. unfold parse_leaf. eapply pc_bind; [exact HQ|]. intros r Hr.
  assert (Es : (match kd, lf with KHeading level, FHeading _ true _ => open_section (St pb pl L O E) level (ss sp0) | _, _ => Ok (St pb pl L O E) end) = Ok (St pb pl L O E))
    by (destruct kd; try contradiction; reflexivity).
  rewrite Es. cbn [bind]. rewrite t_inlines_is. unfold t_enter, t_push, St, t_set_open, t_set_events. cbn [t_pblank t_ploose t_attr t_lists t_secs t_open t_events]. rewrite <- app_assoc. cbn [app].
  pose proof (exit_is pb pl L O E E (NLeaf lf) sp0 sp1 (map (BE BInline) (filter (fun l => negb (sp_empty l)) r)) eq_refl) as K. unfold St in K. rewrite K.
  apply pc_ok. exists r. split; [exact Hr|reflexivity].
Qed.

(** ** Sequences of blocks *)
(** A list left open at the end of a sequence. *)
Definition Ends (ll : bool) L O (E' : list bev) (pb pl : bool) (Z : list sev) (s : tstate) : Prop :=
  if ll then exists X1 ty0 ty tp t sp X2, pl = false /\
      s = St pb false (OL ty tp (S (length O)) (length E' + length X1) :: L) ((length E' + length X1) :: O) (E' ++ X1 ++ BE (BEnter (NCont (BList ty0 t))) sp :: X2)
      /\ Z = map den X1 ++ SEnter (NCont (BList ty t)) :: map den X2 ++ [SExit (NCont (BList ty t))]
  else exists X, s = St pb pl L O (E' ++ X) /\ map den X = Z.
Definition Post (L : list open_list) (O : list nat) (E : list bev) (lo tail ll : bool) (Z : list sev) (s : tstate) : Prop :=
  exists E' fl pb pl, flip L E E' fl /\ (fl = true -> lo = true) /\ (pl = true -> fl = true)
    /\ (tail = false -> pb = false) /\ (tail = true -> ll = false -> pb = true) /\ Ends ll L O E' pb pl Z s.

Lemma close_is pb L O (E' X1 : list bev) ty0 ty tp t sp X2 d pos : d = length E' + length X1 ->
  close_list (St pb false L (d :: O) (E' ++ X1 ++ BE (BEnter (NCont (BList ty0 t))) sp :: X2)) (OL ty tp (S (length O)) d) pos
  = Ok (St pb false L O (E' ++ X1 ++ BE (BEnter (NCont (BList ty t))) sp :: X2 ++ [BE (BExit (NCont (BList ty t))) (Sp pos pos)])).
Proof.
  intros ->. unfold close_list, St. cbn [t_events ol_event ol_start t_ploose].
  assert (Hn : forall e, nth_error (E' ++ X1 ++ e :: X2) (length E' + length X1) = Some e).
  { intros e. rewrite app_assoc, nth_error_app2 by (rewrite app_length; lia). rewrite app_length, Nat.sub_diag. reflexivity. }
  unfold get_at. rewrite Hn. cbn [unwrap bind bk bsp]. unfold set_at.
  assert (Hlt : Nat.ltb (length E' + length X1) (length (E' ++ X1 ++ BE (BEnter (NCont (BList ty0 t))) sp :: X2)) = true).
  { apply Nat.ltb_lt. rewrite !app_length. cbn. lia. }
  rewrite Hlt. cbn [bind].
  assert (Hu : upd (E' ++ X1 ++ BE (BEnter (NCont (BList ty0 t))) sp :: X2) (length E' + length X1) (BE (BEnter (NCont (BList ty t))) sp) = E' ++ X1 ++ BE (BEnter (NCont (BList ty t))) sp :: X2).
  { rewrite upd_app_r. rewrite <- (Nat.add_0_r (length X1)), upd_app_r. reflexivity. }
  rewrite Hu. cbn [t_set_events t_pblank t_ploose t_attr t_lists t_secs t_open].
  pose proof (exit_is pb false L O (E' ++ X1) (E' ++ X1) (NCont (BList ty t)) sp (Sp pos pos) X2 eq_refl) as K. rewrite !app_length in K. rewrite <- !app_assoc in K. exact K.
Qed.
Lemma close_inner_is ll L O E' pb pl Z s pos : lv L O E' -> Ends ll L O E' pb pl Z s ->
  pc (fun s' => exists X, s' = St (if ll then false else pb) (if ll then false else pl) L O (E' ++ X) /\ map den X = Z) (close_inner_list s pos).
Proof.
  intros Hlv. destruct ll; cbn [Ends].
  - intros (X1 & ty0 & ty & tp & t & sp & X2 & -> & -> & ->). unfold close_inner_list, St. cbn [t_lists t_open ol_depth length].
    rewrite Nat.leb_refl, Nat.eqb_refl. cbn [assert bind].
    pose proof (close_is false L O E' X1 ty0 ty tp t sp X2 _ pos eq_refl) as K. unfold St in K.
    unfold t_set_lists, t_set_loose, t_set_blank. cbn [t_pblank t_ploose t_attr t_lists t_secs t_open t_events]. rewrite K. apply pc_ok.
    eexists. split; [reflexivity|]. rewrite map_app. cbn [map]. rewrite map_app. reflexivity.
  - intros (X & -> & <-). unfold close_inner_list, St. cbn [t_lists t_open]. destruct L as [|l L]; [apply pc_ok; eauto|]. destruct Hlv as [Hlv _].
    assert (Nat.leb (ol_depth l) (length O) = true) as -> by (apply Nat.leb_le; lia). cbn [assert bind].
    assert (Nat.eqb (length O) (ol_depth l) = false) as -> by (apply Nat.eqb_neq; lia). apply pc_ok. eauto.
Qed.

(** Containers. *)
Lemma container_body (rec : tstate -> list span -> res tstate) pb pl L O E c sp0 sp1 ls lo tail ll Z : lv L O E ->
  pc (Post L (length E :: O) (E ++ [BE (BEnter (NCont c)) sp0]) lo tail ll Z) (rec (St pb pl L (length E :: O) (E ++ [BE (BEnter (NCont c)) sp0])) ls) ->
  pc (fun s' => exists E' X fl pb' pl', flip L E E' fl /\ (fl = true -> lo = true) /\ (pl' = true -> fl = true)
        /\ (tail = false -> pb' = false) /\ (tail = true -> ll = false -> pb' = true)
        /\ s' = St pb' pl' L O (E' ++ X) /\ map den X = SEnter (NCont c) :: Z ++ [SExit (NCont c)])
     (let s4 := t_enter (St pb pl L O E) (NCont c) sp0 in
      let! s5 := rec s4 ls in
      let! s7 := close_inner_list s5 (ss sp1) in
      t_exit s7 sp1).
Proof.
  intros Hlv Hrec. cbv zeta. eapply pc_bind; [exact Hrec|]. intros s5 (E1 & fl & pb' & pl' & H1 & H2 & H3 & H4 & H5 & H6).
  destruct (flip_app _ _ _ _ _ _ Hlv H1) as (E' & -> & Hf). pose proof (flip_len _ _ _ _ Hf) as HE.
  eapply pc_bind; [eapply close_inner_is; [|exact H6]; apply (lv_more _ _ E); auto|].
  intros s7 (X & -> & HX). rewrite <- app_assoc. cbn [app]. rewrite exit_is by exact HE. apply pc_ok.
  exists E', (BE (BEnter (NCont c)) sp0 :: X ++ [BE (BExit (NCont c)) sp1]), fl, (if ll then false else pb'), (if ll then false else pl').
  split; [exact Hf|]. split; [exact H2|]. split; [destruct ll; [discriminate|exact H3]|]. split; [destruct ll; auto|].
  split; [intros Ht Hl; rewrite Hl; auto|]. split; [reflexivity|]. cbn [map]. rewrite map_app, HX. reflexivity.
Qed.
End Canon.
