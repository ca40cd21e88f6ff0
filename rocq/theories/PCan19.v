(** * PCan19: the tree parser on a block that is not a list *)
From Verif Require Import Base Lex Attr Inline Block Doc Lib PSafe PIds SpecBlock PCan1 PCan2 PCan3 PCan12 PCan13 PCan14 PCan15 PCan16 PCan17 PCan18.
From Verif Require Import SpecCanon.
Local Open Scope nat_scope.

Section Canon.
Variable src : bytes.
Notation at_ := (PCan15.at_ src).
Notation V := (PCan15.V src).
Notation den := (PCan13.den src).
Notation Post := (PCan18.Post src).

(** When a tight list must stay tight. *)
Definition tc (lo pb : bool) (bs : list blk) : Prop :=
  lo = true \/ (pb = false /\ tight_body bs = true) \/ (exists b, bs = [b] /\ is_list b = true).
(** [rec] parses sequences of canonical blocks. *)
Definition Good (rec : tstate -> list span -> res tstate) : Prop :=
  forall bs k L O E pb pl lo tail sps, bs <> [] -> forallb blk_ok bs = true -> no_adjacent_lists bs = true -> V k sps (blks_lines bs ++ tlb tail) ->
    lv L O E -> tc lo pb bs -> pc (Post L O E lo tail (last_list bs) (blks_bevs bs tail)) (rec (St pb pl L O E) sps).

Variable rec : tstate -> list span -> res tstate.

(** A blank line between blocks. *)
Lemma blank_step k pb pl L O E line0 rest R top : V k (line0 :: rest) ([] :: R) -> lv L O E ->
  pc (fun x => exists sp, x = (1, St true pl L O (E ++ [BE (BAtom BBlankline) sp]))) (parse_block rec src (St pb pl L O E) line0 rest top).
Proof.
  intros HV Hlv. unfold parse_block. eapply pc_bind; [eapply metered_blank, HV|]. intros x <-. cbn [table_trailing bind firstn length].
  change (last_opt [line0]) with (Some line0). cbn [unwrap bind]. apply pc_bind_eq. intros ol Hol. rewrite update_lists_closed by exact Hlv. cbn [bind update_loose].
  apply pc_ok. eexists. reflexivity.
Qed.

Definition StepPost (QE : list bev -> Prop) L O lo b (x : nat * tstate) : Prop :=
  exists E E' X fl pl, QE E /\ fst x = length (blk_lines b) /\ snd x = St false pl L O (E' ++ X) /\ flip L E E' fl /\ (fl = true -> lo = true) /\ (pl = true -> fl = true)
    /\ map den X = blk_bevs b false.

Lemma last_opt_some {A} (l : list A) : l <> [] -> exists x, last_opt l = Some x.
Proof. intros H. destruct (rev_case l) as [-> |(l' & y & ->)]; [congruence|]. rewrite last_opt_app. eauto. Qed.

Lemma V_firstn k sps a b : V k sps (a ++ b) -> V k (firstn (length a) sps) a.
Proof. intros H. apply V_app in H as (s1 & s2 & -> & H1 & H2). rewrite <- (V_len _ _ _ _ H1), firstn_app, firstn_all, Nat.sub_diag, app_nil_r. exact H1. Qed.

Section Step.
Variables (QE : list bev -> Prop) (pb pl : bool) (L : list open_list) (O : list nat) (lo : bool) (s : tstate) (k : nat) (top : bool).
Hypothesis HU : forall kd st, is_item_kind kd = false -> pc (fun s1 => exists E, QE E /\ lv L O E /\ s1 = St pb pl L O E) (update_lists s kd st).
Hypothesis Hpb : pb = true -> lo = true.

Lemma updates {A} kd st (P : A -> Prop) f : is_item_kind kd = false -> is_blank_kind kd = false ->
  (forall E E' fl, QE E -> lv L O E -> flip L E E' fl -> (fl = true -> lo = true) -> pc P (f (St false fl L O E'))) ->
  pc P (let! s1 := update_lists s kd st in let! s2 := update_loose s1 kd in f s2).
Proof.
  intros H1 H2 H. eapply pc_bind; [apply HU, H1|]. intros s1 (E & HQ & Hlv & ->). eapply pc_bind; [apply update_loose_plain; auto|].
  intros s2 (fl & E' & -> & Hf & Hfl). eapply H; eauto.
Qed.

Lemma step_rule line0 rest R : V k (line0 :: rest) (blk_lines DRule ++ R) -> pc (StepPost QE L O lo DRule) (parse_block rec src s line0 rest top).
Proof.
  intros HV. unfold parse_block. eapply pc_bind; [eapply metered_rule, HV|]. intros x <-. cbn [table_trailing bind firstn length].
  change (last_opt [line0]) with (Some line0). cbn [unwrap bind]. apply pc_bind_eq. intros ol Hol.
  apply (updates (KAtom BThematicBreak)); [reflexivity|reflexivity|]. intros E E' fl HQ Hlv Hf Hfl. cbn [bind].
  apply pc_ok. unfold t_push, St, t_set_events, t_set_attr. cbn [t_pblank t_ploose t_attr t_lists t_secs t_open t_events].
  exists E, E', [BE (BAtom BThematicBreak) (Sp (k + ss line0) (k + 3 + ss line0))], fl, fl. cbn [fst snd]. repeat split; auto.
Qed.

Lemma step_para l line0 rest R : blk_ok (DPara l) = true -> V k (line0 :: rest) (blk_lines (DPara l) ++ R) -> stop R ->
  pc (StepPost QE L O lo (DPara l)) (parse_block rec src s line0 rest top).
Proof.
  intros Hok HV HR. cbn [blk_ok] in Hok. apply andb_prop in Hok as [_ Hok]. unfold StepPost. cbn [blk_lines blk_bevs] in *. pose proof (split_lines_ne (inls_src l)) as Hne.
  destruct (split_lines (inls_src l)) as [|x xs]; [congruence|]. clear Hne.
  unfold parse_block. eapply pc_bind; [eapply metered_para; eassumption|]. intros y <-. cbn [table_trailing bind].
  assert (HV1 : V k (firstn (length (x :: xs)) (line0 :: rest)) (x :: xs)) by (eapply V_firstn, HV).
  cbn [length firstn] in HV1 |- *. apply V_cons in HV1 as [H0 HV1].
  destruct (last_opt_some (line0 :: firstn (length xs) rest)) as (el & Eel); [discriminate|]. rewrite Eel. cbn [unwrap bind ss se].
  unfold usub. assert (Nat.leb (ss line0) (k + ss line0) = true) as -> by (apply Nat.leb_le; lia). cbn [bind tl].
  replace (k + ss line0 - ss line0) with k by lia.
  apply (updates KParagraph); [reflexivity|reflexivity|]. intros E E' fl HQ Hlv Hf Hfl.
  eapply pc_bind; [eapply parse_leaf_is; [exact I|eapply para_lines; [exact I|reflexivity|exact Hok| |exact HV1]]|].
  { destruct (line_ok_cons x) as (c & r & -> & Hc); [cbn [forallb] in Hok; apply andb_prop in Hok as [Hok _]; exact Hok|].
    pose proof (at_skip src line0 (repeat SP k) ((c :: r) ++ [NL]) H0) as K. rewrite repeat_length in K. exact K. }
  intros s' (r & Hr & ->). apply pc_ok. destruct (view_inlines src r _ Hr) as [F1 F2]. rewrite F1.
  unfold St, t_set_attr. cbn [t_pblank t_ploose t_attr t_lists t_secs t_open t_events].
  eexists E, E', _, fl, fl. split; [exact HQ|]. split; [cbn [fst length]; rewrite (V_len _ _ _ _ HV1); reflexivity|].
  split; [reflexivity|]. split; [exact Hf|]. split; [exact Hfl|]. split; [auto|]. cbn [map]. rewrite map_app, F2. reflexivity.
Qed.

Lemma step_code lang ls line0 rest R : blk_ok (DCode lang ls) = true -> V k (line0 :: rest) (blk_lines (DCode lang ls) ++ R) ->
  pc (StepPost QE L O lo (DCode lang ls)) (parse_block rec src s line0 rest top).
Proof.
  intros Hok HV. cbn [blk_ok] in Hok. apply andb_prop in Hok as [Hlang Hls]. apply andb_prop in Hls as [Hls Hrw]. unfold StepPost. cbn [blk_lines blk_bevs] in *.
  assert (HV0 : V k (line0 :: rest) ((B "```" ++ lang) :: ls ++ B "```" :: R)) by (cbn [app] in HV; rewrite <- app_assoc in HV; exact HV).
  unfold parse_block. eapply pc_bind; [eapply metered_code; eassumption|]. intros y <-. cbn [table_trailing bind].
  apply V_cons in HV0 as [H0 HV1]. apply V_app in HV1 as (s1 & s2 & -> & V1 & V2). destruct s2 as [|spc s3]; [inversion V2|]. apply V_cons in V2 as [H2 V2].
  assert (Efn : firstn (2 + length ls) (line0 :: s1 ++ spc :: s3) = line0 :: s1 ++ [spc]).
  { change (line0 :: firstn (1 + length ls) (s1 ++ spc :: s3) = line0 :: s1 ++ [spc]). f_equal. rewrite <- (V_len _ _ _ _ V1), Nat.add_comm, firstn_app_2. reflexivity. }
  rewrite Efn. change (line0 :: s1 ++ [spc]) with ((line0 :: s1) ++ [spc]). rewrite last_opt_app. cbn [unwrap bind app ss se tl].
  unfold usub at 1. assert (Nat.leb (ss line0) (k + (4 + length lang) + ss line0) = true) as -> by (apply Nat.leb_le; lia). cbn [bind].
  unfold usub. cbn [length]. rewrite (app_length s1 [spc]). cbn [length]. assert (Nat.leb 1 (S (length s1 + 1)) = true) as -> by reflexivity. cbn [bind].
  assert (Nat.leb 1 (S (length s1 + 1) - 1) = true) as -> by (apply Nat.leb_le; lia). cbn [bind].
  replace (S (length s1 + 1) - 1) with (S (length s1)) by lia. cbn [firstn skipn]. rewrite firstn_app, firstn_all, Nat.sub_diag. cbn [firstn]. rewrite app_nil_r.
  apply (updates (KFenced k 3 (FenceCode "`") lang true None)); [reflexivity|reflexivity|]. intros E E' fl HQ Hlv Hf Hfl.
  eapply pc_bind; [eapply parse_leaf_is; [exact I|eapply code_lines; [exact Hrw|exact V1]]|].
  intros s' (r & Hr & ->). apply pc_ok. destruct (view_inlines src r _ Hr) as [F1 F2]. rewrite F1.
  unfold St, t_set_attr. cbn [t_pblank t_ploose t_attr t_lists t_secs t_open t_events].
  eexists E, E', _, fl, fl. split; [exact HQ|]. split; [cbn [fst length]; rewrite !app_length, (V_len _ _ _ _ V1); reflexivity|].
  split; [reflexivity|]. split; [exact Hf|]. split; [exact Hfl|]. split; [auto|]. cbn [map]. rewrite map_app, F2. reflexivity.
Qed.

Lemma quote_first line0 l : at_ line0 (full k (quote_line l)) ->
  pc (fun sp => at_ sp (full 0 l))
   (if Nat.ltb (ss line0 + (k + 1)) (se line0) then
      let! c := get_at src (ss line0 + (k + 1)) "block.rs:338" in
      Ok (if beq c TAB || beq c SP then Sp (ss line0 + (k + 1) + 1) (se line0) else Sp (ss line0 + (k + 1)) (se line0))
    else Ok (Sp (ss line0 + (k + 1)) (se line0))).
Proof.
  intros H. rewrite quote_line_full in H.
  set (u := match l with [] => [NL] | _ => SP :: l ++ [NL] end) in *.
  assert (H' : at_ (Sp (ss line0 + (k + 1)) (se line0)) u).
  { pose proof (at_skip src line0 (repeat SP k ++ [">"%char]) u) as K. rewrite <- app_assoc in K. specialize (K H). rewrite app_length, repeat_length in K. exact K. }
  assert (Hu : exists c u', u = c :: u' /\ (if beq c TAB || beq c SP then u' else u) = full 0 l).
  { destruct l as [|c l]; [exists NL, []; split; reflexivity|]. exists SP, ((c :: l) ++ [NL]). split; reflexivity. }
  destruct Hu as (c & u' & Eu & Ef).
  assert (Nat.ltb (ss line0 + (k + 1)) (se line0) = true) as ->. { apply Nat.ltb_lt. destruct H' as [_ H']. cbn in H'. rewrite Eu in H'. cbn in H'. lia. }
  assert (En : nth_error src (ss line0 + (k + 1)) = Some c).
  { destruct H' as [H1 H2]. cbn [ss se] in H2. pose proof (slice_nth src (Sp (ss line0 + (k + 1)) (se line0)) 0) as K. cbn [ss se] in K. rewrite Nat.add_0_r in K.
    rewrite <- K by (rewrite Eu in H2; cbn in H2; lia). rewrite H1, Eu. reflexivity. }
  unfold get_at. rewrite En. cbn [unwrap bind]. apply pc_ok. rewrite <- Ef.
  destruct (beq c TAB || beq c SP).
  - pose proof (at_skip src (Sp (ss line0 + (k + 1)) (se line0)) [c] u') as K. rewrite Eu in H'. exact (K H').
  - exact H'.
Qed.
Lemma step_quote bs line0 rest R : Good rec -> blk_ok (DQuote bs) = true -> (lo = true \/ tight_blk (DQuote bs) = true) ->
  V k (line0 :: rest) (blk_lines (DQuote bs) ++ R) -> stop R -> pc (StepPost QE L O lo (DQuote bs)) (parse_block rec src s line0 rest top).
Proof.
  intros Hrec Hok Ht HV HR. cbn [blk_ok] in Hok. apply andb_prop in Hok as [Hok1 Hok]. apply andb_prop in Hok1 as [Hne Hadj].
  assert (Hbs : bs <> []) by (destruct bs; discriminate).
  unfold StepPost. cbn [blk_lines] in *. fold (blks_lines bs) in *. rewrite quote_bevs. rewrite map_length.
  destruct (blks_head bs Hbs Hok) as (l & ls & Els & _). pose proof (blks_good bs Hok) as Hg. rewrite Els in HV, Hg |- *.
  unfold parse_block. eapply pc_bind; [eapply (metered_quote src k line0 rest (l :: ls)); [discriminate|exact HV|exact HR]|]. intros y <-. cbn [table_trailing bind].
  assert (HV1 : V k (firstn (length (l :: ls)) (line0 :: rest)) (map quote_line (l :: ls))) by (rewrite <- (map_length quote_line); eapply V_firstn, HV).
  cbn [length firstn map] in HV1 |- *. apply V_cons in HV1 as [H0 HV1].
  destruct (last_opt_some (line0 :: firstn (length ls) rest)) as (el & Eel); [discriminate|]. rewrite Eel. cbn [unwrap bind ss se].
  unfold usub. assert (Nat.leb (ss line0) (k + 1 + ss line0) = true) as -> by (apply Nat.leb_le; lia). cbn [bind tl].
  replace (k + 1 + ss line0 - ss line0) with (k + 1) by lia.
  eapply pc_bind with (P := fun z => exists sp0, z = sp0 :: firstn (length ls) rest /\ at_ sp0 (full 0 l)).
  { pose proof (quote_first line0 l H0) as K. destruct (Nat.ltb _ _); [|apply pc_ok; eexists; split; [reflexivity|]; exact (K _ eq_refl)].
    intros z Hz. apply bind_ok in Hz as (c & Hc & Hz). injection Hz as <-. eexists. split; [reflexivity|]. apply (K _). rewrite Hc. reflexivity. }
  intros z (sp0 & -> & Hsp0). cbn [bind].
  apply (updates KBlockquote); [reflexivity|reflexivity|]. intros E E' fl HQ Hlv Hf Hfl.
  eapply pc_bind.
  { unfold parse_container. eapply pc_bind with (P := fun ls' => V 0 ls' (l :: ls)).
    - eapply pc_bind; [eapply (mapr_F2 (cont_line src KBlockquote (k + 1)) (fun sp l => at_ sp (full k (quote_line l))) (fun sp l => at_ sp (full 0 l)) _ ls)|].
      + intros a d Hd Ha. apply (cont_quote src k (k + 1) a d); [|exact Ha]. inversion Hg as [|? ? _ Hg']; subst. rewrite Forall_forall in Hg'. auto.
      + clear - HV1. revert HV1. generalize (firstn (length ls) rest). clear. intros sps H. unfold PCan15.V in H. remember (map quote_line ls) as M eqn:EM. revert ls EM.
        induction H as [|sp x sps M H1 H2 IH]; intros [|y ls] EM; try discriminate EM; constructor; injection EM as -> ->; auto.
      + intros ls' Hls'. apply pc_ok. constructor; assumption.
    - intros ls' Hls'. cbn [maybe_open_list bind]. eapply container_body.
      + apply (lv_app L O E E' []) in Hlv; [|eapply flip_len, Hf]. rewrite app_nil_r in Hlv. exact Hlv.
      + apply (Hrec bs 0) with (lo := lo) (tail := false); auto.
        * cbn [tlb]. rewrite app_nil_r, Els. exact Hls'.
        * apply (lv_more L O E); [exact Hlv|eapply flip_len, Hf].
        * destruct Ht as [Ht|Ht]; [left; exact Ht|]. right. left. split; [reflexivity|]. clear - Ht. destruct bs as [|b [|b2 [|b3 bs]]]; cbn in Ht; try discriminate Ht; try exact Ht; destruct b2; try discriminate Ht; exact Ht.
  }
  cbv beta. intros s' (E2 & X & fl2 & pb2 & pl2 & G1 & G2 & G3 & G4 & _ & -> & HX). apply pc_ok. rewrite (G4 eq_refl) in *.
  unfold St, t_set_attr. cbn [t_pblank t_ploose t_attr t_lists t_secs t_open t_events].
  exists E, E2, X, (fl || fl2), pl2. split; [exact HQ|]. split; [cbn [fst length]; rewrite (V_len _ _ _ _ HV1), map_length; reflexivity|].
  split; [reflexivity|]. split; [eapply flip_trans; eassumption|]. split; [destruct fl; auto|]. split; [intros K; rewrite (G3 K); apply orb_true_r|].
  rewrite HX. reflexivity.
Qed.

Lemma step_block b line0 rest R : Good rec -> is_list b = false -> blk_ok b = true -> (lo = true \/ tight_blk b = true) ->
  V k (line0 :: rest) (blk_lines b ++ R) -> stop R -> pc (StepPost QE L O lo b) (parse_block rec src s line0 rest top).
Proof.
  intros Hrec Hl Hok Ht HV HR. destruct b as [l| |lang ls|bs|m loose items]; [| | | |discriminate Hl].
  - eapply step_para; eassumption.
  - eapply step_rule; eassumption.
  - eapply step_code; eassumption.
  - eapply step_quote; eassumption.
Qed.
End Step.
End Canon.
