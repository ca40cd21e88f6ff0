(** * PTree4: description list items *)
From Verif Require Import Base Lex Attr Block Lib PSafe SpecAttr PAttr SpecBlock PBlock1 PBlock2 PBlock3 PBlock4 PGram SpecView PView PTree1 PTree2 PTree3.
Local Open Scope nat_scope.

Lemma position_app_no {A} (f : A -> bool) a b : Forall (fun x => f x = false) a -> position f (a ++ b) = option_map (fun i => length a + i) (position f b).
Proof.
  induction 1 as [|x a Hx Ha IH]; cbn [app position length].
  - destruct (position f b); reflexivity.
  - rewrite Hx, IH. destruct (position f b); reflexivity.
Qed.
Lemma nth_at {A} (P : list A) x r n : n = length P -> nth_error (P ++ x :: r) n = Some x.
Proof. intros ->. rewrite nth_error_app2, Nat.sub_diag by lia. reflexivity. Qed.
Lemma upd_at {A} (P : list A) x r y n : n = length P -> upd (P ++ x :: r) n y = P ++ y :: r.
Proof. intros ->. rewrite <- (Nat.add_0_r (length P)) at 1. rewrite upd_app_r. reflexivity. Qed.
Lemma skipn_at {A} (P r : list A) n : n = length P -> skipn n (P ++ r) = r.
Proof. intros ->. rewrite skipn_app, skipn_all, Nat.sub_diag. reflexivity. Qed.
Lemma firstn_at {A} (P r : list A) n : n = length P -> firstn n (P ++ r) = P.
Proof. intros ->. rewrite firstn_app, firstn_all, Nat.sub_diag. cbn. apply app_nil_r. Qed.
Lemma inl_len l : length (inl_evs l) = length l.
Proof. apply map_length. Qed.
Lemma blank_len l : length (blank_evs l) = length l.
Proof. apply map_length. Qed.
Definition last_se (sp : span) (bl : list span) : nat := se (last bl sp).
Lemma last_opt_cons {A} (a : A) l : last_opt (a :: l) = Some (last l a).
Proof.
  destruct (last_opt (a :: l)) as [x|] eqn:E; [|apply last_opt_none in E; discriminate].
  apply last_opt_some in E. destruct E as [l' E]. f_equal. assert (H : last (a :: l) a = x) by (rewrite E; apply last_last).
  rewrite <- H. destruct l; reflexivity.
Qed.
Lemma last_opt_app_cons {A} (P : list A) a l : last_opt (P ++ a :: l) = Some (last l a).
Proof.
  destruct (last_opt (a :: l)) as [x|] eqn:E; [|apply last_opt_none in E; discriminate].
  rewrite last_opt_cons in E. injection E as E.
  destruct (exists_last (l := a :: l)) as (l' & y & E'); [discriminate|]. rewrite E', app_assoc, last_opt_app.
  pose proof (last_opt_cons a l) as E2. rewrite E', last_opt_app in E2. exact E2.
Qed.

Lemma last_blank bl d : bsp (last (blank_evs bl) d) = last bl (bsp d).
Proof. induction bl as [|b bl IH]; [reflexivity|]. destruct bl as [|b' bl]; [reflexivity|]. exact IH. Qed.

Lemma move_term_run s c P e0 e1 ed sp1 inl sp2 bl R od :
  t_events s = P ++ e0 :: e1 :: ed :: BE (BEnter (NLeaf FParagraph)) sp1 :: inl_evs inl ++ BE (BExit (NLeaf FParagraph)) sp2 :: blank_evs bl ++ R ->
  match R with e :: _ => is_bblank e = false | [] => True end ->
  move_term s c (length P) (length P + 2) od =
   (let! o := set_bottom (t_open s) od (length P + 4 + length inl + length bl) "block.rs:692" in
    let dp := match R with e :: _ => ss (bsp e) | [] => last_se sp2 bl end in
    Ok (t_set_open (t_set_events s (P ++ BE BStale (bsp e0) :: BE BStale (bsp e1) :: BE (BEnter (NLeaf FDescriptionTerm)) (bsp e0) :: inl_evs inl
         ++ BE (BExit (NLeaf FDescriptionTerm)) sp2 :: blank_evs bl ++ BE (BEnter (NCont c)) (Sp dp dp) :: R)) o)).
Proof.
  intros He HR. unfold move_term. rewrite He.
  set (E := P ++ _).
  assert (L3 : E = (P ++ [e0; e1; ed]) ++ BE (BEnter (NLeaf FParagraph)) sp1 :: inl_evs inl ++ BE (BExit (NLeaf FParagraph)) sp2 :: blank_evs bl ++ R) by (unfold E; rewrite <- app_assoc; reflexivity).
  rewrite L3 at 1. rewrite nth_at by (rewrite app_length; cbn; lia).
  assert (L4 : E = ((P ++ [e0; e1; ed]) ++ [BE (BEnter (NLeaf FParagraph)) sp1]) ++ inl_evs inl ++ BE (BExit (NLeaf FParagraph)) sp2 :: blank_evs bl ++ R) by (rewrite L3, <- !app_assoc; reflexivity).
  replace (skipn (length P + 2 + 1 + 1) E) with (inl_evs inl ++ BE (BExit (NLeaf FParagraph)) sp2 :: blank_evs bl ++ R).
  2:{ rewrite L4. rewrite skipn_at by (rewrite !app_length; cbn; lia). reflexivity. }
  rewrite position_app_no by (unfold inl_evs; apply Forall_map, Forall_forall; reflexivity).
  cbn [position is_exit_para bk option_map unwrap bind]. rewrite inl_len, Nat.add_0_r.
  assert (L5 : E = ((P ++ [e0; e1; ed]) ++ [BE (BEnter (NLeaf FParagraph)) sp1] ++ inl_evs inl) ++ BE (BExit (NLeaf FParagraph)) sp2 :: blank_evs bl ++ R) by (rewrite L4; rewrite <- !app_assoc; reflexivity).
  rewrite (get_at_yes E (length P + 2 + 1 + 1 + length inl) _ (BE (BExit (NLeaf FParagraph)) sp2)).
  2:{ rewrite L5. apply nth_at. rewrite !app_length, inl_len. cbn. lia. }
  cbn [bind]. rewrite (get_at_yes E (length P) _ e0) by (apply nth_at; auto). cbn [bind].
  assert (L1 : E = (P ++ [e0]) ++ e1 :: ed :: BE (BEnter (NLeaf FParagraph)) sp1 :: inl_evs inl ++ BE (BExit (NLeaf FParagraph)) sp2 :: blank_evs bl ++ R) by (unfold E; rewrite <- app_assoc; reflexivity).
  rewrite (get_at_yes E (length P + 1) _ e1) by (rewrite L1; apply nth_at; rewrite app_length; cbn; lia). cbn [bind bsp].
  (* the four updates *)
  set (E4 := upd (upd (upd (upd E _ _) _ _) _ _) _ _).
  assert (H4 : E4 = P ++ BE BStale (bsp e0) :: BE BStale (bsp e1) :: ed :: BE (BEnter (NLeaf FDescriptionTerm)) (bsp e0) :: inl_evs inl ++ BE (BExit (NLeaf FDescriptionTerm)) sp2 :: blank_evs bl ++ R).
  { unfold E4. rewrite L5. rewrite upd_at by (rewrite !app_length, inl_len; cbn; lia).
    replace (((P ++ [e0; e1; ed]) ++ [BE (BEnter (NLeaf FParagraph)) sp1] ++ inl_evs inl) ++ BE (BExit (NLeaf FDescriptionTerm)) sp2 :: blank_evs bl ++ R)
      with (P ++ e0 :: e1 :: ed :: BE (BEnter (NLeaf FParagraph)) sp1 :: inl_evs inl ++ BE (BExit (NLeaf FDescriptionTerm)) sp2 :: blank_evs bl ++ R) by (rewrite <- !app_assoc; reflexivity).
    rewrite upd_at by auto.
    change (P ++ ?a :: ?r) with (P ++ [a] ++ r). rewrite app_assoc. rewrite upd_at by (rewrite app_length; cbn; lia).
    replace ((P ++ [BE BStale (bsp e0)]) ++ BE BStale (bsp e1) :: ed :: BE (BEnter (NLeaf FParagraph)) sp1 :: inl_evs inl ++ BE (BExit (NLeaf FDescriptionTerm)) sp2 :: blank_evs bl ++ R)
      with ((P ++ [BE BStale (bsp e0); BE BStale (bsp e1); ed]) ++ BE (BEnter (NLeaf FParagraph)) sp1 :: inl_evs inl ++ BE (BExit (NLeaf FDescriptionTerm)) sp2 :: blank_evs bl ++ R) by (rewrite <- !app_assoc; reflexivity).
    rewrite upd_at by (rewrite app_length; cbn; lia). rewrite <- app_assoc. reflexivity. }
  clearbody E4. clear L3 L4 L5 L1.
  set (Q := P ++ [BE BStale (bsp e0); BE BStale (bsp e1)]).
  set (M := BE (BEnter (NLeaf FDescriptionTerm)) (bsp e0) :: inl_evs inl ++ [BE (BExit (NLeaf FDescriptionTerm)) sp2]).
  assert (K1 : E4 = (Q ++ [ed] ++ M) ++ blank_evs bl ++ R).
  { rewrite H4. unfold Q, M. rewrite <- !app_assoc. cbn [app]. rewrite <- !app_assoc. reflexivity. }
  assert (LQ : length Q = length P + 2) by (unfold Q; rewrite app_length; reflexivity).
  assert (LM : length M = length inl + 2) by (unfold M; cbn; rewrite app_length, inl_len; cbn; lia).
  replace (skipn (length P + 2 + 1 + 1 + length inl + 1) E4) with (blank_evs bl ++ R).
  2:{ rewrite K1, skipn_at; [reflexivity|]. rewrite !app_length, LM, LQ. cbn. lia. }
  rewrite position_app_no by (unfold blank_evs; apply Forall_map, Forall_forall; reflexivity). rewrite blank_len.
  set (fd := match option_map _ _ with None => length E4 | Some i => _ end).
  assert (Hfd : fd = length (Q ++ [ed] ++ M ++ blank_evs bl)).
  { unfold fd. destruct R as [|e R]; cbn [position option_map].
    - rewrite K1, app_nil_r. rewrite <- !app_assoc. reflexivity.
    - rewrite HR. cbn [negb option_map]. rewrite !app_length, LQ, LM, blank_len. cbn. lia. }
  clearbody fd.
  assert (K2 : E4 = (Q ++ [ed] ++ M ++ blank_evs bl) ++ R) by (rewrite K1, <- !app_assoc; reflexivity).
  replace (match nth_error E4 fd with Some e => Ok (ss (bsp e)) | None => let! l := unwrap (last_opt E4) "block.rs:684" in Ok (se (bsp l)) end)
    with (Ok (match R with e :: _ => ss (bsp e) | [] => last_se sp2 bl end)).
  2:{ rewrite Hfd, K2. destruct R as [|e R].
      - rewrite app_nil_r. rewrite (proj2 (nth_error_None _ _)) by apply le_n.
        unfold M. rewrite app_comm_cons, !app_assoc. rewrite <- app_assoc. cbn [app]. rewrite last_opt_app_cons. cbn [unwrap bind]. f_equal.
        unfold last_se. rewrite last_blank. reflexivity.
      - rewrite nth_at; auto. }
  cbn [bind]. replace (fd - 1) with (length P + 4 + length inl + length bl) by (rewrite Hfd, !app_length, LQ, LM, blank_len; cbn; lia).
  destruct (set_bottom _ _ _ _) as [o| |]; cbn [bind]; [|reflexivity|reflexivity]. do 3 f_equal.
  replace (firstn (length P + 2) E4) with Q by (rewrite K1, <- !app_assoc; symmetry; apply firstn_at; lia).
  replace (skipn (length P + 2 + 1) E4) with ((M ++ blank_evs bl) ++ R).
  2:{ replace E4 with ((Q ++ [ed]) ++ (M ++ blank_evs bl) ++ R) by (rewrite K2, <- !app_assoc; reflexivity). symmetry. apply skipn_at. rewrite app_length. cbn. lia. }
  rewrite firstn_at by (rewrite Hfd, !app_length, LQ; cbn; lia).
  rewrite K2, skipn_at by auto. unfold Q, M. repeat (rewrite <- app_assoc; cbn [app]). reflexivity.
Qed.

Lemma sq_first src v x lo e es y hi : sq src v x lo (e :: es) y hi -> no_table x -> span_ok src (bsp e) /\ lo <= ss (bsp e).
Proof.
  intros H Hx. split; [|eapply sq_lift; eauto]. remember (e :: es) as l eqn:El. destruct H; try discriminate El; try contradiction.
  - injection El as <- <-. apply H1.
  - injection El as <- <-. auto.
  - injection El as <- <-. auto.
  - destruct st as [[a b]|]; cbn in El; injection El as <- _; cbn; [|auto]. rewrite (H a b); auto.
Qed.
Lemma blank_split src v r : forall lo hi, sq src v XFlow lo r XFlow hi ->
  exists bl r' m, r = blank_evs bl ++ r' /\ Forall (span_ok src) bl /\ chain lo bl m /\ sq src v XFlow m r' XFlow hi /\
    match r' with e :: _ => is_bblank e = false | [] => True end /\ Forall (fun s => blanks_only (slice src s) /\ eol src (se s)) bl.
Proof.
  induction r as [|e r IH]; intros lo hi H.
  - exists [], [], lo. repeat split; auto. cbn. lia.
  - destruct (is_bblank e) eqn:Eb.
    2:{ exists [], (e :: r), lo. repeat split; auto. cbn. lia. }
    destruct e as [k sp]. destruct k as [| | |[]|]; try discriminate Eb.
    inversion H; subst; try discriminate.
    match goal with HS : sq src v XFlow (se sp) r XFlow hi |- _ => destruct (IH _ _ HS) as (bl & r' & m & -> & A1 & A2 & A3 & A4 & A5) end.
    match goal with HA : atom_ok _ _ _ |- _ => destruct HA as (HA & _ & HB & _ & (e0 & (_ & He0 & _) & _ & Ee0)) end. specialize (Ee0 ltac:(discriminate)). subst e0. cbn [se] in He0.
    exists (sp :: bl), r', m. split; [reflexivity|].
    split; [constructor; auto|]. split; [|split; [auto|split; [auto|constructor; auto]]]. cbn [chain]. split; [auto|]. split; [|auto]. match goal with HA : span_ok _ _ |- _ => apply HA end.
Qed.
Lemma chain_last sp bl : forall m, chain (se sp) bl m -> chain (se sp) bl (last_se sp bl) /\ last_se sp bl <= m /\ se sp <= last_se sp bl.
Proof.
  revert sp; induction bl as [|b bl IH]; intros sp m H; [cbn in *; unfold last_se; cbn; lia|]. cbn [chain] in *. destruct H as (H1 & H2 & H3).
  replace (last_se sp (b :: bl)) with (last_se b bl); [destruct (IH _ _ H3) as (I1 & I2 & I3); repeat split; auto; lia|].
  unfold last_se. f_equal. clear. revert b sp. induction bl as [|c bl IH]; intros b sp; [reflexivity|]. change (last (b :: c :: bl) sp) with (last (c :: bl) sp). rewrite <- (IH c sp).
  change (last (c :: bl) b = last bl c). clear. revert c b. induction bl as [|d bl IH]; intros c b; [reflexivity|]. change (last (c :: d :: bl) b) with (last (d :: bl) b). rewrite IH. symmetry. apply IH.
Qed.
Lemma chain_last_span src sp bl m : chain (se sp) bl m -> span_ok src sp -> Forall (span_ok src) bl -> span_ok src (Sp (last_se sp bl) (last_se sp bl)).
Proof.
  intros _ Hs Hb. unfold last_se. assert (H : span_ok src (last bl sp)).
  { clear -Hs Hb. induction Hb as [|b bl H1 H2 IH]; [auto|]. destruct bl; [auto|]. exact IH. }
  destruct H as (A & C & D & E). repeat split; cbn [ss se]; auto; lia.
Qed.
Lemma point_ok src a : span_ok src a -> span_ok src (Sp (ss a) (ss a)).
Proof. intros (A & C & D & E). repeat split; cbn [ss se]; auto; lia. Qed.

(** The first paragraph of a description list item becomes its term. *)
Lemma walk_mono p p' l : quiet p' -> walk p l -> walk p' l.
Proof. destruct l as [|k l]; cbn [walk]; [auto|]. intros H [_ H2]. split; [apply H|exact H2]. Qed.
Lemma vis_blank l : vis (blank_evs l) = map (fun _ => BAtom BBlankline) l.
Proof. unfold vis, blank_evs. induction l as [|s l IH]; [reflexivity|]. cbn. f_equal. exact IH. Qed.
Lemma vis_cons k sp l : vis (BE k sp :: l) = (if seen k then [k] else []) ++ vis l.
Proof. unfold vis. cbn [map bk filter]. destruct (seen k); reflexivity. Qed.
Lemma walk_term P a b l0 sp1 inl sp' bl R dp : let c := NCont (BListItem IDescription) in
  walk None (vis (P ++ BE (BEnter (NLeaf FDescriptionTerm)) a :: BE (BExit (NLeaf FDescriptionTerm)) b :: BE (BEnter c) l0 :: BE (BEnter (NLeaf FParagraph)) sp1 :: inl_evs inl ++ BE (BExit (NLeaf FParagraph)) sp' :: blank_evs bl ++ R)) ->
  walk None (vis (P ++ BE BStale a :: BE BStale b :: BE (BEnter (NLeaf FDescriptionTerm)) a :: inl_evs inl ++ BE (BExit (NLeaf FDescriptionTerm)) sp' :: blank_evs bl ++ BE (BEnter c) dp :: R)).
Proof.
  cbv zeta. repeat (rewrite vis_app || rewrite vis_cons). rewrite vis_inl, vis_blank. cbn [seen]. cbn [app]. intros H.
  apply walk_app in H. destruct H as [H1 H2]. apply walk_app. split; [exact H1|]. cbn [walk] in H2. destruct H2 as (H2 & _ & _ & _ & H3). cbn [walk]. split; [exact H2|].
  apply walk_app in H3. destruct H3 as [_ H3]. cbn [walk] in H3. destruct H3 as [_ H3]. apply walk_app in H3. destruct H3 as [_ H3].
  assert (Hq : forall p, quiet p -> walk p (map (fun _ => BInline) inl) /\ quiet (lastk p (map (fun _ => BInline) inl))).
  { intros p Hp. apply walk_quiet; [exact Hp|]. apply Forall_map, Forall_forall. intros; apply quiet_inline. }
  destruct (Hq _ (quiet_enter (NLeaf FDescriptionTerm))) as [H4 _]. apply walk_app. split; [exact H4|]. cbn [walk]. split; [apply opart_exit|].
  assert (Hx : quiet (Some (BExit (NLeaf FDescriptionTerm)))) by (intros k; destruct k; cbn; auto).
  destruct (walk_quiet (map (fun _ : span => BAtom BBlankline) bl) _ Hx) as [H5 H6].
  { apply Forall_map, Forall_forall. intros; apply quiet_atom. }
  apply walk_app. split; [exact H5|]. cbn [walk]. split; [apply H6|]. eapply walk_mono; [apply quiet_enter|exact H3].
Qed.
Lemma move_term_ok src s pl df gs hi a b l0 p : let c := BListItem IDescription in
  BD src s pl df gs XFlow hi -> hi <= p -> span_ok src (Sp p p) ->
  f_pre df = [BE (BEnter (NLeaf FDescriptionTerm)) a; BE (BExit (NLeaf FDescriptionTerm)) b] -> f_nd df = NCont c -> f_sp df = Sp l0 l0 ->
  f_x df = XList LcDescription -> f_ic df = XFlow -> f_lo df <= ss a -> ss a < se a -> span_ok src a -> se a <= l0 -> colon src a ->
  exists s' pl' df', move_term s c (length (flatten gs)) (length (flatten gs) + 2) (length gs) = Ok s' /\ BD src s' pl' df' gs XFlow hi /\
    f_x df' = XList LcDescription /\ f_ic df' = XFlow /\ f_nd df' = NCont c.
Proof.
  intros c HB Hhi Hp Hpre Hnd Hsp Hx Hic Hlo Ha Hsa Hal Hcol. set (P := flatten gs).
  pose proof HB as (_ & Hn & H).
  set (tlv := match pl with [] => [] | lf :: _ => f_evs lf end).
  assert (He : t_events s = P ++ f_evs df ++ tlv).
  { destruct pl as [|lf [|]]; [| |contradiction].
    - destruct H as [_ [He _]]. rewrite He. unfold tlv; cbn [flatten]. rewrite app_nil_r. reflexivity.
    - destruct H as (ty & t & _ & _ & He & _). rewrite He. unfold tlv; cbn [flatten]. rewrite <- app_assoc. reflexivity. }
  assert (Hz : exists q, zip src (df :: gs) XFlow q /\ q <= hi /\ match pl with [] => True | lf :: _ => f_lo lf = q /\ span_ok src (Sp q q) end).
  { destruct pl as [|lf [|]]; [| |contradiction].
    - exists hi. split; [apply H|]. auto.
    - destruct H as (ty & t & (L1 & L2 & L3 & L4 & L5) & (Hz & _ & Hlc & _) & _). inversion Hz as [|? ? ? ? Z1 [_ Z2] Z3 Z4]; subst. exists (f_lo lf). rewrite L3 in Z1. split; [auto|].
      pose proof (sq_le _ _ _ _ _ _ _ Z4) as Hle. rewrite L5 in Hle. split; [exact Hle|]. split; [auto|].
      cbn [lcor] in Hlc. rewrite L1 in Hlc. destruct (t_lists s) as [|l1 ls1]; [contradiction|]. destruct Hlc as (_ & _ & Q3 & _ & Q5 & _ & _ & _ & Q9 & Q10).
      assert (Hsim : sim (f_nd lf) (NCont (BList (ol_start l1) true))) by (right; do 4 eexists; split; [exact L1|]; split; [reflexivity|]; auto).
      specialize (Z2 _ _ _ _ (Sp p p) Hsim Z4 I Hhi Hp). specialize (Z2 ltac:(split; [exact Q9|]; split; [exact Q10|reflexivity]) I). rewrite L4 in Z2. cbn [app] in Z2.
      apply sq_first in Z2; [|rewrite L3; exact I]. rewrite L5 in Z2. apply Z2. }
  destruct Hz as (q & Hz & Hq & Hlf). inversion Hz as [|? ? ? ? Z1 Z2 Z3 Z4]; subst. rewrite Hic, Hsp in Z4. cbn [se] in Z4.
  unfold f_evs in He. rewrite Hpre, Hnd, Hsp in He. cbn [app] in He.
  assert (Hwk0 : walk None (vis (t_events s))).
  { destruct pl as [|lf [|]]; [apply H| |contradiction]. destruct H as (ty & t & _ & H). apply H. }
  assert (Hsame : exists s' pl' df', Ok s = Ok s' /\ BD src s' pl' df' gs XFlow hi /\ f_x df' = XList LcDescription /\ f_ic df' = XFlow /\ f_nd df' = NCont c) by (exists s, pl, df; auto).
  destruct (f_body df) as [|e body] eqn:Eb.
  { unfold move_term. rewrite He. cbn [app].
    replace (P ++ _ :: _ :: _ :: tlv) with ((P ++ [BE (BEnter (NLeaf FDescriptionTerm)) a; BE (BExit (NLeaf FDescriptionTerm)) b; BE (BEnter (NCont c)) (Sp l0 l0)]) ++ tlv) by (rewrite <- app_assoc; reflexivity).
    rewrite nth_error_app2 by (rewrite app_length; cbn; lia). rewrite app_length. cbn [length]. replace (_ - _) with 0 by (subst P; lia).
    destruct pl as [|lf [|]]; [exact Hsame| |contradiction]. unfold tlv. destruct H as (ty & t & (L1 & L2 & L3 & L4 & L5) & _).
    unfold f_evs. rewrite L4, L1. cbn [app nth_error]. exact Hsame. }
  assert (Hpara : (exists sp1, e = BE (BEnter (NLeaf FParagraph)) sp1) \/ match e with BE (BEnter (NLeaf FParagraph)) _ => False | _ => True end).
  { destruct e as [[[cc|[]]| | | |] sp1]; eauto. }
  destruct Hpara as [[sp1 ->]|Hno].
  2:{ unfold move_term. rewrite He. cbn [app].
      replace (P ++ _ :: _ :: _ :: e :: body ++ tlv) with ((P ++ [BE (BEnter (NLeaf FDescriptionTerm)) a; BE (BExit (NLeaf FDescriptionTerm)) b; BE (BEnter (NCont c)) (Sp l0 l0)]) ++ e :: body ++ tlv) by (rewrite <- app_assoc; reflexivity).
      rewrite nth_at by (rewrite app_length; cbn; subst P; lia).
      destruct e as [[[cc|[]]| | | |] sp1]; try contradiction; exact Hsame. }
  inversion Z4; subst.
  match goal with HL : leaf_in _ _ _ _ x' |- _ => inversion HL; subst end.
  match goal with HS : sq src _ XFlow (se sp') r XFlow q |- _ => destruct (blank_split _ _ _ _ _ HS) as (bl & r' & m & -> & B1 & B2 & B3 & B4 & B5) end.
  set (R := r' ++ tlv).
  assert (HR : match R with e :: _ => is_bblank e = false | [] => True end).
  { unfold R. destruct r' as [|e' r']; [|exact B4]. cbn [app]. destruct pl as [|lf [|]]; [exact I| |contradiction]. unfold tlv.
    destruct H as (ty & t & (L1 & L2 & L3 & L4 & L5) & _). unfold f_evs. rewrite L4, L1. reflexivity. }
  rewrite (move_term_run s c P (BE (BEnter (NLeaf FDescriptionTerm)) a) (BE (BExit (NLeaf FDescriptionTerm)) b) (BE (BEnter (NCont c)) (Sp l0 l0)) sp1 inl sp' bl R (length gs)).
  2:{ rewrite He. unfold R. cbn [app]. repeat (rewrite <- app_assoc; cbn [app]). reflexivity. }
  2:{ exact HR. }
  set (dp := match R with e :: _ => ss (bsp e) | [] => last_se sp' bl end).
  set (df' := Fr ([BE BStale a; BE BStale b] ++ BE (BEnter (NLeaf FDescriptionTerm)) a :: inl_evs inl ++ BE (BExit (NLeaf FDescriptionTerm)) sp' :: blank_evs bl)
                 (NCont c) (Sp dp dp) XFlow (XList LcDescription) (f_lo df) r').
  assert (Hlpre : length (f_pre df') = 4 + length inl + length bl).
  { cbn [df' f_pre app length]. rewrite app_length, inl_len. cbn [length]. rewrite blank_len. lia. }
  (* where the details start *)
  destruct (chain_last sp' bl m B2) as (C1 & C2 & C3).
  assert (Hdp : chain (se sp') bl dp /\ span_ok src (Sp dp dp) /\ sq src (view_of src (df :: gs)) XFlow dp r' XFlow q).
  { unfold dp, R. destruct r' as [|e' r'].
    - cbn [app]. apply sq_le in B3. destruct pl as [|lf [|]]; [| |contradiction].
      + unfold tlv. split; [auto|]. split; [eapply chain_last_span; eauto|]. constructor. lia.
      + unfold tlv. destruct H as (ty & t & (L1 & L2 & L3 & L4 & L5) & _). destruct Hlf as [Hlf1 Hlf2]. unfold f_evs. rewrite L4, L5. cbn [app bsp ss].
        rewrite Hlf1. split; [eapply chain_weaken; [apply le_n|exact B3|exact B2]|]. split; [auto|]. constructor. lia.
    - cbn [app]. destruct (sq_first _ _ _ _ _ _ _ _ B3) as [S1 S2]; [exact I|]. split; [eapply chain_weaken; [apply le_n|exact S2|exact B2]|].
      split; [apply point_ok; auto|]. destruct (sq_lift _ _ _ _ _ _ _ _ B3) as [_ Hl]; [exact I|]. apply Hl. lia. }
  destruct Hdp as (D1 & D2 & D3).
  assert (Hll : l0 <= ss sp' /\ ss sp' <= se sp').
  { match goal with HI : inls _ _ _ _ |- _ => destruct HI as [_ HI]; apply chain_le in HI end.
    repeat match goal with HS : span_ok src _ |- _ => destruct HS as (HS & _) end. cbn in *. lia. }
  assert (Hview : view_of src (df' :: gs) = view_of src (df :: gs)).
  { cbn [view_of]. unfold f_view, f_q. rewrite Hpre, Hnd. reflexivity. }
  assert (Hfok : frame_ok src (view_of src gs) df').
  { split.
    - cbn [df' f_lo f_nd f_sp wt se c]. apply chain_le in D1. lia.
    - intros nd inner m' q' sp3 Hsim Hin Hm' Hq' Hsp3 Hnt _. cbn [df' f_pre f_nd f_sp f_ic f_x f_lo aft] in *.
      destruct Hsim as [<-|(? & ? & ? & ? & E & _)]; [|discriminate E].
      repeat (rewrite <- app_assoc; cbn [app]).
      apply (s_desc src (view_of src gs) (f_lo df) (Some (a, b)) a inl sp' bl (Sp dp dp) inner m' q' sp3 []); auto.
      + intros ? ? [= <- <-]. reflexivity.
      + match goal with HI : inls _ _ _ _ |- _ => destruct HI as [HI1 HI2]; split; [exact HI1|]; eapply chain_weaken; [|apply le_n|exact HI2] end.
        repeat match goal with HS : span_ok src _ |- _ => destruct HS as (HS & _) end. lia.
      + constructor. auto. }
  assert (Hz' : zip src (df' :: gs) XFlow q).
  { constructor; [cbn [df' f_x f_lo]; rewrite <- Hx; auto|auto| |rewrite Hview; exact D3].
    destruct Z3 as [->|Z3]; [left; auto|right]. cbn [f_x f_nd f_ic]. rewrite Hx in Z3. destruct Z3 as [Z3 _]. split; [exact Z3|]. left. reflexivity. }
  assert (Hflat : flatten (df' :: gs) ++ tlv = P ++ BE BStale a :: BE BStale b :: BE (BEnter (NLeaf FDescriptionTerm)) a :: inl_evs inl
         ++ BE (BExit (NLeaf FDescriptionTerm)) sp' :: blank_evs bl ++ BE (BEnter (NCont c)) (Sp dp dp) :: R).
  { cbn [flatten]. unfold f_evs, R. cbn [df' f_pre f_nd f_sp f_body]. fold P. repeat (rewrite <- app_assoc; cbn [app]). reflexivity. }
  assert (Hhas : hasb (f_evs df) -> hasb (f_evs df')).
  { intros [spb K]. exists spb. unfold f_evs in *. rewrite Hpre, Hnd, Eb in K. cbn [app] in K. destruct K as [K|[K|[K|[K|K]]]]; try discriminate K.
    cbn [df' f_pre f_nd f_sp f_body]. apply in_app_or in K. destruct K as [K|[K|K]]; [unfold inl_evs in K; apply in_map_iff in K; destruct K as (? & K & _); discriminate K|discriminate K|].
    apply in_app_or in K. apply in_or_app. destruct K as [K|K]; [left|right; right; exact K]. apply in_or_app. right. right. apply in_or_app. right. right. exact K. }
  assert (Hlen : length (flatten (df' :: gs)) = length (flatten (df :: gs))).
  { cbn [flatten]. unfold f_evs. rewrite !app_length, Hlpre, Hpre, Eb. cbn [length df' f_body app]. rewrite !app_length, inl_len. cbn [length]. rewrite app_length, blank_len. lia. }
  assert (Hfat : f_at df' gs = length P + 4 + length inl + length bl).
  { unfold f_at. rewrite Hlpre. fold P. lia. }
  assert (Hwk1 : walk None (vis (flatten (df' :: gs) ++ tlv))).
  { rewrite Hflat. eapply walk_term. rewrite He in Hwk0. unfold R. cbn [app] in Hwk0. repeat (rewrite <- app_assoc in Hwk0; cbn [app] in Hwk0). exact Hwk0. }
  cbv zeta. fold dp. cbn [bsp]. rewrite <- Hflat.
  destruct pl as [|lf [|]]; [| |contradiction].
  - destruct H as ((_ & Ho & Hl & Hs) & _ & Hli & _).
    assert (Eo : set_bottom (t_open s) (length gs) (length P + 4 + length inl + length bl) "block.rs:692" = Ok (opens (df' :: gs))).
    { unfold set_bottom. rewrite Ho, opens_length. cbn [length]. rewrite usub_yes by lia. cbn [bind]. replace (_ - _) with 0 by lia.
      rewrite set_at_yes by (cbn; lia). cbn [opens upd]. rewrite Hfat. reflexivity. }
    rewrite Eo. cbn [bind]. eexists; exists [], df'. split; [reflexivity|]. split; [|split; [reflexivity|split; reflexivity]].
    split; [left; auto|]. split; [exact I|]. unfold tlv. rewrite app_nil_r. split; [split; [|split; [|split]]|split; [|split]].
    + inversion Hz'; subst. constructor; auto. eapply sq_hi; eauto.
    + reflexivity.
    + cbn [lcor] in *. rewrite Hnd in Hl. exact Hl.
    + cbn [secs] in *. rewrite Hic in Hs. exact Hs.
    + reflexivity.
    + change (lin (t_pblank s) False (df' :: gs)). destruct Hli as [_ Hli]. split; [exact I|]. eapply lin_weaken; [exact Hli| |auto]. intros [[]|K]. auto.
    + unfold tlv in Hwk1. rewrite app_nil_r in Hwk1. exact Hwk1.
  - destruct H as (ty & t & HL & (Hzl & Ho & Hl & Hs) & He' & Hli & _). pose proof HL as (L1 & L2 & L3 & L4 & L5).
    assert (Eo : set_bottom (t_open s) (length gs) (length P + 4 + length inl + length bl) "block.rs:692" = Ok (opens (lf :: df' :: gs))).
    { unfold set_bottom. rewrite Ho, opens_length. cbn [length]. rewrite usub_yes by lia. cbn [bind]. replace (_ - _) with 1 by lia.
      rewrite set_at_yes by (cbn; lia). cbn [opens upd]. rewrite Hfat. unfold f_at at 1. rewrite <- Hlen. reflexivity. }
    rewrite Eo. cbn [bind]. eexists; exists [lf], df'. split; [reflexivity|]. split; [|split; [reflexivity|split; reflexivity]].
    split; [left; auto|]. split; [exact I|]. exists ty, t. split; [auto|]. split; [split; [|split; [|split]]|split; [|split]].
    + inversion Hzl as [|? ? ? ? Y1 Y2 Y3 Y4]; subst. constructor.
      * rewrite L3. destruct Hlf as [-> _]. exact Hz'.
      * rewrite Hview. exact Y2.
      * destruct Y3 as [E|Y3]; [discriminate|right; exact Y3].
      * change (view_of src (lf :: df' :: gs)) with (f_view src lf (view_of src (df' :: gs))). rewrite Hview. exact Y4.
    + reflexivity.
    + cbn [lcor] in *. rewrite L1 in *. rewrite Hnd in Hl. cbn [df' f_nd c]. destruct (t_lists s) as [|l ls] eqn:El; [contradiction|]. cbn [t_lists t_set_open t_set_events]. rewrite El.
      destruct Hl as (G1 & G2 & G3). split; [exact G1|]. split; [|exact G3]. rewrite G2. unfold f_at. rewrite Hlen. reflexivity.
    + cbn [secs] in *. rewrite Hic in Hs. exact Hs.
    + reflexivity.
    + change (lin (t_pblank s) False (lf :: df' :: gs)). destruct Hli as [Hli1 [_ Hli]]. split; [exact Hli1|]. split; [exact I|].
      eapply lin_weaken; [exact Hli| |auto]. intros [K|K]; auto.
    + exact Hwk1.
Qed.
