(** * PCov2: the operations of the block parser only add to what is covered *)
From Verif Require Import Base Lex Attr Block Lib PSafe SpecAttr PAttr SpecBlock PBlock1 PBlock2 PLex PBlock3 PMark PBlock4 PTab0 PTable PTree4 PTree6 Doc SpecCover PCov0 PCov1.
From Verif Require PInl9.
Local Open Scope nat_scope.

Definition bcov (evs : list bev) (i : nat) : Prop := exists e, List.In e evs /\ bk e <> BStale /\ inn i (bsp e).
(** The Enter events of paragraphs have empty ranges. *)
Definition pe (e : bev) : Prop := match bk e with BEnter (NLeaf FParagraph) => se (bsp e) <= ss (bsp e) | _ => True end.
Definition ext (evs evs' : list bev) : Prop := exists x, map bsp evs' = map bsp evs ++ x.
Definition G (top : bool) (evs evs' : list bev) : Prop :=
  (top = false -> ext evs evs') /\ (forall i, bcov evs i -> bcov evs' i) /\ (Forall pe evs -> Forall pe evs').
Lemma G_refl top evs : G top evs evs.
Proof. split; [intros _; exists []; rewrite app_nil_r; auto|auto]. Qed.
Lemma ext_trans a b c : ext a b -> ext b c -> ext a c.
Proof. intros [x Hx] [y Hy]. exists (x ++ y). rewrite Hy, Hx, app_assoc. reflexivity. Qed.
Lemma G_trans top a b c : G top a b -> G top b c -> G top a c.
Proof. intros (A1 & A2 & A3) (B1 & B2 & B3). split; [intros H; eapply ext_trans; eauto|]. split; auto. Qed.
Lemma G_top top a b : G false a b -> G top a b.
Proof. intros (A1 & A2 & A3). split; [auto|]. auto. Qed.
Lemma bcov_app a b i : bcov (a ++ b) i <-> bcov a i \/ bcov b i.
Proof.
  split.
  - intros (e & H & Hs & Hi). apply in_app_or in H. destruct H; [left|right]; exists e; auto.
  - intros [(e & H & Hs & Hi)|(e & H & Hs & Hi)]; exists e; (split; [apply in_or_app; auto|auto]).
Qed.
Lemma G_app top a b : Forall pe b -> G top a (a ++ b).
Proof.
  intros H. split; [intros _; exists (map bsp b); apply map_app|]. split; [intros i Hi; apply bcov_app; auto|]. intros Ha. apply Forall_app. auto.
Qed.
Lemma G_upd top evs j e e' : nth_error evs j = Some e -> bsp e' = bsp e -> bk e' <> BStale -> pe e' -> G top evs (upd evs j e').
Proof.
  intros Hj Hs Hk Hp. destruct (upd_split evs j e' e Hj) as [E1 E2]. set (a := firstn j evs) in *. set (b := skipn (S j) evs) in *. rewrite E2. clear E2. rewrite E1. clear - Hs Hk Hp.
  split; [intros _; exists []; rewrite !map_app, app_nil_r; cbn; rewrite Hs; reflexivity|]. split.
  - intros i (x & Hx & Hsx & Hi). apply in_app_or in Hx. destruct Hx as [Hx|[<-|Hx]].
    + exists x. split; [apply in_or_app; auto|auto].
    + exists e'. split; [apply in_or_app; right; left; auto|]. split; [auto|]. rewrite Hs. auto.
    + exists x. split; [apply in_or_app; right; right; auto|auto].
  - intros H. apply Forall_app in H. destruct H as [H1 H2]. apply Forall_app. split; [auto|]. constructor; [auto|exact (Forall_inv_tail H2)].
Qed.
(** The new event covers its range. *)
Lemma bcov_push evs k sp i : k <> BStale -> inn i sp -> bcov (evs ++ [BE k sp]) i.
Proof. intros H Hi. apply bcov_app. right. exists (BE k sp). split; [left; auto|auto]. Qed.

Definition GS (top : bool) (s s' : tstate) : Prop := G top (t_events s) (t_events s').
Lemma push_G top s k sp : pe (BE k sp) -> GS top s (t_push s k sp).
Proof. intros H. apply G_app. constructor; [auto|constructor]. Qed.
Lemma pop_events s w n s' : t_pop_open s w = Ok (n, s') -> t_events s' = t_events s.
Proof.
  unfold t_pop_open. destruct (t_open s) as [|i o]; [discriminate|]. intros H. apply bind_ok in H. destruct H as (e & _ & H). destruct (bk e); try discriminate. apply okp in H. destruct H as [_ ->]. reflexivity.
Qed.
Lemma exit_events s sp s' : t_exit s sp = Ok s' -> exists n, t_events s' = t_events s ++ [BE (BExit n) sp].
Proof.
  unfold t_exit. intros H. apply bind_ok in H. destruct H as ([n s1] & E & H). apply okp1 in H. subst s'. exists n. cbn [t_push t_set_events t_events]. rewrite (pop_events _ _ _ _ E). reflexivity.
Qed.
Lemma exit_G top s sp s' : t_exit s sp = Ok s' -> GS top s s' /\ forall i, inn i sp -> bcov (t_events s') i.
Proof.
  intros H. destruct (exit_events _ _ _ H) as (n & E). unfold GS. rewrite E. split; [apply G_app; constructor; [exact I|constructor]|]. intros i Hi. apply bcov_push; [discriminate|auto].
Qed.
Lemma enter_G top s n sp : pe (BE (BEnter n) sp) -> GS top s (t_enter s n sp) /\ forall i, inn i sp -> bcov (t_events (t_enter s n sp)) i.
Proof.
  intros H. split; [apply G_app; constructor; [auto|constructor]|]. intros i Hi. apply bcov_push; [discriminate|auto].
Qed.
Lemma close_list_G top s l pos s' : close_list s l pos = Ok s' -> GS top s s'.
Proof.
  unfold close_list. intros H. apply bind_ok in H. destruct H as (e & Ee & H). apply get_at_ok in Ee. destruct (bk e) as [[c|]| | | |] eqn:Ek; try discriminate. destruct c; try discriminate.
  apply bind_ok in H. destruct H as (evs & Es & H). apply set_at_ok in Es. destruct Es as [_ Es].
  eapply G_trans; [|exact (proj1 (exit_G top _ _ _ H))]. cbn [t_set_events t_events]. subst evs. eapply G_upd; [exact Ee|reflexivity|discriminate|exact I].
Qed.
Lemma update_lists_G top s k pos s' : update_lists s k pos = Ok s' -> GS top s s'.
Proof.
  unfold update_lists. destruct (t_lists s) as [|l ls]; [intros H; apply okp1 in H; subst; apply G_refl|]. intros H. apply bind_ok in H. destruct H as (u & _ & H).
  destruct (Nat.eqb _ _); [|apply okp1 in H; subst; apply G_refl]. apply bind_ok in H. destruct H as (r & _ & H). destruct r as [[p q]|]; [apply okp1 in H; subst; apply G_refl|].
  apply (close_list_G top) in H. exact H.
Qed.
Lemma update_loose_G top s k s' : update_loose s k = Ok s' -> GS top s s'.
Proof.
  unfold update_loose. intros H.
  assert (Hgen : forall s2, (let s1 := t_set_loose s false in
     (if t_pblank s1 then
           match t_lists s1 with
           | [] => Ok s1
           | l :: _ =>
               if Nat.leb (length (t_open s1)) (ol_depth l)
                  || match k with KListItem _ _ _ => false | _ => true end then
                 let! e := get_at (t_events s1) (ol_event l) "block.rs:411" in
                 match bk e with
                 | BEnter (NCont (BList ty true)) =>
                     Ok (t_set_loose
                           (t_set_events s1 (upd (t_events s1) (ol_event l)
                                                 (BE (BEnter (NCont (BList ty false))) (bsp e))))
                           true)
                 | _ => Ok s1
                 end
               else Ok s1
           end
         else Ok s1)) = Ok s2 -> GS top s s2).
  { cbv zeta. intros s2 E. destruct (t_pblank _); [|apply okp1 in E; subst; apply G_refl]. destruct (t_lists (t_set_loose s false)) as [|l ls]; [apply okp1 in E; subst; apply G_refl|].
    destruct (_ || _)%bool; [|apply okp1 in E; subst; apply G_refl]. apply bind_ok in E. destruct E as (e & Ee & E). apply get_at_ok in Ee.
    destruct (bk e) as [[c|]| | | |]; try (apply okp1 in E; subst; apply G_refl). destruct c; try (apply okp1 in E; subst; apply G_refl). destruct tight; apply okp1 in E; subst; [|apply G_refl].
    unfold GS. cbn [t_set_loose t_set_events t_events] in *. eapply G_upd; [exact Ee|reflexivity|discriminate|exact I]. }
  destruct k as [[]| | | | | | |]; try (apply okp1 in H; subst; apply G_refl); apply bind_ok in H; destruct H as (s2 & E & H); apply okp1 in H; subst s'; exact (Hgen s2 E).
Qed.
Lemma maybe_open_G top s k pos s' : maybe_open_list s k pos = Ok s' -> GS top s s'.
Proof.
  unfold maybe_open_list. destruct k; try (intros H; apply okp1 in H; subst; apply G_refl). destruct (match t_lists s with [] => true | _ => _ end); [|intros H; apply okp1 in H; subst; apply G_refl].
  intros H. apply bind_ok in H. destruct H as (d & _ & H). apply okp1 in H. subst s'. apply (proj1 (enter_G top s (NCont (BList ty true)) (Sp pos pos) I)).
Qed.
Lemma close_inner_G top s pos s' : close_inner_list s pos = Ok s' -> GS top s s'.
Proof.
  unfold close_inner_list. destruct (t_lists s) as [|l ls]; [intros H; apply okp1 in H; subst; apply G_refl|]. intros H. apply bind_ok in H. destruct H as (u & _ & H).
  destruct (Nat.eqb _ _); [|apply okp1 in H; subst; apply G_refl]. apply (close_list_G top) in H. exact H.
Qed.
Lemma inlines_events ls : forall s, t_events (t_inlines s ls) = t_events s ++ map (BE BInline) ls.
Proof. induction ls as [|l ls IH]; intros s; cbn; [rewrite app_nil_r; auto|]. unfold t_inlines in IH. rewrite IH. cbn. rewrite <- app_assoc. reflexivity. Qed.
Lemma inlines_G top s ls : GS top s (t_inlines s ls) /\ forall i, inl i ls -> bcov (t_events (t_inlines s ls)) i.
Proof.
  unfold GS. rewrite inlines_events. split; [apply G_app; apply Forall_map, Forall_forall; intros; exact I|]. intros i (l & Hl & Hi). apply bcov_app. right. exists (BE BInline l).
  split; [apply in_map; auto|]. split; [discriminate|auto].
Qed.

(** ** Sections *)
Lemma insert_G (evs : list bev) at_ e : pe e -> G true evs (firstn at_ evs ++ e :: skipn at_ evs).
Proof.
  intros He. split; [discriminate|]. split.
  - intros i Hi. rewrite <- (firstn_skipn at_ evs) in Hi. apply bcov_app in Hi. apply bcov_app. destruct Hi as [Hi|Hi]; [auto|right]. change (e :: ?x) with ([e] ++ x). apply bcov_app. auto.
  - intros H. rewrite <- (firstn_skipn at_ evs) in H. apply Forall_app in H. destruct H. apply Forall_app. auto.
Qed.
Lemma close_secs_G n : forall i pos s s', close_secs n i pos s = Ok s' -> GS true s s'.
Proof.
  induction n as [|n IH]; intros i pos s s' H; cbn [close_secs] in H; [apply okp1 in H; subst; apply G_refl|].
  apply bind_ok in H. destruct H as ([nd s1] & E1 & H). apply bind_ok in H. destruct H as (e & _ & H). cbv zeta in H. apply bind_ok in H. destruct H as (evs & E3 & H). apply insert_at_ok in E3. destruct E3 as [_ E3].
  eapply G_trans; [|exact (IH _ _ _ _ H)]. cbn [t_set_events t_events]. subst evs. apply insert_G. exact I.
Qed.
Lemma open_section_G s lv pos s' : open_section s lv pos = Ok s' -> GS true s s'.
Proof.
  unfold open_section. cbv zeta. intros H. apply bind_ok in H. destruct H as (s1 & E & H). apply okp1 in H. subst s'. eapply G_trans; [exact (close_secs_G _ _ _ _ _ E)|].
  match goal with |- G true _ (t_events (t_enter ?q ?n ?sp)) => exact (proj1 (enter_G true q n sp I)) end.
Qed.

(** ** Description terms *)
Lemma nth_map_bsp evs P x j a : map bsp evs = P ++ a :: x -> length P = j -> exists e, nth_error evs j = Some e /\ bsp e = a.
Proof.
  intros H <-. assert (E : nth_error (map bsp evs) (length P) = Some a) by (rewrite H, nth_error_app2, Nat.sub_diag by lia; reflexivity).
  rewrite nth_error_map in E. destruct (nth_error evs (length P)) as [e|]; [|discriminate]. exists e. split; [auto|]. injection E. auto.
Qed.
Lemma firstn_upd {A} (l : list A) n j x : n <= j -> firstn n (upd l j x) = firstn n l.
Proof. revert n j; induction l as [|y l IH]; intros n j H; [destruct j; reflexivity|]. destruct j; [assert (n = 0) by lia; subst; reflexivity|]. cbn. destruct n; [reflexivity|]. cbn. f_equal. apply IH. lia. Qed.
Lemma move_term_G s c dt od s' P a b d x : map bsp (t_events s) = P ++ a :: b :: d :: x -> length P = dt -> se b <= ss b -> se d <= ss d -> Forall pe (t_events s) ->
  move_term s c dt (dt + 2) od = Ok s' ->
  (exists x', map bsp (t_events s') = P ++ x') /\ (forall i, bcov (t_events s) i -> bcov (t_events s') i) /\ Forall pe (t_events s').
Proof.
  intros Hm Hd Hb Hdd Hpe H. unfold move_term in H. cbv zeta in H. set (evs := t_events s) in *.
  assert (Hno : s' = s -> (exists x', map bsp (t_events s') = P ++ x') /\ (forall i, bcov evs i -> bcov (t_events s') i) /\ Forall pe (t_events s')).
  { intros ->. split; [eauto|]. auto. }
  destruct (nth_error evs (dt + 2 + 1)) as [et|] eqn:Et; [|apply okp1 in H; subst; auto]. destruct et as [ek esp]. destruct ek; try (apply okp1 in H; subst; auto). destruct n as [|lf]; [apply okp1 in H; subst; auto|].
  destruct lf; try (apply okp1 in H; subst; auto).
  apply bind_ok in H. destruct H as (inner & Ein & H). set (xt := dt + 2 + 1 + 1 + inner) in *. apply bind_ok in H. destruct H as (xe & Ex & H). apply get_at_ok in Ex.
  apply bind_ok in H. destruct H as (e0 & E0 & H). apply get_at_ok in E0. apply bind_ok in H. destruct H as (e1 & E1 & H). apply get_at_ok in E1.
  set (v1 := upd evs xt _) in *. set (v2 := upd v1 _ _) in *. set (v3 := upd v2 _ _) in *. set (v4 := upd v3 _ _) in *.
  match type of H with context [firstn (?fq - (dt + 2 + 1)) _] => set (fd := fq) in * end.
  apply bind_ok in H. destruct H as (dp & _ & H). apply bind_ok in H. destruct H as (o & _ & H). apply okp1 in H. subst s'. cbn [t_set_open t_set_events t_events].
  assert (Hfd : xt + 1 <= fd \/ fd = length v4).
  { clear. unfold fd. match goal with |- context [position ?f ?l] => destruct (position f l) as [q|] end; [left; apply Nat.le_add_r|right; auto]. }
  assert (Lv : length v4 = length evs) by (unfold v4, v3, v2, v1; rewrite !upd_length; auto).
  assert (Hxl : xt < length evs) by (apply nth_error_Some; congruence).
  assert (Hfd2 : xt + 1 <= fd) by lia. clear Hfd.
  (* the events of [v4] *)
  assert (N : forall j, j <> xt -> j <> dt -> j <> dt + 1 -> j <> dt + 2 + 1 -> nth_error v4 j = nth_error evs j).
  { intros j H1 H2 H3 H4. unfold v4, v3, v2, v1. rewrite !upd_nth_neq by auto. reflexivity. }
  assert (Nt : nth_error v4 (dt + 2 + 1) = Some (BE (BEnter (NLeaf FDescriptionTerm)) (bsp e0))).
  { unfold v4. apply upd_nth_eq. unfold v3, v2, v1. rewrite !upd_length. lia. }
  assert (Nx : nth_error v4 xt = Some (BE (BExit (NLeaf FDescriptionTerm)) (bsp xe))).
  { unfold v4, v3, v2. rewrite !upd_nth_neq by (unfold xt; lia). unfold v1. apply upd_nth_eq. lia. }
  set (res := firstn (dt + 2) v4 ++ _).
  assert (K : forall j e, nth_error v4 j = Some e -> j <> dt + 2 -> List.In e res).
  { intros j e Hj Hne. unfold res. destruct (Nat.lt_ge_cases j (dt + 2)) as [X|X].
    - apply in_or_app. left. apply (nth_error_In _ j). rewrite nth_error_firstn by lia. auto.
    - apply in_or_app. right. apply in_or_app. destruct (Nat.lt_ge_cases j fd) as [Y|Y].
      + left. apply (nth_error_In _ (j - (dt + 2 + 1))). rewrite nth_error_firstn by lia. rewrite nth_error_skipn. replace (dt + 2 + 1 + (j - (dt + 2 + 1))) with j by lia. auto.
      + right. right. apply (nth_error_In _ (j - fd)). rewrite nth_error_skipn. replace (fd + (j - fd)) with j by lia. auto. }
  assert (Hr : forall e, List.In e res -> List.In e v4 \/ bk e = BEnter (NCont c)).
  { intros e He. unfold res in He. apply in_app_or in He. destruct He as [He|He]; [left; eapply PInl9.in_firstn; eauto|]. apply in_app_or in He. destruct He as [He|[<-|He]]; [left|right; reflexivity|left].
    - apply PInl9.in_firstn in He. eapply PInl9.in_skipn; eauto.
    - eapply PInl9.in_skipn; eauto. }
  assert (Hbb : exists eb, nth_error evs (dt + 1) = Some eb /\ bsp eb = b).
  { apply (nth_map_bsp evs (P ++ [a]) (d :: x)); [rewrite Hm, <- app_assoc; reflexivity|rewrite app_length; cbn; lia]. }
  assert (Hda : exists ed, nth_error evs (dt + 2) = Some ed /\ bsp ed = d).
  { apply (nth_map_bsp evs (P ++ [a; b]) x); [rewrite Hm, <- app_assoc; reflexivity|rewrite app_length; cbn; lia]. }
  destruct Hbb as (eb & Eb & Eb'). destruct Hda as (ed & Ed & Ed').
  split; [|split].
  - exists (skipn dt (map bsp res)). rewrite <- (firstn_skipn dt (map bsp res)) at 1. f_equal. rewrite firstn_map. unfold res. rewrite firstn_app, firstn_firstn, firstn_length, Lv.
    assert (Z : dt - Nat.min (dt + 2) (length evs) = 0) by (assert (dt + 2 < length evs) by (apply nth_error_Some; congruence); lia). rewrite Z. cbn [firstn]. rewrite app_nil_r, Nat.min_l by lia.
    unfold v4, v3, v2, v1. rewrite !firstn_upd by (unfold xt; lia). rewrite <- firstn_map. rewrite Hm, <- Hd, firstn_app, firstn_all, Nat.sub_diag. cbn [firstn]. apply app_nil_r.
  - intros i (e & He & Hs & Hi). apply In_nth_error in He. destruct He as (j & Hj).
    destruct (Nat.eq_dec j (dt + 2)) as [->|X1]; [exfalso; rewrite Ed in Hj; injection Hj as <-; rewrite Ed' in Hi; destruct Hi; lia|].
    destruct (Nat.eq_dec j (dt + 1)) as [->|X2]; [exfalso; rewrite Eb in Hj; injection Hj as <-; rewrite Eb' in Hi; destruct Hi; lia|].
    destruct (Nat.eq_dec j (dt + 2 + 1)) as [->|X3].
    { exfalso. rewrite Et in Hj. injection Hj as <-. cbn in Hi. rewrite Forall_forall in Hpe. pose proof (Hpe _ (nth_error_In _ _ Et)) as Q. unfold pe in Q. cbn in Q. destruct Hi. lia. }
    destruct (Nat.eq_dec j dt) as [->|X4].
    { rewrite E0 in Hj. injection Hj as <-. eexists. split; [eapply K; [exact Nt|lia]|]. split; [discriminate|exact Hi]. }
    destruct (Nat.eq_dec j xt) as [->|X5].
    { rewrite Ex in Hj. injection Hj as <-. eexists. split; [eapply K; [exact Nx|unfold xt; lia]|]. split; [discriminate|exact Hi]. }
    exists e. split; [apply (K j); [rewrite N by auto; auto|auto]|auto].
  - apply Forall_forall. intros e He. apply Hr in He. destruct He as [He|He]; [|unfold pe; rewrite He; exact I]. apply In_nth_error in He. destruct He as (j & Hj).
    rewrite Forall_forall in Hpe.
    destruct (Nat.eq_dec j (dt + 2 + 1)) as [->|X3]; [rewrite Nt in Hj; injection Hj as <-; exact I|].
    destruct (Nat.eq_dec j xt) as [->|X5]; [rewrite Nx in Hj; injection Hj as <-; exact I|].
    destruct (Nat.eq_dec j dt) as [->|X4].
    { unfold v4, v3 in Hj. rewrite !upd_nth_neq in Hj by lia. unfold v2 in Hj. rewrite upd_nth_eq in Hj by (unfold v1; rewrite upd_length; lia). injection Hj as <-. exact I. }
    destruct (Nat.eq_dec j (dt + 1)) as [->|X2].
    { unfold v4 in Hj. rewrite !upd_nth_neq in Hj by lia. unfold v3 in Hj. rewrite upd_nth_eq in Hj by (unfold v2, v1; rewrite !upd_length; lia). injection Hj as <-. exact I. }
    rewrite N in Hj by auto. apply Hpe. eapply nth_error_In; eauto.
Qed.
