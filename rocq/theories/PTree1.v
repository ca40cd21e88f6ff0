(** * PTree1: operations on the stack of open blocks *)
From Verif Require Import Base Lex Attr Block Lib PSafe SpecAttr PAttr SpecBlock PBlock1 PBlock2 PBlock3 PGram.
Local Open Scope nat_scope.

Definition closed (f : frame) (sp : span) : list bev := f_evs f ++ [BE (BExit (f_nd f)) sp].
Definition notlist (f : frame) : Prop := match f_nd f with NCont (BList _ _) => False | _ => True end.
Lemma flatten_addb f b fs : flatten (addb f b :: fs) = flatten (f :: fs) ++ b.
Proof. cbn [flatten]. unfold f_evs. cbn [addb f_pre f_nd f_sp f_body]. repeat (rewrite <- app_assoc; cbn [app]). reflexivity. Qed.
Lemma f_at_nth f fs : nth_error (flatten (f :: fs)) (f_at f fs) = Some (BE (BEnter (f_nd f)) (f_sp f)).
Proof.
  cbn [flatten]. unfold f_at, f_evs. rewrite nth_error_app2 by lia. rewrite nth_error_app2 by lia.
  replace (_ - _ - _) with 0 by lia. reflexivity.
Qed.
(** ** Blank lines in lists *)
Lemma f_evs_addb f b : f_evs (addb f b) = f_evs f ++ b.
Proof. unfold f_evs. cbn [addb f_pre f_nd f_sp f_body]. rewrite <- app_assoc. reflexivity. Qed.
(** An event that is added can only help: [pb'] may be set if it is a blank line. *)
Lemma lin_addb pb pb' f fs ch : lin pb False (f :: fs) -> (pb' = true -> pb = true \/ hasb ch) -> lin pb' False (addb f ch :: fs).
Proof.
  intros [H1 H2] Hp. assert (Hc : forall (b : Prop), hasb ch -> b \/ hasb (f_body f ++ ch)) by (intros b H; right; apply hasb_app; auto). split.
  - unfold lnd in *. cbn [addb f_nd f_body]. destruct (f_nd f) as [[]|]; auto. intros H.
    assert (K : (tight = false \/ pb = true) \/ hasb ch) by (destruct H as [H|H]; [auto|destruct (Hp H); auto]).
    destruct K as [K|K]; [|auto]. destruct (H1 K) as [[]|K']. right. apply hasb_app. auto.
  - rewrite f_evs_addb. assert (Hd : hasb ch \/ ~ hasb ch).
    { clear. induction ch as [|e ch IH]; [right; intros [sp []]|]. destruct IH as [[sp H]|H]; [left; exists sp; right; auto|].
      destruct e as [k sp]. destruct k as [| | |[]|]; try (right; intros [sp' [E|E]]; [discriminate E|apply H; exists sp'; auto]). left. exists sp. left. auto. }
    destruct Hd as [Hd|Hd].
    + assert (X : forall fs pb, lin pb True fs); [|eapply lin_weaken; [apply (X fs pb')|intros _; right; apply hasb_app; auto|auto]].
      clear. induction fs as [|f fs IH]; intros pb; [exact I|]. split; [unfold lnd; destruct (f_nd f) as [[]|]; auto|]. eapply lin_weaken; [apply IH|auto|auto].
    + eapply lin_weaken; [exact H2| |intros H; destruct (Hp H); [auto|contradiction]]. intros [[]|H]. right. apply hasb_app. auto.
Qed.
Lemma lin_close pb f g fs sp : lin pb False (f :: g :: fs) -> lin pb False (addb g (closed f sp) :: fs).
Proof.
  intros [_ [H1 H2]]. assert (Hcl : hasb (f_evs f) -> hasb (closed f sp)) by (intros H; unfold closed; apply hasb_app; auto). split.
  - unfold lnd in *. cbn [addb f_nd f_body]. destruct (f_nd g) as [[]|]; auto. intros K. destruct (H1 K) as [[[]|K']|K']; right; apply hasb_app; auto.
  - eapply lin_weaken; [exact H2| |auto]. rewrite f_evs_addb. intros [[[]|K]|K]; right; apply hasb_app; auto.
Qed.

Lemma inv_add src s f fs y pos ch y' pos' : inv src s (f :: fs) y pos -> sq src (view_of src (f :: fs)) y pos ch y' pos' -> walk (lastev s) (vis ch) ->
  inv src (t_set_events s (t_events s ++ ch)) (addb f ch :: fs) y' pos'.
Proof.
  intros ((Hz & Ho & Hl & Hs) & He & Hli & Hwk) Hq Hch. split; [split; [|split; [|split]]|split; [|split]].
  - eapply zip_add; eauto.
  - exact Ho.
  - exact Hl.
  - exact Hs.
  - cbn [t_events t_set_events]. rewrite flatten_addb, He. reflexivity.
  - eapply lin_addb; [exact Hli|auto].
  - cbn [t_events t_set_events]. rewrite vis_app. apply walk_app. auto.
Qed.

Lemma rename_hasb f nd : hasb (f_evs f) -> hasb (f_evs (rename f nd)).
Proof.
  intros [sp K]. exists sp. unfold f_evs in *. cbn [rename f_pre f_nd f_sp f_body]. apply in_app_or in K. apply in_or_app.
  destruct K as [K|[K|K]]; [auto|discriminate K|right; right; exact K].
Qed.
(** If the line before was blank, lists may become loose. *)
Lemma lin_fsim a b : fsim a b -> forall (p p' : Prop) pb, lin true p a -> (p -> p') -> lin pb p' b.
Proof.
  induction 1 as [|f nd fs fs' H1 H2 IH]; intros p p' pb H Hp; [exact I|]. destruct H as [Ha Hb]. split.
  - unfold lnd in *. cbn [rename f_nd f_body]. destruct H1 as [<-|(ty & t & ty' & t' & E & -> & _)].
    + destruct (f_nd f) as [[]|]; auto. intros _. destruct Ha as [Ha|Ha]; auto.
    + rewrite E in Ha. intros _. destruct Ha as [Ha|Ha]; auto.
  - eapply IH; [exact Hb|]. intros [K|K]; [auto|right; apply rename_hasb; auto].
Qed.

(** ** Leaf blocks *)
Lemma t_inlines_events s ls : t_inlines s ls = t_set_events s (t_events s ++ inl_evs ls).
Proof.
  unfold t_inlines. revert s; induction ls as [|l ls IH]; intros s; cbn [fold_left inl_evs map].
  - rewrite app_nil_r. destruct s; reflexivity.
  - rewrite IH. unfold t_inline, t_push. cbn [t_events t_set_events t_pblank t_ploose t_attr t_lists t_secs t_open].
    rewrite <- app_assoc. reflexivity.
Qed.
Lemma leaf_chunk s nd sp ls sp' :
  t_exit (t_inlines (t_enter s nd sp) ls) sp' = Ok (t_set_events s (t_events s ++ BE (BEnter nd) sp :: inl_evs ls ++ [BE (BExit nd) sp'])).
Proof.
  rewrite t_inlines_events. unfold t_exit, t_pop_open. cbn [t_enter t_push t_open t_events t_set_events t_set_open].
  erewrite get_at_yes.
  2:{ rewrite <- app_assoc. rewrite nth_error_app2 by lia. rewrite Nat.sub_diag. reflexivity. }
  cbn [bind bk]. unfold t_push, t_set_events, t_set_open. cbn [t_pblank t_ploose t_attr t_lists t_secs t_open t_events].
  repeat (rewrite <- app_assoc; cbn [app]). reflexivity.
Qed.

(** ** Opening and closing *)
Lemma inv_enter src s fs y pos f : inv src s fs y pos -> f_pre f = [] -> f_body f = [] -> f_x f = y -> f_lo f = pos ->
  frame_ok src (view_of src fs) f -> placed f fs -> notlist f -> (forall L p, f_ic f <> XSec L p) -> opart (lastev s) (BEnter (f_nd f)) ->
  inv src (t_enter s (f_nd f) (f_sp f)) (f :: fs) (f_ic f) (se (f_sp f)).
Proof.
  intros ((Hz & Ho & Hl & Hs) & He & Hli & Hwk) Hp Hb Hx Hlo Hf Hpl Hn Hsec Hop. split; [split; [|split; [|split]]|split; [|split]].
  - constructor; auto; [congruence|]. rewrite Hb. constructor. auto.
  - cbn [t_enter t_open t_set_open t_push opens]. unfold f_at. rewrite Hp, Ho, He. cbn. rewrite Nat.add_0_r. reflexivity.
  - cbn [t_enter t_lists t_set_open t_push t_set_events lcor]. unfold notlist in Hn. destruct (f_nd f) as [[]|]; auto. contradiction.
  - cbn [t_enter t_secs t_set_open t_push t_set_events secs]. rewrite Hs. destruct (f_ic f); rewrite ?app_nil_r; auto. destruct (Hsec l pos0 eq_refl).
  - cbn [t_enter t_events t_set_open t_push t_set_events flatten]. unfold f_evs. rewrite Hp, Hb, He. reflexivity.
  - split; [unfold lnd; unfold notlist in Hn; destruct (f_nd f) as [[]|]; auto; contradiction|]. eapply lin_weaken; [exact Hli|intros []|auto].
  - cbn [t_enter t_events t_set_open t_push t_set_events]. apply walk_snoc; auto.
Qed.

Lemma pop_open s f fs w : t_open s = opens (f :: fs) -> nth_error (t_events s) (f_at f fs) = Some (BE (BEnter (f_nd f)) (f_sp f)) ->
  t_pop_open s w = Ok (f_nd f, t_set_open s (opens fs)).
Proof. intros Ho He. unfold t_pop_open. rewrite Ho. cbn [opens]. rewrite (get_at_yes _ _ _ _ He). reflexivity. Qed.
Lemma zip_close src f g fs y q sp : zip src (f :: g :: fs) y q -> okend y -> q <= ss sp -> span_ok src sp -> node_text src (f_x f) (f_nd f) (f_sp f) sp -> nloose (f_nd f) (f_body f) ->
  zip src (addb g (closed f sp) :: fs) (aft (f_x f) (f_ic f)) (se sp).
Proof.
  intros H Hy Hq Hsp Hnt Hnlo. inversion H as [|? ? ? ? Hz [Hw Hf] Hp Hs]; subst. eapply zip_add; [exact Hz|].
  unfold closed, f_evs. rewrite <- app_assoc. cbn [app]. eapply Hf; eauto. apply sim_refl.
Qed.
Lemma inv_exit src s f g fs y q sp : inv src s (f :: g :: fs) y q -> okend y -> q <= ss sp -> span_ok src sp ->
  notlist f -> (forall L p, f_ic f <> XSec L p) -> node_text src (f_x f) (f_nd f) (f_sp f) sp ->
  exists s', t_exit s sp = Ok s' /\ inv src s' (addb g (closed f sp) :: fs) (aft (f_x f) (f_ic f)) (se sp) /\ t_attr s' = t_attr s /\ t_lists s' = t_lists s /\ t_events s' = t_events s ++ [BE (BExit (f_nd f)) sp].
Proof.
  intros ((Hz & Ho & Hl & Hs) & He & Hli & Hwk) Hy Hq Hsp Hn Hsec Hnt. unfold t_exit.
  rewrite (pop_open s f (g :: fs)) by (auto; rewrite He; apply f_at_nth). cbn [bind].
  eexists. split; [reflexivity|]. split; [|auto]. split; [split; [|split; [|split]]|split; [|split]].
  - eapply zip_close; eauto. unfold notlist in Hn. destruct (f_nd f) as [[]|]; exact I || contradiction.
  - reflexivity.
  - cbn [lcor] in Hl. unfold notlist in Hn. change (lcor src (g :: fs) (t_lists s)). destruct (f_nd f) as [[]|]; auto. contradiction.
  - change (t_secs s = secs (g :: fs)). cbn [secs] in Hs. rewrite Hs. cbn [secs]. destruct (f_ic f); rewrite ?app_nil_r; auto. destruct (Hsec l pos eq_refl).
  - cbn [t_push t_set_events t_events t_set_open]. rewrite flatten_addb, He. unfold closed. rewrite app_assoc. reflexivity.
  - apply lin_close. exact Hli.
  - cbn [t_push t_set_events t_events t_set_open]. apply walk_snoc; [exact Hwk|apply opart_exit].
Qed.

(** ** Lists *)
Lemma rename_upd f fs nd : upd (flatten (f :: fs)) (f_at f fs) (BE (BEnter nd) (f_sp f)) = flatten (rename f nd :: fs).
Proof.
  cbn [flatten]. unfold f_at, f_evs. cbn [rename f_pre f_nd f_sp f_body]. rewrite upd_app_r. f_equal.
  rewrite <- (Nat.add_0_r (length (f_pre f))). rewrite upd_app_r. reflexivity.
Qed.
Lemma list_event src fs : forall l ls, lcor src fs (l :: ls) ->
  exists ty t sp, nth_error (flatten fs) (ol_event l) = Some (BE (BEnter (NCont (BList ty t))) sp) /\ lt_ok ty /\ lt_class ty = lt_class (ol_start l) /\
  forall ty' t', lt_class ty' = lt_class ty -> lt_ok ty' ->
  exists fs', fsim fs fs' /\ upd (flatten fs) (ol_event l) (BE (BEnter (NCont (BList ty' t'))) sp) = flatten fs'.
Proof.
  induction fs as [|f fs IH]; intros l ls H; [discriminate|]. cbn [lcor] in H.
  assert (Hrec : notlist f -> lcor src fs (l :: ls) -> exists ty t sp, nth_error (flatten (f :: fs)) (ol_event l) = Some (BE (BEnter (NCont (BList ty t))) sp) /\ lt_ok ty /\ lt_class ty = lt_class (ol_start l) /\
    forall ty' t', lt_class ty' = lt_class ty -> lt_ok ty' ->
    exists fs', fsim (f :: fs) fs' /\ upd (flatten (f :: fs)) (ol_event l) (BE (BEnter (NCont (BList ty' t'))) sp) = flatten fs').
  { intros _ Hr. destruct (IH l ls Hr) as (ty & t & sp & H1 & H2 & H3 & H4). exists ty, t, sp. cbn [flatten].
    assert (Hlt : ol_event l < length (flatten fs)) by (apply nth_error_Some; congruence).
    split; [rewrite nth_error_app1; auto|]. split; [auto|]. split; [auto|]. intros ty' t' Hc Ho.
    destruct (H4 ty' t' Hc Ho) as (fs' & Hs & Hu). exists (f :: fs'). split; [apply fsim_cons; auto|].
    rewrite upd_app_l by auto. rewrite Hu. reflexivity. }
  unfold notlist in Hrec. destruct (f_nd f) as [[]|] eqn:En; auto.
  destruct H as (D1 & D2 & D3 & D4 & D5 & D6 & D7 & D8 & _). exists ty, tight, (f_sp f). rewrite D2. split; [rewrite f_at_nth, En; reflexivity|].
  split; [auto|]. split; [auto|]. intros ty' t' Hc Ho. exists (rename f (NCont (BList ty' t')) :: fs). split; [|apply rename_upd].
  constructor; [|apply fsim_refl]. right. do 4 eexists. do 2 (split; [eauto|]). auto.
Qed.

Lemma close_list_ok src s lf g fs y q l ls pos ty t :
  inv src s (lf :: g :: fs) y q -> f_nd lf = NCont (BList ty t) -> (forall L p, f_ic lf <> XSec L p) -> t_lists s = l :: ls ->
  okend y -> q <= pos -> span_ok src (Sp pos pos) -> forall s0, s0 = t_set_lists s ls ->
  exists s' b, close_list s0 l pos = Ok s' /\ inv src s' (addb g b :: fs) (aft (f_x lf) (f_ic lf)) pos /\ t_attr s' = t_attr s /\ t_lists s' = ls /\ exists t', lastev s' = Some (BExit (NCont (BList (ol_start l) t'))).
Proof.
  intros ((Hz & Ho & Hl & Hs) & He & Hli & Hwk) Hnd Hsec Htl Hy Hq Hsp s0 ->. unfold close_list. cbn [t_events t_set_lists].
  rewrite Htl in Hl. cbn [lcor] in Hl. rewrite Hnd in Hl. destruct Hl as (D1 & D2 & D3 & D4 & D5 & D6 & D7 & D8 & D9 & D10).
  rewrite He, D2. rewrite (get_at_yes _ _ _ _ (f_at_nth lf (g :: fs))). cbn [bind bk bsp]. rewrite Hnd.
  set (t' := if t_ploose _ then true else t).
  rewrite set_at_yes by (apply nth_error_Some; rewrite f_at_nth; discriminate). cbn [bind]. rewrite rename_upd.
  set (lf' := rename lf (NCont (BList (ol_start l) t'))).
  assert (Hsim : sim (f_nd lf) (NCont (BList (ol_start l) t'))).
  { right. do 4 eexists. split; [exact Hnd|]. split; [reflexivity|]. auto. }
  assert (Hfs : fsim (lf :: g :: fs) (lf' :: g :: fs)) by (constructor; [auto|apply fsim_refl]).
  unfold t_exit. rewrite (pop_open _ lf' (g :: fs)).
  2:{ cbn [t_open t_set_events t_set_lists]. rewrite Ho. apply fsim_opens. auto. }
  2:{ cbn [t_events t_set_events]. apply f_at_nth. }
  assert (Ht' : t' = false -> t = false) by (unfold t'; destruct (t_ploose _); [discriminate|auto]).
  cbn [bind]. do 2 eexists. split; [reflexivity|]. split; [|split; [reflexivity|split; [reflexivity|exists t'; unfold lastev; cbn [t_push t_set_events t_events t_set_open]; apply last_snoc; reflexivity]]]. split; [split; [|split; [|split]]|split; [|split]].
  - assert (Hz' : zip src (lf' :: g :: fs) y q) by (eapply fsim_zip; eauto).
    apply (zip_close src lf' g fs y q (Sp pos pos) Hz'); auto; [repeat split; auto|]. cbn [lf' rename f_nd f_body nloose loose_ok]. destruct t' eqn:Et'; [exact I|].
    destruct Hli as [Hli _]. unfold lnd in Hli. rewrite Hnd in Hli. destruct Hli as [[]|Hli]; auto.
  - reflexivity.
  - exact D8.
  - change (t_secs s = secs (g :: fs)). rewrite Hs. cbn [secs]. destruct (f_ic lf) eqn:Ei; rewrite ?app_nil_r; auto. destruct (Hsec _ _ eq_refl).
  - cbn [t_push t_set_events t_events t_set_open]. rewrite flatten_addb. cbn [flatten]. unfold closed. rewrite !app_assoc. reflexivity.
  - change (lin (t_pblank s) False (addb g (closed lf' (Sp pos pos)) :: fs)). apply lin_close. destruct Hli as [Hli1 Hli2]. split.
    + unfold lnd in *. rewrite Hnd in Hli1. cbn [lf' rename f_nd f_body]. intros [K|K]; apply Hli1; auto.
    + assert (E : forall P : Prop, (P \/ hasb (f_evs lf)) -> P \/ hasb (f_evs lf')).
      { intros P [K|[sp K]]; [auto|right]. exists sp. unfold f_evs in *. cbn [lf' rename f_pre f_nd f_sp f_body]. apply in_app_or in K. apply in_or_app. destruct K as [K|[K|K]]; [auto|discriminate K|right; right; exact K]. }
      eapply lin_weaken; [exact Hli2|apply E|auto].
  - cbn [t_push t_set_events t_events t_set_open]. apply walk_snoc; [|apply opart_exit]. rewrite He in Hwk. eapply walk_ksim; [apply vis_ksim; apply fsim_ksim; exact Hfs| |exact Hwk]. auto.
Qed.
