(** * PTree3: containers *)
From Verif Require Import Base Lex Attr Block Lib PSafe SpecAttr PAttr SpecBlock PBlock1 PBlock2 PBlock3 PBlock4 PGram SpecView PView PTree1 PTree2.
Local Open Scope nat_scope.

(** The panics a document can cause: a heading marker of 65536 characters, nesting 65536 deep. *)
Definition lim (src : bytes) (w : string) : Prop :=
  (w = "block.rs:428"%string /\ exists a n b, src = a ++ repeat "#"%char n ++ b /\ (65536 <= N.of_nat n)%N) \/
  (w = "block.rs:630"%string /\ (65536 <= N.of_nat (2 * length src + 3))%N).

(** What may come last before the first of the lines. *)
Definition nxl (src : bytes) (s : tstate) (ls : list span) : Prop :=
  match ls with [] => True | l :: _ => forall k sp, identify (slice src l) = Ok (k, sp) -> nxt s k end.
Lemma nxl_quiet src s ls : quiet (lastev s) -> nxl src s ls.
Proof. intros H. destruct ls; [exact I|]. intros k sp _ b _. apply H. Qed.
Definition rec_ok (src : bytes) (rec : tstate -> list span -> res tstate) (ls : list span) : Prop :=
  forall s f fs lo hi, BD src s [] f fs XFlow lo -> lines_ok src lo ls hi -> viewed src (view_of src (f :: fs)) ls -> nxl src s ls ->
  safe (lim src) (fun s' => exists pl' f' fs', BD src s' pl' f' fs' XFlow hi /\ grow f f' /\ fsim fs fs') (rec s ls).

Lemma addb_nil f : addb f [] = f.
Proof. destruct f. unfold addb. cbn. rewrite app_nil_r. reflexivity. Qed.
Lemma addb_addb f a b : addb (addb f a) b = addb f (a ++ b).
Proof. unfold addb. cbn. rewrite app_assoc. reflexivity. Qed.

Lemma close_inner_ok src s pl f fs x pos p : BD src s pl f fs x pos -> pos <= p -> span_ok src (Sp p p) ->
  exists s' b, close_inner_list s p = Ok s' /\ inv src s' (addb f b :: fs) x p.
Proof.
  intros (Hx & Hn & H) Hp Hsp. unfold close_inner_list. destruct pl as [|lf [|]]; [| |contradiction].
  - exists s, []. rewrite addb_nil. split; [|eapply inv_pos; eauto]. pose proof H as ((_ & Ho & Hl & _) & _).
    destruct (t_lists s) as [|l ls] eqn:El; [auto|]. apply lcor_below in Hl; auto. rewrite Ho, opens_length. cbn [length].
    replace (Nat.leb _ _) with true by (symmetry; apply Nat.leb_le; lia). cbn [assert bind].
    replace (Nat.eqb _ _) with false by (symmetry; apply Nat.eqb_neq; lia). auto.
  - destruct H as (ty & t & (Hnd & Hic & Hfx & Hpre & Hfsp) & H). pose proof H as ((Hz & Ho & Hl & Hs) & He & Hli & Hwk).
    cbn [lcor] in Hl. rewrite Hnd in Hl. destruct (t_lists s) as [|l ls] eqn:El; [contradiction|].
    pose proof Hl as (D1 & D2 & D3 & D4 & D5 & D6 & D7 & D8 & D9 & D10).
    rewrite Ho, opens_length, D1. rewrite Nat.leb_refl. cbn [assert bind length]. rewrite Nat.eqb_refl.
    assert (H' : inv src (t_set_loose (t_set_blank s false) false) (lf :: f :: fs) (XList (lt_class ty)) pos) by (eapply inv_same; eauto; discriminate).
    destruct (close_list_ok src _ lf f fs (XList (lt_class ty)) pos l ls p ty t H' Hnd) with (s0 := t_set_lists (t_set_loose (t_set_blank s false) false) ls) as (s' & b & E & Hi & Ha & _); auto.
    + intros L q. rewrite Hic. discriminate.
    + exact I.
    + exists s', b. split; [exact E|]. rewrite Hfx, Hic, flow_aft in Hi by auto. exact Hi.
Qed.

Definition plain (y : ctx) : Prop := aft y XFlow = y.
Lemma flow_plain x : flow x -> plain x.
Proof. intros [->|[l ->]]; reflexivity. Qed.
Lemma list_plain c : plain (XList c).
Proof. reflexivity. Qed.

Lemma tail_ok src s pl nf g gs y hi sp_end : BD src s pl nf (g :: gs) XFlow hi -> f_x nf = y -> plain y -> f_ic nf = XFlow ->
  hi <= ss sp_end -> span_ok src sp_end -> span_ok src (Sp (ss sp_end) (ss sp_end)) -> node_text src y (f_nd nf) (f_sp nf) sp_end ->
  exists s' b, (let! s7 := close_inner_list s (ss sp_end) in t_exit s7 sp_end) = Ok s' /\ inv src s' (addb g b :: gs) y (se sp_end) /\
    (seen (BExit (f_nd nf)) = true -> lastev s' = Some (BExit (f_nd nf))).
Proof.
  intros HB Hx Hy Hic Hhi Hse Hss Hnt. destruct (close_inner_ok _ _ _ _ _ _ _ _ HB Hhi Hss) as (s7 & b & E & Hi). rewrite E. cbn [bind].
  destruct HB as (_ & Hn & _).
  destruct (inv_exit src s7 (addb nf b) g gs XFlow (ss sp_end) sp_end Hi) as (s' & E' & Hi' & _ & _ & Hev); auto.
  - exact I.
  - intros L p. cbn [addb f_ic]. rewrite Hic. discriminate.
  - cbn [addb f_x f_nd f_sp]. rewrite Hx. exact Hnt.
  - cbn [addb f_ic f_x] in Hi'. rewrite Hx, Hic, Hy in Hi'. do 2 eexists. split; [exact E'|]. split; [exact Hi'|]. intros Hsn. unfold lastev. rewrite Hev. apply last_snoc. exact Hsn.
Qed.

(** Blocks in a new container without a term before it. *)
Lemma core_ok src rec s g gs y pos nf ls hi sp_end :
  inv src s (g :: gs) y pos -> plain y -> f_pre nf = [] -> f_body nf = [] -> f_x nf = y -> f_lo nf = pos -> f_ic nf = XFlow ->
  frame_ok src (view_of src (g :: gs)) nf -> placed nf (g :: gs) -> notlist nf -> lines_ok src (se (f_sp nf)) ls hi ->
  hi <= ss sp_end -> span_ok src sp_end -> span_ok src (Sp (ss sp_end) (ss sp_end)) -> rec_ok src rec ls -> node_text src y (f_nd nf) (f_sp nf) sp_end -> viewed src (view_of src (nf :: g :: gs)) ls ->
  opart (lastev s) (BEnter (f_nd nf)) -> seen (BEnter (f_nd nf)) = true ->
  safe (lim src) (fun s' => (exists b g' gs', inv src s' (addb g' b :: gs') y (se sp_end) /\ fsim (g :: gs) (g' :: gs')) /\ lastev s' = Some (BExit (f_nd nf)))
    (let! s5 := rec (t_enter s (f_nd nf) (f_sp nf)) ls in let! s7 := close_inner_list s5 (ss sp_end) in t_exit s7 sp_end).
Proof.
  intros Hi Hy Hpre Hb Hx Hlo Hic Hf Hpl Hn Hls Hhi Hse Hss Hrec Hnt Hvw Hop Hsn.
  pose proof (inv_enter src s (g :: gs) y pos nf Hi Hpre Hb Hx Hlo Hf Hpl Hn) as He.
  rewrite Hic in He. specialize (He ltac:(discriminate) Hop).
  eapply safe_bind.
  - apply (Hrec _ nf (g :: gs) (se (f_sp nf)) hi); [|exact Hls|exact Hvw|apply nxl_quiet; unfold lastev; cbn [t_enter t_set_open t_push t_set_events t_events]; rewrite last_snoc by exact Hsn; apply quiet_enter]. split; [left; auto|]. split; [auto|]. exact He.
  - intros s5 (pl' & f' & fs' & HB & [b ->] & Hfs). inversion Hfs as [|? nd ? gs' Hsim Hgs]; subst.
    destruct (tail_ok src s5 pl' (addb nf b) (rename g nd) gs' (f_x nf) hi sp_end HB) as (s' & b' & E & Hi' & Hla); auto.
    rewrite E. cbn [safe]. split; [exists b', (rename g nd), gs'; auto|]. apply Hla. cbn [addb f_nd]. clear - Hsn. destruct (f_nd nf) as [ [] | ]; try reflexivity; discriminate Hsn.
Qed.

(** ** Opening a list *)
Lemma open_list_ok src s pl f fs x pos indent ty lb start : BD src s pl f fs x pos -> takes pl (KListItem indent ty lb) -> lt_ok ty ->
  pos <= start -> span_ok src (Sp start start) -> item_at src start ty -> t_pblank s = false -> nxt s (KListItem indent ty lb) ->
  safe (lim src) (fun s' => nxt s' (KListItem indent ty lb) /\ exists lf ty' t, lframe lf ty' t x /\ lt_class ty' = lt_class ty /\ inv src s' (lf :: f :: fs) (XList (lt_class ty)) start)
    (maybe_open_list s (KListItem indent ty lb) start).
Proof.
  intros HB Ht Hok Hp Hsp Hat Hpb Hnx. pose proof HB as (Hx & Hn & H). unfold maybe_open_list. destruct pl as [|lf [|]]; [| |contradiction].
  - pose proof H as ((Hz & Ho & Hl & Hs) & He & Hli & Hwk).
    replace (match t_lists s with [] => true | l :: _ => Nat.ltb (ol_depth l) (length (t_open s)) end) with true.
    2:{ destruct (t_lists s) as [|l ls]; [auto|]. apply lcor_below in Hl; auto. rewrite Ho, opens_length. cbn [length]. symmetry. apply Nat.ltb_lt. lia. }
    cbn [t_enter t_set_open t_open t_push t_set_events t_lists length].
    pose proof (zip_depth _ _ _ _ Hz (sq_okend_flow _ Hx)) as Hd. rewrite Ho, opens_length.
    assert (Hd' : length (f :: fs) <= 2 * pos + 1) by (destruct Hx as [->|[l ->]]; exact Hd).
    assert (Hsl : start <= length src) by apply Hsp.
    unfold to_u16. destruct (N.ltb_spec (N.of_nat (S (length (f :: fs)))) 65536) as [Hlt|Hge]; cbn [bind safe].
    2:{ right. split; [auto|]. clear -Hd' Hp Hsl Hge. lia. }
    set (lf := Fr [] (NCont (BList ty true)) (Sp start start) (XList (lt_class ty)) x start []).
    split.
    { intros b _. change (opart (lastk None (vis (t_events s ++ [BE (BEnter (NCont (BList ty true))) (Sp start start)]))) b). rewrite last_snoc by reflexivity. apply quiet_enter. }
    exists lf, ty, true. split; [repeat split|]. split; [auto|]. split; [split; [|split; [|split]]|split; [|split]].
    + assert (Hz' : zip src (f :: fs) x start) by (inversion Hz; subst; constructor; auto; eapply sq_hi; eauto).
      constructor; cbn [lf f_x f_lo f_ic f_sp f_body se].
      * exact Hz'.
      * eapply frame_cont; [apply ci_list; auto|rewrite flow_aft; auto|cbn; lia|auto].
      * right. cbn [f_x f_nd f_ic]. split; [apply sq_okend_flow; auto|]. right; right. exists ty, true. auto.
      * constructor. lia.
    + change (length (t_events s) :: t_open s = f_at lf (f :: fs) :: opens (f :: fs)). rewrite Ho, He. unfold f_at. cbn [lf f_pre length]. rewrite Nat.add_0_r. reflexivity.
    + cbn [t_set_lists t_lists lcor lf f_nd ol_depth ol_event ol_start ol_prev]. split; [reflexivity|]. split.
      * change (length (t_events s) = f_at lf (f :: fs)). unfold f_at. cbn [lf f_pre length]. rewrite He, Nat.add_0_r. reflexivity.
      * split; [auto|]. split; [auto|]. split; [auto|]. split; [auto|]. split; [auto|]. split; [exact Hl|]. split; [exact Hat|reflexivity].
    + change (t_secs s = secs (f :: fs) ++ []). rewrite app_nil_r. exact Hs.
    + change (t_events s ++ [BE (BEnter (NCont (BList ty true))) (Sp start start)] = flatten (lf :: f :: fs)). rewrite He. reflexivity.
    + change (lin (t_pblank s) False (lf :: f :: fs)). split; [|eapply lin_weaken; [exact Hli|intros []|auto]].
      unfold lnd. cbn [lf f_nd]. rewrite Hpb. intros [K|K]; discriminate K.
    + change (walk None (vis (t_events s ++ [BE (BEnter (NCont (BList ty true))) (Sp start start)]))). apply walk_snoc; [exact Hwk|]. apply Hnx. left. eauto.
  - destruct H as (ty1 & t & Hlf & H). pose proof Hlf as (Hnd & Hic & Hfx & Hpre & Hfsp). pose proof H as ((Hz & Ho & Hl & Hs) & He & Hli & Hwk).
    cbn [lcor] in Hl. rewrite Hnd in Hl. destruct (t_lists s) as [|l ls] eqn:El; [contradiction|]. destruct Hl as (D1 & _).
    rewrite Ho, opens_length, D1. cbn [length]. rewrite Nat.ltb_irrefl. cbn [safe].
    cbn [takes] in Ht. rewrite Hic in Ht. injection Ht as Ht. split; [exact Hnx|]. exists lf, ty1, t. split; [auto|]. split; [auto|]. rewrite <- Ht. eapply inv_pos; eauto.
Qed.
