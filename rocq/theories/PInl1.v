(** * PInl1: inline attribute sets that span lines *)
From Verif Require Import Base Lex Attr Inline Lib SpecAttr PAttr PAttr2 PAttr3 PAttr4 PSafe PBlock2 PLex PBlock3 PBlock4.
Local Open Scope nat_scope.

(** ** The attribute parser, chunk by chunk, over several adjacent sets *)
Lemma dstep_start_done c : dstep AStart c = dstep ADone c.
Proof. unfold dstep, pstep. cbn. destruct (beq c "{"); reflexivity. Qed.
Lemma drun_cons c s st : drun (c :: s) st = drun s (dstep st c).
Proof. reflexivity. Qed.
Definition sim (v d : astate) : Prop := v = d \/ (v = AStart /\ d = ADone).
Lemma drun_sim s v d : s <> [] -> sim v d -> drun s v = drun s d.
Proof.
  intros Hs [->|[-> ->]]; auto. destruct s as [|c s]; [congruence|]. rewrite !drun_cons, dstep_start_done. reflexivity.
Qed.
Lemma acc_brace c s p a q : acc (c :: s) AStart p a = Some q -> c = "{"%char.
Proof.
  cbn [acc]. cbv zeta. unfold pstep. cbn. destruct (beq c "{") eqn:E; [intros _; apply beq_eq; auto|discriminate].
Qed.
Lemma arun_pre s : forall pos st p a t q, ainv st p a -> acc (s ++ t) st p a = Some q -> live (drun s st) ->
  exists p' a', ainv (drun s st) p' a' /\ arun s pos st p a = (AOk (pos + length s), AP a' (drun s st)) /\
    acc t (drun s st) p' a' = Some q.
Proof.
  induction s as [|c s IH]; intros pos st p a t q Hi Ha Hl.
  - exists p, a. cbn. rewrite Nat.add_0_r. auto.
  - assert (Hst : live st) by apply Hi. rewrite drun_cons, dstep_live in * by auto.
    cbn [app acc] in Ha. cbv zeta in Ha. cbn [arun]. cbv zeta.
    destruct (pstep_dec st c) as [[E|E]|E].
    + rewrite E in Ha. discriminate.
    + rewrite E in *. destruct s as [|d s]; [destruct Hl; cbn in *; congruence|].
      cbn [app] in Ha. destruct (beq d "{") eqn:Ed; [|discriminate].
      assert (Hd : drun (d :: s) ADone = drun (d :: s) AStart) by (rewrite !drun_cons, dstep_start_done; reflexivity).
      rewrite Hd in *. cbn [starts_c]. rewrite Ed.
      destruct (IH (S pos) AStart _ _ t q (ainv_start _ _) Ha Hl) as (p' & a' & H1 & H2 & H3).
      exists p', a'. split; [exact H1|]. split; [|exact H3]. rewrite H2. f_equal. f_equal. cbn [length]. lia.
    + rewrite match_live in Ha by auto. rewrite match_live by auto.
      destruct (IH (S pos) _ _ _ t q (ainv_step _ _ _ _ Hi E) Ha Hl) as (p' & a' & H1 & H2 & H3).
      exists p', a'. split; [exact H1|]. split; [|exact H3]. rewrite H2. f_equal. f_equal. cbn [length]. lia.
Qed.
Lemma dstep_nl x : live (dstep x NL) \/ dstep x NL = AInvalid.
Proof. destruct x; cbn; (left; lv) || (right; reflexivity). Qed.
Lemma dstep_nl_ignores x : live (dstep x NL) -> ignores (dstep x NL) = true.
Proof. destruct x; cbn; intros [H1 H2]; auto; try congruence. Qed.
Lemma acc_some_drun s st p a q : live st -> acc s st p a = Some q -> drun s st = ADone.
Proof. intros Hl H. apply (acc_drun s st p a Hl). congruence. Qed.

Lemma parse_chunks_sets chunks : forall c st a q,
  Forall wfb (chunks ++ [c]) -> Forall (fun l => l = [] \/ exists l', l = l' ++ [NL]) chunks ->
  ignores st = true -> ainv st [] a -> acc (concat (chunks ++ [c])) st [] a = Some q ->
  parse_chunks (chunks ++ [c]) (AP a st) = Ok (AP q ADone).
Proof.
  induction chunks as [|l chunks IH]; intros c st a q Hw Hn Hig Hi Ha.
  - cbn in *. rewrite app_nil_r in *. inv Hw. rewrite aparser_parse_arun by auto. cbn [bind].
    pose proof (verdict_acc c 0 st [] a ltac:(apply Hi)) as Hv. rewrite Ha in Hv. unfold verdict in Hv.
    destruct (arun c 0 st [] a) as [r [a' s']]. cbn [fst snd ap_state ap_attrs] in Hv. destruct r as [n|]; [|discriminate].
    destruct (Nat.eqb n _ && astate_eqb s' ADone) eqn:E; [|discriminate]. apply andb_prop in E. destruct E as [_ E].
    apply astate_eqb_eq in E. subst s'. injection Hv as ->. reflexivity.
  - cbn [app concat parse_chunks] in *. inv Hw. inv Hn. rewrite aparser_parse_arun by auto. cbn [bind].
    match goal with H : l = [] \/ _ |- _ => destruct H as [->|[l' ->]] end.
    + cbn [arun]. apply IH; auto.
    + assert (Hd : drun ((l' ++ [NL]) ++ concat (chunks ++ [c])) st = ADone) by (eapply acc_some_drun; [apply Hi|exact Ha]).
      rewrite drun_app in Hd.
      assert (Hx : drun (l' ++ [NL]) st = dstep (drun l' st) NL) by (rewrite drun_app; reflexivity).
      assert (Hl : live (drun (l' ++ [NL]) st)).
      { rewrite Hx in *. destruct (dstep_nl (drun l' st)) as [|E]; auto. rewrite E, drun_invalid in Hd. discriminate. }
      destruct (arun_pre (l' ++ [NL]) 0 st [] a _ q Hi Ha Hl) as (p' & a' & Hi' & -> & Hacc).
      assert (Hig' : ignores (drun (l' ++ [NL]) st) = true) by (rewrite Hx in *; apply dstep_nl_ignores; auto).
      apply IH; auto.
      * destruct Hi' as (? & ? & ?). split; [auto|]. split; [auto|].
        intros Hq. revert Hq Hig'. destruct (drun (l' ++ [NL]) st); cbn; discriminate.
      * rewrite (acc_pend _ _ [] p') by auto. exact Hacc.
Qed.

(** ** The text scanned so far *)
Definition nthl (LL : list span) (m : nat) : span := nth m LL (Sp 0 0).
(** The text of lines [0..m-1] and of line [m] up to [e]. *)
Definition text (src : bytes) (LL : list span) (e m : nat) : bytes :=
  concat (map (slice src) (firstn m LL)) ++ slice src (Sp (ss (nthl LL m)) e).
Fixpoint eolsx (src : bytes) (l : list span) : Prop :=
  match l with [] => True | x :: r => (eol src (se x) \/ Forall (fun y => ss y = se y) r) /\ eolsx src r end.

Lemma slice_nil src a : slice src (Sp a a) = [].
Proof. unfold slice. cbn. rewrite Nat.sub_diag. reflexivity. Qed.
Lemma text_start src LL m : m < length LL -> text src LL (ss (nthl LL m)) m = concat (map (slice src) (firstn m LL)).
Proof. intros H. unfold text. rewrite slice_nil, app_nil_r. reflexivity. Qed.
Lemma nthl_error LL m l : nth_error LL m = Some l -> nthl LL m = l.
Proof. unfold nthl. intros H. apply nth_error_nth. auto. Qed.
Lemma nthl_some LL m : m < length LL -> nth_error LL m = Some (nthl LL m).
Proof. intros H. unfold nthl. apply nth_error_nth'. auto. Qed.
Lemma span_eta sp : Sp (ss sp) (se sp) = sp.
Proof. destruct sp; reflexivity. Qed.
Lemma text_next src LL m : S m < length LL ->
  text src LL (ss (nthl LL (S m))) (S m) = text src LL (se (nthl LL m)) m.
Proof.
  intros H. rewrite text_start by auto. unfold text. rewrite (firstn_snoc m LL (nthl LL m)) by (apply nthl_some; lia).
  rewrite map_app, concat_app. cbn [map concat]. rewrite app_nil_r, span_eta. reflexivity.
Qed.
Lemma text_grow src LL m a b : ss (nthl LL m) <= a -> a <= b -> text src LL b m = text src LL a m ++ slice src (Sp a b).
Proof. intros H1 H2. unfold text. rewrite <- app_assoc, slice_app by auto. reflexivity. Qed.
Lemma text_app src LL P e m : m < length LL -> text src (LL ++ P) e m = text src LL e m.
Proof.
  intros H. unfold text, nthl. rewrite firstn_app, app_nth1 by auto. replace (m - length LL) with 0 by lia. rewrite app_nil_r. reflexivity.
Qed.

Definition accepted (src : bytes) (LL : list span) (e m : nat) : Prop :=
  m < length LL /\ ss (nthl LL m) < e /\ e <= se (nthl LL m) /\ drun (text src LL e m) AStart = ADone.

Lemma dstep_done x c : dstep x c = ADone -> c = "}"%char.
Proof.
  intros H. assert (E : beq c "}" = true); [|apply beq_eq; auto].
  revert H. destruct x; cbn; unfold pstep; cbn; repeat match goal with |- context [if ?b then _ else _] => destruct b eqn:? end; intros; try discriminate; auto.
Qed.
Lemma accepted_last src LL e m : accepted src LL e m -> Forall (span_ok src) LL -> nth_error src (e - 1) = Some "}"%char.
Proof.
  intros (H1 & H2 & H3 & H4) Hs.
  assert (Hso : span_ok src (nthl LL m)) by (rewrite Forall_forall in Hs; apply Hs; eapply nth_error_In; apply nthl_some; auto).
  destruct Hso as (_ & Hso & _).
  destruct (nth_error src (e - 1)) as [c|] eqn:E; [|apply nth_error_None in E; lia].
  replace e with (S (e - 1)) in H4 by lia. rewrite (text_grow src LL m (e - 1)) in H4 by lia.
  rewrite (slice_snoc src (e - 1) (e - 1) c) in H4 by (auto; lia). rewrite slice_nil in H4. cbn [app] in H4.
  rewrite drun_app in H4. apply dstep_done in H4. congruence.
Qed.
Lemma accepted_boundary src LL e m : wfb src -> accepted src LL e m -> Forall (span_ok src) LL -> boundary src e = true.
Proof.
  intros Hw H Hs. pose proof (accepted_last _ _ _ _ H Hs) as E. destruct H as (_ & H & _). replace e with (S (e - 1)) by lia.
  eapply wfb_after; eauto.
Qed.

(** ** Parsing an accepted text *)
Lemma parse_attr_lines_chunks src e ls : forall p,
  Forall (fun l => span_ok src (Sp (ss l) (Nat.min e (se l)))) ls ->
  parse_attr_lines src e ls p = (let! p' := parse_chunks (map (fun l => slice src (Sp (ss l) (Nat.min e (se l)))) ls) p in Ok (ap_attrs p')).
Proof.
  induction ls as [|l ls IH]; intros p H; [reflexivity|]. inv H. cbn [parse_attr_lines map parse_chunks].
  rewrite span_ok_ssub by auto. cbn [bind]. destruct (aparser_parse p _) as [[[n|n] p']| |]; cbn [bind]; auto.
Qed.
Lemma chain_nth_le lo LL hi i j : chain lo LL hi -> i < j -> j < length LL -> se (nthl LL i) <= ss (nthl LL j).
Proof.
  revert lo i j; induction LL as [|l LL IH]; intros lo i j H Hij Hj; cbn in Hj; [lia|].
  destruct H as (H1 & H2 & H3). destruct j as [|j]; [lia|]. destruct i as [|i].
  - unfold nthl. cbn. clear IH. assert (Hgen : forall LL lo j, chain lo LL hi -> j < length LL -> lo <= ss (nth j LL (Sp 0 0))).
    { clear. induction LL as [|l LL IH]; intros lo j H Hj; cbn in Hj; [lia|]. destruct H as (H1 & H2 & H3).
      destruct j as [|j]; cbn; [auto|]. specialize (IH _ j H3). lia. }
    apply Hgen; auto. lia.
  - apply (IH (se l) i j); auto; lia.
Qed.
Lemma eolsx_nth src LL i j : eolsx src LL -> i < j -> j < length LL -> ss (nthl LL j) < se (nthl LL j) -> eol src (se (nthl LL i)).
Proof.
  revert i j; induction LL as [|l LL IH]; intros i j H Hij Hj Hn; cbn in Hj; [lia|]. destruct H as [H1 H2].
  destruct j as [|j]; [lia|]. destruct i as [|i].
  - destruct H1 as [|H1]; auto. exfalso. rewrite Forall_forall in H1. specialize (H1 (nthl LL j)).
    unfold nthl in Hn. cbn in Hn. fold (nthl LL j) in Hn. assert (ss (nthl LL j) = se (nthl LL j)); [|lia]. apply H1.
    eapply nth_error_In. apply nthl_some. lia.
  - apply (IH i j); auto; lia.
Qed.
Lemma map_ext_firstn {A C} (f g : A -> C) (l : list A) d n : (forall i, i < n -> i < length l -> f (nth i l d) = g (nth i l d)) ->
  map f (firstn n l) = map g (firstn n l).
Proof.
  revert n; induction l as [|x l IH]; intros [|n] H; cbn; auto. f_equal.
  - apply (H 0); cbn; lia.
  - apply IH. intros i Hi Hl. apply (H (S i)); cbn; lia.
Qed.
Lemma nth_firstn {A} (l : list A) n i d : i < n -> nth i (firstn n l) d = nth i l d.
Proof. revert n i; induction l as [|x l IH]; intros [|n] [|i] H; cbn; auto; try lia. apply IH. lia. Qed.
Lemma Forall_firstn_nth {A} (P : A -> Prop) (l : list A) d n : (forall i, i < n -> i < length l -> P (nth i l d)) -> Forall P (firstn n l).
Proof.
  intros H. apply Forall_forall. intros x Hx. apply (In_nth _ _ d) in Hx. destruct Hx as (i & Hi & <-).
  rewrite firstn_length in Hi. rewrite nth_firstn by lia. apply H; lia.
Qed.

Lemma attr_lines_ok src lo LL hi e m : wfb src -> Forall (span_ok src) LL -> chain lo LL hi -> eolsx src LL ->
  accepted src LL e m ->
  exists a, parse_attr_lines src e (firstn (S m) LL) (AP [] AStart) = Ok a /\ gsets (text src LL e m) a.
Proof.
  intros Hw Hs Hc He Ha. pose proof (accepted_boundary _ _ _ _ Hw Ha Hs) as Hb. destruct Ha as (H1 & H2 & H3 & H4).
  assert (Hso : forall i, i < length LL -> span_ok src (nthl LL i)).
  { intros i Hi. rewrite Forall_forall in Hs. apply Hs. eapply nth_error_In. apply nthl_some. auto. }
  assert (Hbef : forall i, i < m -> Nat.min e (se (nthl LL i)) = se (nthl LL i)).
  { intros i Hi. pose proof (chain_nth_le _ _ _ i m Hc Hi H1). lia. }
  assert (Hlast : Nat.min e (se (nthl LL m)) = e) by lia.
  destruct (proj2 (gsets_drun _) H4) as [a G]. exists a. split; [|exact G].
  assert (Hcl : forall i, i <= m -> span_ok src (Sp (ss (nthl LL i)) (Nat.min e (se (nthl LL i))))).
  { intros i Hi. destruct (Nat.eq_dec i m) as [->|Hne].
    - rewrite Hlast. destruct (Hso m H1) as (A1 & A2 & A3 & A4). repeat split; cbn; auto; lia.
    - rewrite Hbef by lia. rewrite span_eta. apply Hso. lia. }
  rewrite parse_attr_lines_chunks.
  2: { apply (Forall_firstn_nth _ _ (Sp 0 0)). intros i Hi Hl. apply Hcl. lia. }
  rewrite (firstn_snoc m LL (nthl LL m)) by (apply nthl_some; auto). rewrite map_app. cbn [map].
  rewrite (map_ext_firstn _ (slice src) LL (Sp 0 0)).
  2: { intros i Hi Hl. fold (nthl LL i). rewrite Hbef by auto. rewrite span_eta. reflexivity. }
  rewrite Hlast.
  rewrite (parse_chunks_sets _ _ AStart [] a); [reflexivity| | |reflexivity|apply ainv_start|].
  - apply Forall_app. split.
    + apply Forall_forall. intros b Hb'. apply in_map_iff in Hb'. destruct Hb' as (l & <- & Hl). apply wfb_slice; auto.
      rewrite Forall_forall in Hs. apply Hs. rewrite <- (firstn_skipn m LL). apply in_or_app. auto.
    + constructor; [|constructor]. apply wfb_slice; auto. specialize (Hcl m ltac:(lia)). rewrite Hlast in Hcl. exact Hcl.
  - apply Forall_forall. intros b Hb'. apply in_map_iff in Hb'. destruct Hb' as (l & <- & Hl).
    apply (In_nth _ _ (Sp 0 0)) in Hl. destruct Hl as (i & Hi & <-). rewrite firstn_length in Hi. rewrite nth_firstn by lia.
    fold (nthl LL i). destruct (Hso i ltac:(lia)) as (A1 & A2 & A3 & A4). destruct (Hso m H1) as (B1 & B2 & _).
    destruct (eolsx_nth src LL i m He ltac:(lia) H1 ltac:(lia)) as [E|[E1 E2]].
    { pose proof (chain_nth_le _ _ _ i m Hc ltac:(lia) H1). lia. }
    destruct (Nat.eq_dec (ss (nthl LL i)) (se (nthl LL i))) as [Ee|Ene].
    + left. destruct (nthl LL i) as [x y]. cbn in *. subst y. apply slice_nil.
    + right. exists (slice src (Sp (ss (nthl LL i)) (se (nthl LL i) - 1))).
      rewrite <- (slice_snoc src _ _ NL) by (auto; lia). f_equal. rewrite <- (span_eta (nthl LL i)) at 1. f_equal. lia.
  - unfold text in G. rewrite concat_app. cbn [concat]. rewrite app_nil_r. rewrite (gsets_acc _ _ G). reflexivity.
Qed.

(** ** The scanning loop *)
(** What is known about the validator's answer for line [m] read from [ls]. *)
Definition answer (src : bytes) (LL : list span) (m ls : nat) (r : option nat) (v : astate) : Prop :=
  match r with
  | None => live v /\ sim v (drun (text src LL (se (nthl LL m)) m) AStart)
  | Some 0 => True
  | Some (S k) => accepted src LL (ls + S k) m
  end.
Lemma validator_answer src LL m ls v : Forall (span_ok src) LL -> m < length LL -> ss (nthl LL m) <= ls -> ls <= se (nthl LL m) ->
  live v -> sim v (drun (text src LL ls m) AStart) ->
  exists r v', validator_parse v (slice src (Sp ls (se (nthl LL m)))) = Ok (r, v') /\ answer src LL m ls r v'.
Proof.
  intros Hs Hm H1 H2 Hl Hv. unfold validator_parse. set (s := slice src (Sp ls (se (nthl LL m)))).
  assert (Hso : span_ok src (nthl LL m)) by (rewrite Forall_forall in Hs; apply Hs; eapply nth_error_In; apply nthl_some; auto).
  destruct Hso as (A1 & A2 & _).
  assert (Hlen : length s = se (nthl LL m) - ls) by (apply slice_length; auto).
  destruct (validator_spec s 0 v Hl) as [(k & B1 & B2 & B3 & B4)|[(k & B1 & B2 & B3 & B4)|(B2 & B4)]]; rewrite B2; do 2 eexists; (split; [reflexivity|]).
  - cbn [Nat.add]. destruct k as [|k]; [lia|]. split; [auto|]. split; [lia|]. split; [lia|].
    rewrite (text_grow src LL m ls) by lia. rewrite drun_app.
    replace (slice src (Sp ls (ls + S k))) with (firstn (S k) s).
    + rewrite <- (drun_sim _ v); auto. destruct s; [cbn in B1; lia|discriminate].
    + unfold s, slice. cbn [ss se]. rewrite firstn_firstn. f_equal. lia.
  - exact I.
  - split.
    + specialize (B4 (length s) ltac:(lia)). rewrite firstn_all in B4. exact B4.
    + rewrite (text_grow src LL m ls) by lia. fold s. rewrite drun_app. destruct s as [|c s'] eqn:Es; [exact Hv|].
      left. apply drun_sim; [discriminate|auto].
Qed.

Definition acc_at (src : bytes) (LL : list span) (start : nat) (st : attr_state) : Prop :=
  (as_end st = start /\ as_lines st = 0) \/ (start < as_end st /\ accepted src LL (as_end st) (as_lines st)).

Lemma starts_c_slice src a e c : starts_c (slice src (Sp a e)) c = true -> nth_error src a = Some c.
Proof.
  intros H. destruct (Nat.lt_ge_cases a e) as [Hl|Hl].
  - rewrite <- (Nat.add_0_r a). change (a + 0) with (ss (Sp a e) + 0). rewrite <- slice_nth by (cbn; lia).
    destruct (slice src (Sp a e)) as [|d r]; [discriminate H|]. cbn in H. apply beq_eq in H. subst d. reflexivity.
  - unfold slice in H. cbn [ss se] in H. replace (e - a) with 0 in H by lia. discriminate H.
Qed.
Lemma attr_scan_ok src lo hi ahead complete l0 : wfb src ->
  let LL := l0 :: ahead in
  Forall (span_ok src) LL -> chain lo LL hi ->
  forall f r m ls st, answer src LL m ls r (as_val st) -> acc_at src LL (ss l0) st -> as_lines st <= m -> m < length LL ->
  ss (nthl LL m) <= ls -> ls <= se (nthl LL m) -> (length src - ls) + (length ahead - m) < f -> nth_error src (as_end st) = Some "{"%char ->
  exists out, attr_scan f src ahead complete r m ls (se (nthl LL m)) st = Ok out /\
  match out with
  | inl (m', le', st') => acc_at src LL (ss l0) st' /\ as_lines st' <= m' /\ m' < length LL /\ le' = se (nthl LL m') /\
                          as_elem st' = as_elem st /\ (as_lines st' = m' \/ nth_error src (as_end st') = Some "{"%char)
  | inr st' => complete = false /\ acc_at src LL (ss l0) st' /\ as_lines st' <= length ahead /\ as_elem st' = as_elem st /\
               answer src LL (length ahead) 0 None (as_val st') /\ nth_error src (as_end st') = Some "{"%char
  end.
Proof.
  intros Hw LL Hs Hc f. induction f as [|f IH]; intros r m ls st Ha Hac Hlm Hm H1 H2 Hf Hob; [lia|].
  assert (Hso : forall i, i < length LL -> span_ok src (nthl LL i)).
  { intros i Hi. rewrite Forall_forall in Hs. apply Hs. eapply nth_error_In. apply nthl_some. auto. }
  assert (Hlo : forall i, i < length LL -> ss l0 <= ss (nthl LL i)).
  { intros i Hi. destruct i as [|i]; [cbn; auto|]. pose proof (chain_nth_le _ _ _ 0 (S i) Hc ltac:(lia) Hi) as Hx.
    destruct (Hso 0 ltac:(cbn; lia)) as (Hy & _). change (nthl LL 0) with l0 in Hx, Hy. lia. }
  cbn [attr_scan]. destruct r as [[|k]|].
  - eexists. split; [reflexivity|]. cbn beta iota. auto 10.
  - assert (Hacc := Ha). pose proof (accepted_boundary _ _ _ _ Hw Hacc Hs) as Hb. destruct Ha as (A1 & A2 & A3 & A4).
    destruct (Hso m Hm) as (B1 & B2 & B3 & B4).
    rewrite span_ok_ssub. 2: { repeat split; cbn; auto; [lia|apply boundary_end]. }
    cbn [bind]. destruct (starts_c _ _) eqn:Est.
    + rewrite span_ok_ssub. 2: { repeat split; cbn; auto. }
      cbn [bind as_val as_elem].
      destruct (validator_answer src LL m (ls + S k) AStart Hs Hm ltac:(lia) ltac:(lia) ltac:(lv) ltac:(right; auto)) as (r' & v' & -> & Hr').
      cbn [bind]. specialize (Hlo m Hm).
      match goal with |- context [attr_scan f _ _ _ _ _ _ _ ?ST] => destruct (IH r' m (ls + S k) ST) as (out & E & Hout) end; auto; try lia.
      * right. cbn [as_end as_lines]. split; [lia|exact Hacc].
      * cbn [as_end]. eapply starts_c_slice; eauto.
      * exists out. split; [exact E|]. exact Hout.
    + eexists. split; [reflexivity|]. cbn [as_lines as_elem]. split; [|auto 10]. right. cbn [as_end as_lines].
      specialize (Hlo m Hm). split; [lia|exact Hacc].
  - destruct (nth_error ahead m) as [l|] eqn:En.
    + assert (Hl : S m < length LL) by (cbn; apply -> Nat.succ_lt_mono; apply nth_error_Some; congruence).
      assert (El : nthl LL (S m) = l) by (apply nthl_error; exact En).
      destruct Ha as [Hlv Hsim]. rewrite <- (text_next src LL m Hl) in Hsim. rewrite El in Hsim.
      assert (Hsl : span_ok src l) by (rewrite <- El; apply Hso; auto). rewrite span_ok_ssub by auto. cbn [bind].
      destruct (validator_answer src LL (S m) (ss l) (as_val st)) as (r' & v' & E & Hr'); auto.
      { rewrite El. lia. } { rewrite El. apply Hsl. }
      rewrite El, span_eta in E. rewrite E. cbn [bind].
      pose proof (chain_nth_le _ _ _ m (S m) Hc ltac:(lia) Hl) as Hch. rewrite El in Hch. destruct Hsl as (C1 & C2 & _).
      assert (m < length ahead) by (cbn in Hl; lia).
      match goal with |- context [attr_scan f _ _ _ _ _ _ _ ?ST] => destruct (IH r' (S m) (ss l) ST) as (out & E2 & Hout) end; auto; try (rewrite El; lia); try lia.
      * rewrite El in E2. replace (m + 1) with (S m) by lia. exists out. split; [exact E2|]. exact Hout.
    + apply nth_error_None in En. cbn in Hm. assert (m = length ahead) by lia. subst m.
      destruct complete; eexists; (split; [reflexivity|]).
      * cbn. auto 10.
      * split; [auto|]. split; [auto|]. split; [lia|]. split; [auto|]. split; [exact Ha|exact Hob].
Qed.
