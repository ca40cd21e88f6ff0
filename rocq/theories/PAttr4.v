(** * PAttr4: the recogniser: independence of splitting, agreement with the grammar and the parser *)
From Verif Require Import Base Attr Lib SpecAttr PAttr PAttr2 PAttr3.
Local Open Scope nat_scope.
Local Open Scope char_scope.

Lemma pstep_dec st c : {pstep st c = AInvalid} + {pstep st c = ADone} + {live (pstep st c)}.
Proof. destruct (pstep st c); auto; right; lv. Qed.

Definition live_upto (s : bytes) (st : astate) (m : nat) : Prop :=
  forall j, j < m -> live (drun (firstn j s) st).

Lemma live_upto_cons c s st m : live st -> live_upto s (pstep st c) m -> live_upto (c :: s) st (S m).
Proof.
  intros Hl H [|j] Hj; [exact Hl|]. unfold drun; cbn [firstn fold_left].
  rewrite dstep_live by auto. apply H. lia.
Qed.

Lemma validator_spec s : forall k st, live st ->
  (exists m, 0 < m <= length s /\ validator_loop s k st = Ok (Some (k + m), ADone)
             /\ drun (firstn m s) st = ADone /\ live_upto s st m) \/
  (exists m, 0 < m <= length s /\ validator_loop s k st = Ok (Some 0, AInvalid)
             /\ drun (firstn m s) st = AInvalid /\ live_upto s st m) \/
  (validator_loop s k st = Ok (None, drun s st) /\ live_upto s st (S (length s))).
Proof.
  induction s as [|c s IH]; intros k st Hl.
  { right; right. split; auto. intros [|j] Hj; [auto|simpl in Hj; lia]. }
  cbn [validator_loop]. rewrite step_live by auto. cbn [bind].
  destruct (pstep_dec st c) as [[E|E]|E].
  - right; left. exists 1. simpl. rewrite E. split; [lia|]. split; auto. split.
    + unfold drun; simpl. rewrite dstep_live by auto. auto.
    + intros [|j] Hj; [auto|lia].
  - left. exists 1. rewrite E. split; [simpl; lia|]. split; [f_equal; f_equal; f_equal; lia|]. split.
    + unfold drun; simpl. rewrite dstep_live by auto. auto.
    + intros [|j] Hj; [auto|lia].
  - assert (Hm : forall (x y z : res (option nat * astate)),
        match pstep st c with ADone => x | AInvalid => y | _ => z end = z)
      by (intros; destruct E; destruct (pstep st c); congruence).
    rewrite Hm.
    assert (Hd : forall t, drun (c :: t) st = drun t (pstep st c)).
    { intros t. unfold drun; cbn [fold_left]. rewrite dstep_live by auto. reflexivity. }
    destruct (IH (S k) _ E) as [(m & H1 & H2 & H3 & H4)|[(m & H1 & H2 & H3 & H4)|(H2 & H4)]].
    + left. exists (S m). simpl length. split; [lia|]. split; [rewrite H2; do 3 f_equal; lia|].
      cbn [firstn]. rewrite Hd. split; auto. apply live_upto_cons; auto.
    + right; left. exists (S m). simpl length. split; [lia|]. split; auto.
      cbn [firstn]. rewrite Hd. split; auto. apply live_upto_cons; auto.
    + right; right. rewrite H2, Hd. split; auto. simpl length. apply live_upto_cons; auto.
Qed.

(** ** Feeding chunk by chunk *)
Lemma validator_live s k st r st' : live st -> validator_loop s k st = Ok (r, st') -> r = None -> live st'.
Proof.
  intros Hl H ->. destruct (validator_spec s k st Hl) as [(m & _ & H2 & _)|[(m & _ & H2 & _)|(H2 & H4)]];
    rewrite H2 in H; try discriminate. injection H as <-.
  specialize (H4 (length s) ltac:(lia)). rewrite firstn_all in H4. exact H4.
Qed.
Lemma validator_loop_app s t k st : live st ->
  validator_loop (s ++ t) k st =
  (let! (r, st') := validator_loop s k st in
   match r with Some n => Ok (Some n, st') | None => validator_loop t (k + length s) st' end).
Proof.
  revert k st; induction s as [|c s IH]; intros k st Hl.
  - simpl. rewrite Nat.add_0_r. reflexivity.
  - simpl app. cbn [validator_loop]. rewrite step_live by auto. cbn [bind].
    destruct (pstep_dec st c) as [[E|E]|E]; [rewrite E; reflexivity|rewrite E; reflexivity|].
    assert (Hm : forall (x y z : res (option nat * astate)),
        match pstep st c with ADone => x | AInvalid => y | _ => z end = z)
      by (intros; destruct E; destruct (pstep st c); congruence).
    rewrite !Hm. rewrite IH by auto. simpl length. replace (S k + length s) with (k + S (length s)) by lia. reflexivity.
Qed.
Lemma validator_loop_shift s k st : live st ->
  validator_loop s k st = (let! (r, st') := validator_loop s 0 st in Ok (shift k r, st')).
Proof.
  intros Hl. 
  destruct (validator_spec s k st Hl) as [(m & H1 & H2 & H3 & H4)|[(m & H1 & H2 & H3 & H4)|(H2 & H4)]];
  destruct (validator_spec s 0 st Hl) as [(m' & H1' & H2' & H3' & H4')|[(m' & H1' & H2' & H3' & H4')|(H2' & H4')]];
  rewrite H2, H2'; cbn [bind]; auto.
  - assert (m = m').
    { destruct (Nat.lt_trichotomy m m') as [L|[|L]]; auto.
      - specialize (H4' m L). rewrite H3 in H4'. destruct H4'; congruence.
      - specialize (H4 m' L). rewrite H3' in H4. destruct H4; congruence. }
    subst m'. destruct m; [lia|]. reflexivity.
  - exfalso. destruct (Nat.lt_trichotomy m m') as [L|[|L]].
    + specialize (H4' m L). rewrite H3 in H4'. destruct H4'; congruence.
    + subst; congruence.
    + specialize (H4 m' L). rewrite H3' in H4. destruct H4; congruence.
  - exfalso. specialize (H4' m ltac:(lia)). rewrite H3 in H4'. destruct H4'; congruence.
  - exfalso. destruct (Nat.lt_trichotomy m m') as [L|[|L]].
    + specialize (H4' m L). rewrite H3 in H4'. destruct H4'; congruence.
    + subst; congruence.
    + specialize (H4 m' L). rewrite H3' in H4. destruct H4; congruence.
  - exfalso. specialize (H4' m ltac:(lia)). rewrite H3 in H4'. destruct H4'; congruence.
  - exfalso. specialize (H4 m' ltac:(lia)). rewrite H3' in H4. destruct H4; congruence.
  - exfalso. specialize (H4 m' ltac:(lia)). rewrite H3' in H4. destruct H4; congruence.
Qed.

Theorem feed_concat chunks : forall st, live st -> feed st chunks = validator_parse st (concat chunks).
Proof.
  induction chunks as [|c cs IH]; intros st Hl; [reflexivity|].
  simpl concat. unfold validator_parse. rewrite validator_loop_app by auto. simpl feed.
  unfold validator_parse. destruct (validator_loop c 0 st) as [[r st']| |] eqn:E; cbn [bind]; auto.
  destruct r as [n|]; auto.
  assert (Hl' : live st') by (eapply validator_live; eauto).
  rewrite IH by auto. unfold validator_parse. symmetry. apply validator_loop_shift; auto.
Qed.

(** ** Agreement with the grammar *)
Lemma gset_first s m : 0 < m <= length s -> drun (firstn m s) AStart = ADone -> live_upto s AStart m ->
  exists a, gset (firstn m s) a.
Proof.
  intros Hm Hd Hl. destruct (proj2 (gsets_drun (firstn m s)) Hd) as [a G].
  inversion G as [t a0 Gi E|t a0 t' a' Gi G' E]; subst.
  { exists a. exists t. auto. }
  exfalso.
  assert (Hp : exists b, gsets ("{" :: t) b) by (exists a0; constructor; auto).
  apply gsets_drun in Hp.
  assert (Hlen : S (length t) < m).
  { destruct (gsets_open _ _ G') as [u ->].
    apply (f_equal (@length _)) in E. simpl in E. rewrite app_length, firstn_length in E. simpl in E. lia. }
  assert (Hpre : firstn (S (length t)) s = "{" :: t).
  { replace (firstn (S (length t)) s) with (firstn (S (length t)) (firstn m s)).
    - rewrite <- E. cbn [firstn]. f_equal. rewrite firstn_app, firstn_all, Nat.sub_diag. simpl. apply app_nil_r.
    - rewrite firstn_firstn. f_equal. lia. }
  specialize (Hl _ Hlen). rewrite Hpre, Hp in Hl. destruct Hl; congruence.
Qed.
Lemma gset_drun s a : gset s a -> drun s AStart = ADone.
Proof. intros (t & -> & G). apply gsets_drun. exists a. constructor; auto. Qed.

Lemma live_upto_noset s m : live_upto s AStart m -> forall j a, j < m -> ~ gset (firstn j s) a.
Proof. intros H j a Hj G. apply gset_drun in G. specialize (H j Hj). rewrite G in H. destruct H; congruence. Qed.

Lemma live_upto_app s t st m :
  live_upto s st (S (length s)) -> live_upto t (drun s st) m -> live_upto (s ++ t) st (length s + m).
Proof.
  intros H1 H2 j Hj. destruct (Nat.leb_spec j (length s)) as [L|L].
  - rewrite firstn_app. replace (j - length s) with 0 by lia. simpl. rewrite app_nil_r. apply H1. lia.
  - rewrite firstn_app, firstn_all2 by lia. rewrite drun_app. apply H2. lia.
Qed.
Lemma completion_live st : live st -> live_upto (completion st) st (length (completion st)).
Proof.
  intros [H1 H2] j Hj. destruct st; simpl in Hj; try congruence;
    repeat (destruct j as [|j]; [lv|]); lia.
Qed.

Theorem recogniser_spec s :
  exists r st, validator_parse AStart s = Ok (r, st) /\
  match r with
  | Some 0 => forall t j a, ~ gset (firstn j (s ++ t)) a
  | Some n => n <= length s /\ (exists a, gset (firstn n s) a) /\ (forall j a, j < n -> ~ gset (firstn j s) a)
  | None => (forall j a, ~ gset (firstn j s) a) /\ (exists t a, gset (s ++ t) a)
  end.
Proof.
  unfold validator_parse.
  destruct (validator_spec s 0 AStart ltac:(lv)) as [(m & H1 & H2 & H3 & H4)|[(m & H1 & H2 & H3 & H4)|(H2 & H4)]];
    rewrite H2; eexists; eexists; (split; [reflexivity|]).
  - simpl. destruct m as [|m]; [lia|]. split; [lia|]. split.
    + apply gset_first; auto.
    + apply live_upto_noset; auto.
  - intros t j a G. apply gset_drun in G.
    destruct (Nat.ltb_spec j m) as [L|L].
    + rewrite firstn_app in G. replace (j - length s) with 0 in G by lia. simpl in G. rewrite app_nil_r in G.
      specialize (H4 j L). rewrite G in H4. destruct H4; congruence.
    + replace (firstn j (s ++ t)) with (firstn m s ++ skipn m (firstn j (s ++ t))) in G.
      * rewrite drun_app, H3, drun_invalid in G. discriminate.
      * replace (firstn m s) with (firstn m (firstn j (s ++ t))); [apply firstn_skipn|].
        rewrite firstn_firstn, Nat.min_l by lia. rewrite firstn_app. replace (m - length s) with 0 by lia.
        simpl. apply app_nil_r.
  - split.
    + intros j a. destruct (Nat.leb_spec j (length s)) as [L|L].
      * apply (live_upto_noset _ _ H4). lia.
      * rewrite firstn_all2 by lia. rewrite <- (firstn_all s) at 1. apply (live_upto_noset _ _ H4). lia.
    + assert (Hl : live (drun s AStart)).
      { specialize (H4 (length s) ltac:(lia)). rewrite firstn_all in H4. exact H4. }
      exists (completion (drun s AStart)). set (t := completion (drun s AStart)).
      assert (Hd : drun (s ++ t) AStart = ADone) by (rewrite drun_app; apply completion_ok; apply Hl).
      cut (exists a, gset (firstn (length (s ++ t)) (s ++ t)) a); [rewrite firstn_all; auto|]. apply gset_first.
      * destruct (length (s ++ t)) eqn:E; [|lia]. apply length_zero_iff_nil in E. rewrite E in Hd. discriminate.
      * rewrite firstn_all. exact Hd.
      * rewrite app_length. apply live_upto_app; auto. apply completion_live; auto.
Qed.

(** [valid], used for block attributes, gives the same answers. *)
Lemma valid_validator s : forall n st, live st ->
  (let! (k, st') := valid_loop s n st in Ok (match st' with ADone => k | _ => 0 end)) =
  (let! (r, _) := validator_loop s n st in Ok (match r with Some k => k | None => 0 end)).
Proof.
  induction s as [|c s IH]; intros n st Hl.
  - simpl. destruct Hl. destruct st; congruence.
  - cbn [valid_loop validator_loop]. rewrite step_live by auto. cbn [bind].
    destruct (pstep_dec st c) as [[E|E]|E]; [rewrite E; reflexivity|rewrite E; reflexivity|].
    specialize (IH (S n) _ E). destruct E. destruct (pstep st c); try congruence; exact IH.
Qed.
Theorem attr_valid_validator s :
  attr_valid s = (let! (r, _) := validator_parse AStart s in Ok (match r with Some k => k | None => 0 end)).
Proof. apply valid_validator. lv. Qed.

(** ** Parsing chunk by chunk *)
Lemma arun_live s : forall pos st p a, ainv st p a -> live_upto s st (S (length s)) ->
  exists p' a', ainv (drun s st) p' a' /\
    arun s pos st p a = (AOk (pos + length s), AP a' (drun s st)) /\
    (forall t q, acc (s ++ t) st p a = Some q -> acc t (drun s st) p' a' = Some q).
Proof.
  induction s as [|c s IH]; intros pos st p a Hi Hl.
  - exists p, a. simpl. rewrite Nat.add_0_r. auto.
  - assert (Hst : live st) by apply Hi.
    assert (Hd : forall t, drun (c :: t) st = drun t (pstep st c)).
    { intros t. unfold drun; cbn [fold_left]. rewrite dstep_live by auto. reflexivity. }
    assert (Hl1 : live (pstep st c)).
    { specialize (Hl 1 ltac:(simpl; lia)). cbn [firstn] in Hl. rewrite Hd in Hl. exact Hl. }
    assert (Hl2 : live_upto s (pstep st c) (S (length s))).
    { intros j Hj. specialize (Hl (S j) ltac:(simpl; lia)). cbn [firstn] in Hl. rewrite Hd in Hl. exact Hl. }
    destruct (IH (S pos) (pstep st c) _ _ (ainv_step _ _ _ _ Hi Hl1) Hl2) as (p' & a' & H1 & H2 & H3).
    exists p', a'. rewrite Hd. split; auto. split.
    + cbn [arun]. cbv zeta. rewrite match_live by auto. rewrite H2. f_equal. f_equal. simpl; lia.
    + intros t q. cbn [app acc]. cbv zeta. rewrite match_live by auto. apply H3.
Qed.
(** A run that ends in [ADone] exactly at the end. *)
Lemma arun_done s : forall pos st p a q, live st -> live_upto s st (length s) -> drun s st = ADone ->
  acc s st p a = Some q -> arun s pos st p a = (AOk (pos + length s), AP q ADone).
Proof.
  induction s as [|c s IH]; intros pos st p a q Hst Hl Hd Ha; [discriminate|].
  assert (Hdd : forall t, drun (c :: t) st = drun t (pstep st c)).
  { intros t. unfold drun; cbn [fold_left]. rewrite dstep_live by auto. reflexivity. }
  rewrite Hdd in Hd. cbn [arun acc] in *. cbv zeta in *.
  destruct s as [|d s].
  - simpl in Hd. rewrite Hd in *. simpl. injection Ha as <-. f_equal. f_equal. lia.
  - assert (Hl1 : live (pstep st c)).
    { specialize (Hl 1 ltac:(simpl; lia)). cbn [firstn] in Hl. rewrite Hdd in Hl. exact Hl. }
    rewrite match_live in Ha by auto. rewrite match_live by auto. rewrite (IH (S pos) (pstep st c) _ _ q); auto.
    + f_equal. f_equal. simpl; lia.
    + intros j Hj. specialize (Hl (S j) ltac:(simpl in *; lia)). cbn [firstn] in Hl. rewrite Hdd in Hl. exact Hl.
Qed.

Lemma after_nl s st : live st -> live_upto (s ++ [NL]) st (S (length (s ++ [NL]))) ->
  ignores (drun (s ++ [NL]) st) = true.
Proof.
  intros Hst Hl. rewrite drun_app.
  assert (H1 : live (drun s st)).
  { specialize (Hl (length s)). rewrite firstn_app, firstn_all, Nat.sub_diag in Hl. simpl in Hl.
    rewrite app_nil_r in Hl. apply Hl. rewrite app_length; simpl; lia. }
  assert (H2 : live (dstep (drun s st) NL)).
  { specialize (Hl (length (s ++ [NL])) ltac:(lia)). rewrite firstn_all, drun_app in Hl. exact Hl. }
  change (drun [NL] (drun s st)) with (dstep (drun s st) NL).
  clear Hl Hst. revert H1 H2. generalize (drun s st). intros x [N1 N2] [N3 N4].
  destruct x; try reflexivity; try congruence; exfalso; (apply N4; reflexivity) || (apply N3; reflexivity).
Qed.

Lemma live_upto_split s t st m : live_upto (s ++ t) st (length s + m) -> 0 < m ->
  live_upto s st (S (length s)) /\ live_upto t (drun s st) m.
Proof.
  intros H Hm. split.
  - intros j Hj. specialize (H j ltac:(lia)). rewrite firstn_app in H.
    replace (j - length s) with 0 in H by lia. simpl in H. rewrite app_nil_r in H. exact H.
  - intros j Hj. specialize (H (length s + j) ltac:(lia)). rewrite firstn_app, firstn_all2 in H by lia.
    replace (length s + j - length s) with j in H by lia. rewrite drun_app in H. exact H.
Qed.

Lemma parse_chunks_run chunks : forall c st a q,
  Forall wfb (chunks ++ [c]) -> Forall (fun l => exists l', l = l' ++ [NL]) chunks -> c <> [] ->
  ignores st = true -> ainv st [] a ->
  live_upto (concat (chunks ++ [c])) st (length (concat (chunks ++ [c]))) ->
  drun (concat (chunks ++ [c])) st = ADone ->
  acc (concat (chunks ++ [c])) st [] a = Some q ->
  parse_chunks (chunks ++ [c]) (AP a st) = Ok (AP q ADone).
Proof.
  induction chunks as [|l chunks IH]; intros c st a q Hw Hn Hc Hig Hi Hl Hd Ha.
  - simpl in *. rewrite app_nil_r in *. inv Hw.
    rewrite aparser_parse_arun by auto. cbn [bind].
    rewrite (arun_done c 0 st [] a q); auto. apply Hi.
  - cbn [app concat parse_chunks] in *. inv Hw. inv Hn. destruct H3 as [l' ->].
    set (rest := concat (chunks ++ [c])) in *.
    assert (Hr : 0 < length rest).
    { unfold rest. rewrite concat_app, app_length. simpl. rewrite app_nil_r. destruct c; [congruence|simpl; lia]. }
    rewrite app_length in Hl. apply live_upto_split in Hl; auto. destruct Hl as [Hl1 Hl2].
    rewrite aparser_parse_arun by auto. cbn [bind].
    destruct (arun_live (l' ++ [NL]) 0 st [] a Hi Hl1) as (p' & a' & Hi' & -> & Hacc).
    apply IH; auto.
    + apply after_nl; auto. apply Hi.
    + destruct Hi' as (? & ? & ?). repeat split; auto.
      * apply H.
      * apply H.
      * intros Hq. pose proof (after_nl l' st ltac:(apply Hi) Hl1) as X. revert Hq X.
        destruct (drun (l' ++ [NL]) st); simpl; discriminate.
    + rewrite drun_app in Hd. exact Hd.
    + rewrite (acc_pend _ _ [] p') by (apply after_nl; auto; apply Hi). apply Hacc. exact Ha.
Qed.

(** What the recogniser accepts, the parser accepts, line by line as well as at once. *)
Theorem accepted_parses chunks c n st : Forall wfb (chunks ++ [c]) ->
  Forall (fun l => exists l', l = l' ++ [NL]) chunks -> c <> [] ->
  validator_parse AStart (concat (chunks ++ [c])) = Ok (Some n, st) -> n = length (concat (chunks ++ [c])) ->
  exists a, gset (concat (chunks ++ [c])) a /\
            parse_chunks (chunks ++ [c]) (AP [] AStart) = Ok (AP a ADone).
Proof.
  intros Hw Hn Hc Hv Hlen. set (s := concat (chunks ++ [c])) in *.
  assert (Hpos : 0 < length s).
  { unfold s. rewrite concat_app, app_length. simpl. rewrite app_nil_r. destruct c; [congruence|simpl; lia]. }
  unfold validator_parse in Hv.
  destruct (validator_spec s 0 AStart ltac:(lv)) as [(m & H1 & H2 & H3 & H4)|[(m & H1 & H2 & H3 & H4)|(H2 & H4)]];
    rewrite H2 in Hv; try discriminate; injection Hv as <- <-; [|lia].
  simpl in Hlen. subst m. rewrite firstn_all in H3.
  assert (G : exists a, gset s a) by (rewrite <- (firstn_all s); apply gset_first; rewrite ?firstn_all; auto).
  destruct G as [a G]. exists a. split; auto.
  apply parse_chunks_run; auto using ainv_start.
  destruct G as (t & Et & G). fold s. rewrite Et.
  rewrite (gsets_acc _ a); [reflexivity|]. constructor; auto.
Qed.
