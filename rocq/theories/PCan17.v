(** * PCan17: lines handed to the contents of blocks *)
From Verif Require Import Base Lex Attr Inline Block Doc Lib PSafe PIds SpecBlock PCan1 PCan2 PCan3 PCan12 PCan13 PCan14 PCan15 PCan16.
From Verif Require Import SpecCanon.
Local Open Scope nat_scope.

(** ** The lines of a text *)
Lemma lines_from_app l r : forall start pos, forallb (fun c => negb (beq c NL)) l = true ->
  lines_from (l ++ NL :: r) start pos = Sp start (S (pos + length l)) :: lines_from r (S (pos + length l)) (S (pos + length l)).
Proof.
  induction l as [|c l IH]; intros start pos H; cbn [app lines_from].
  - change (beq NL NL) with true. cbn [length]. rewrite Nat.add_0_r. reflexivity.
  - cbn in H. apply andb_prop in H as [H1 H2]. apply negb_true_iff in H1. rewrite H1, (IH _ _ H2). cbn [length]. rewrite <- !plus_n_Sm. reflexivity.
Qed.
Lemma full0 l : full 0 l = l ++ [NL].
Proof. destruct l; reflexivity. Qed.
Lemma lines_unlines L : Forall (fun l => forallb (fun c => negb (beq c NL)) l = true) L -> forall src n, skipn n src = unlines L ->
  n <= length src -> V src 0 (lines_from (unlines L) n n) L.
Proof.
  induction 1 as [|l L H1 H2 IH]; intros src n E Hn.
  - cbn [unlines flat_map lines_from]. rewrite Nat.ltb_irrefl. constructor.
  - unfold unlines in *. cbn [flat_map] in *. fold (unlines L) in *. rewrite <- app_assoc in *. cbn [app] in *. rewrite (lines_from_app l _ n n H1).
    assert (Hl : length src = n + (length l + S (length (unlines L)))).
    { pose proof (f_equal (@length ascii) E) as K. rewrite skipn_length, app_length in K. cbn in K. lia. }
    constructor.
    + rewrite full0. split; cbn [ss se].
      * unfold slice. cbn [ss se]. rewrite E. replace (S (n + length l) - n) with (length l + 1) by lia. rewrite firstn_app_2. reflexivity.
      * rewrite app_length. cbn. lia.
    + apply IH; [|lia]. replace (S (n + length l)) with (n + (length l + 1)) by lia. rewrite <- skipn_skipn, E.
      rewrite skipn_app, skipn_all2 by lia. replace (length l + 1 - length l) with 1 by lia. reflexivity.
Qed.
Lemma lines_doc bs : forallb blk_ok bs = true -> V (doc_src bs) 0 (lines (doc_src bs)) (blks_lines bs).
Proof.
  intros H. apply lines_unlines; [|reflexivity|lia]. eapply Forall_impl; [|apply blks_good, H]. intros l [A _]. exact A.
Qed.

Section Canon.
Variable src : bytes.
Notation at_ := (PCan15.at_ src).
Notation V := (PCan15.V src).

(** ** Continuation lines *)
Lemma trim_m_vis x : existsb (fun c => negb (is_ws c)) x = true -> trim_m is_ws x <> [].
Proof.
  intros H E. unfold trim_m in E.
  assert (K : exists c r, trim_start_m is_ws x = c :: r /\ is_ws c = false).
  { clear E. induction x as [|d x IH]; [discriminate|]. cbn in *. destruct (is_ws d) eqn:Ed; [auto|]. eauto. }
  destruct K as (c & r & K1 & K2). rewrite K1 in E. apply trim_end_nil' in E. cbn in E. rewrite K2 in E. discriminate.
Qed.
Lemma pad_notnl k x : k <= count_while (fun c => negb (beq c NL)) (repeat SP k ++ x).
Proof. induction k as [|k IH]; cbn; [lia|]. cbn in IH. lia. Qed.
Lemma trim_pad' k x : trim_start_m is_ws (repeat SP k ++ x) = trim_start_m is_ws x.
Proof. induction k as [|k IH]; [reflexivity|]. exact IH. Qed.

Lemma trim_end_keep a x : is_ws a = false -> trim_end_m is_ws (a :: x) = a :: trim_end_m is_ws x.
Proof. intros H. cbn. rewrite H. destruct (trim_end_m is_ws x); reflexivity. Qed.
Lemma cont_quote k n sp l : good l -> at_ sp (full k (quote_line l)) -> pc (fun sp' => at_ sp' (full 0 l)) (cont_line src KBlockquote n sp).
Proof.
  intros [_ Hg] Ha. unfold cont_line. eapply pc_bind; [apply pc_ssub|]. intros x Hx. destruct Ha as [Ha1 Ha2]. rewrite Ha1 in Hx. subst x.
  rewrite quote_line_full in *. unfold trim_m. rewrite !trim_pad'. destruct l as [|c l].
  - change (trim_start_m is_ws [">"%char; NL]) with [">"%char; NL]. change (trim_end_m is_ws [">"%char; NL]) with (B ">"). cbn [B list_ascii_of_string].
    change (bytes_eqb [">"%char] [">"%char]) with true. cbn iota.
    rewrite pad_len. cbn [bind]. apply pc_ok.
    assert (Nat.min (k + 1) (count_while (fun c => negb (beq c NL)) (repeat SP k ++ [">"%char; NL])) = k + 1) as ->.
    { change (repeat SP k ++ [">"%char; NL]) with (repeat SP k ++ [">"%char] ++ [NL]). clear. assert (k + 1 <= count_while (fun c => negb (beq c NL)) (repeat SP k ++ [">"%char] ++ [NL])); [|lia].
      induction k as [|k IH]; cbn in *; lia. }
    replace (k + 1) with (length (repeat SP k ++ [">"%char])) by (rewrite app_length, repeat_length; reflexivity). apply at_skip.
    rewrite <- app_assoc. split; assumption.
  - destruct Hg as [Hg|Hg]; [discriminate|].
    change (trim_start_m is_ws (">"%char :: SP :: (c :: l) ++ [NL])) with (">"%char :: SP :: (c :: l) ++ [NL]). rewrite trim_end_keep by reflexivity.
    assert (Ht : exists u, trim_end_m is_ws (SP :: (c :: l) ++ [NL]) = SP :: u).
    { cbn [trim_end_m]. destruct (trim_end_m is_ws ((c :: l) ++ [NL])) as [|d u] eqn:E; [|cbn; eauto]. exfalso.
      apply trim_end_nil' in E. rewrite forallb_app in E. apply andb_prop in E as [E _]. clear - Hg E. apply existsb_exists in Hg as (x & X1 & X2). rewrite forallb_forall in E. rewrite (E x X1) in X2. discriminate. }
    destruct Ht as (u & ->). rewrite pad_len. change (bytes_eqb (">"%char :: SP :: u) (B ">")) with false.
    change (starts_c (">"%char :: SP :: u) ">" && hd_is is_ws (skipn 1 (">"%char :: SP :: u))) with true. cbn [bind]. apply pc_ok.
    assert (Nat.min (k + 2) (count_while (fun c => negb (beq c NL)) (repeat SP k ++ ">"%char :: SP :: (c :: l) ++ [NL])) = k + 2) as ->.
    { clear. assert (k + 2 <= count_while (fun c => negb (beq c NL)) (repeat SP k ++ ">"%char :: SP :: (c :: l) ++ [NL])); [|lia].
      induction k as [|k IH]; cbn in *; lia. }
    replace (k + 2) with (length (repeat SP k ++ [">"%char; SP])) by (rewrite app_length, repeat_length; reflexivity). apply at_skip.
    rewrite <- app_assoc. split; assumption.
Qed.
Lemma cont_item k n i ty lb sp l : good l -> at_ sp (full k (indent_line (S n) l)) ->
  pc (fun sp' => at_ sp' (full 1 l)) (cont_line src (KListItem i ty lb) (k + n) sp).
Proof.
  intros [_ Hg] Ha. unfold cont_line. eapply pc_bind; [apply pc_ssub|]. intros x Hx. destruct Ha as [Ha1 Ha2]. rewrite Ha1 in Hx. subst x.
  rewrite indent_full in *. destruct l as [|c l].
  - cbn. rewrite Nat.add_0_r. apply pc_ok. destruct sp. split; assumption.
  - destruct Hg as [Hg|Hg]; [discriminate|].
    assert (Hv : existsb (fun c => negb (is_ws c)) (repeat SP (k + S n) ++ (c :: l) ++ [NL]) = true).
    { rewrite !existsb_app, Hg. cbn. apply orb_true_r. }
    pose proof (trim_m_vis _ Hv) as Hne. pose proof (ws_more (k + S n) ((c :: l) ++ [NL])) as Hw.
    destruct (trim_m is_ws (repeat SP (k + S n) ++ (c :: l) ++ [NL])); [congruence|]. cbn [bind]. apply pc_ok.
    rewrite (Nat.min_r _ (k + n)) by lia. pose proof (pad_notnl (k + S n) ((c :: l) ++ [NL])) as Hp. rewrite Nat.min_l by lia.
    replace (k + n) with (length (repeat SP (k + n))) by apply repeat_length. apply at_skip.
    assert (E : full 1 (c :: l) = [SP] ++ (c :: l) ++ [NL]) by reflexivity. rewrite E.
    assert (Ex : repeat SP (k + S n) ++ (c :: l) ++ [NL] = repeat SP (k + n) ++ [SP] ++ (c :: l) ++ [NL]).
    { replace (k + S n) with (k + n + 1) by lia. rewrite repeat_app, <- app_assoc. reflexivity. }
    rewrite Ex in Ha1, Ha2. split; assumption.
Qed.

Lemma mapr_F2 {A C D} (f : A -> res C) (R : A -> D -> Prop) (Q : C -> D -> Prop) sps ls :
  (forall a d, List.In d ls -> R a d -> pc (fun c => Q c d) (f a)) -> Forall2 R sps ls -> pc (fun r => Forall2 Q r ls) (mapr f sps).
Proof.
  intros H HF. induction HF as [|a d sps ls H1 H2 IH]; [apply pc_ok; constructor|]. cbn [mapr].
  eapply pc_bind; [apply (H a d); [left; reflexivity|exact H1]|]. intros c Hc. eapply pc_bind; [apply IH; intros; apply H; auto; right; assumption|].
  intros r Hr. apply pc_ok. constructor; assumption.
Qed.

(** ** Lines of paragraphs and code *)
Lemma unindent_full k sp l : at_ sp (full k l) -> pc (fun sp' => at_ sp' (l ++ [NL])) (unindent src k sp).
Proof.
  intros [H1 H2]. unfold unindent. eapply pc_bind; [apply pc_bsub|]. intros x <-. apply pc_ok. rewrite H1.
  destruct l as [|c l].
  - cbn. rewrite Nat.min_0_r, Nat.add_0_r. destruct sp. split; assumption.
  - assert (Nat.min k (count_while ws_not_nl (full k (c :: l))) = k) as ->.
    { unfold full. assert (k <= count_while ws_not_nl (repeat SP k ++ (c :: l) ++ [NL])); [|lia]. clear. induction k as [|k IH]; cbn in *; lia. }
    replace k with (length (repeat SP k)) at 1 by apply repeat_length. apply at_skip. split; assumption.
Qed.
Lemma trim_start_line sp k l : line_ok l = true -> at_ sp (full k l) -> pc (fun sp' => at_ sp' (l ++ [NL])) (sp_trim_start src sp).
Proof.
  intros Hl [H1 H2]. destruct (line_ok_cons l Hl) as (c & r & -> & Hc). unfold sp_trim_start. eapply pc_bind; [apply pc_ssub|]. intros x <-. rewrite H1.
  unfold full. rewrite (trim_pad is_ws) by (cbn; auto). apply pc_ok.
  replace (se sp - length ((c :: r) ++ [NL])) with (ss sp + length (repeat SP k)) by (rewrite H2; unfold full; rewrite !app_length, repeat_length; lia).
  apply at_skip. split; assumption.
Qed.
Lemma last_snoc (l : bytes) c d : last (l ++ [c]) d = c.
Proof. induction l as [|x l IH]; [reflexivity|]. cbn. destruct (l ++ [c]) eqn:E; [destruct l; discriminate|]. exact IH. Qed.
Lemma trim_end_lineok sp l : line_ok l = true -> at_ sp (l ++ [NL]) -> pc (fun sp' => at_ sp' l) (sp_trim_end src sp).
Proof.
  intros Hl [H1 H2]. unfold sp_trim_end. eapply pc_bind; [apply pc_ssub|]. intros x <-. rewrite H1. apply pc_ok.
  assert (trim_end_m is_ws (l ++ [NL]) = l) as ->.
  { apply trim_end_snoc. intros c l' ->. unfold line_ok in Hl. destruct (l' ++ [c]) as [|d r] eqn:E; [destruct l'; discriminate|].
    apply andb_prop in Hl as [_ Hl]. apply negb_true_iff in Hl. rewrite <- E, last_snoc in Hl. exact Hl. }
  eapply at_take. split; eassumption.
Qed.
Lemma trim_end_word sp l : is_ws (last l SP) = false -> at_ sp (l ++ [NL]) -> pc (fun sp' => at_ sp' l) (sp_trim_end src sp).
Proof.
  intros Hl [H1 H2]. unfold sp_trim_end. eapply pc_bind; [apply pc_ssub|]. intros x <-. rewrite H1. apply pc_ok.
  assert (trim_end_m is_ws (l ++ [NL]) = l) as ->.
  { apply trim_end_snoc. intros c l' ->. rewrite last_last in Hl. exact Hl. }
  eapply at_take. split; eassumption.
Qed.
Lemma sp_nonempty sp x : at_ sp x -> x <> [] -> sp_empty sp = false.
Proof. intros [H1 H2] Hx. destruct (sp_empty sp) eqn:E; [|reflexivity]. exfalso. rewrite (sp_empty_slice src sp E) in H1. congruence. Qed.

Definition line_view (sp : span) (x : bytes) : Prop := at_ sp x /\ x <> [].
Lemma view_inlines sps xs : Forall2 line_view sps xs ->
  filter (fun l => negb (sp_empty l)) sps = sps /\ map (den src) (map (BE BInline) sps) = map SLine xs.
Proof.
  induction 1 as [|sp x sps xs [H1 H2] H IH]; [split; reflexivity|]. destruct IH as [I1 I2]. cbn [filter map].
  rewrite (sp_nonempty sp x H1 H2). cbn [negb]. rewrite I1, I2. split; [reflexivity|]. unfold den at 1. cbn. destruct H1 as [-> _]. reflexivity.
Qed.
Lemma map_last_snoc {A} (f : A -> res A) l x : map_last f (l ++ [x]) = let! y := f x in Ok (l ++ [y]).
Proof. unfold map_last. rewrite last_opt_app, butlast_app. reflexivity. Qed.
Lemma para_lines k sp0 sps l ls lf kd : (match kd with KParagraph => True | _ => False end) -> lf = FParagraph ->
  forallb line_ok (l :: ls) = true -> at_ sp0 (l ++ [NL]) -> V k sps ls ->
  pc (fun r => Forall2 line_view r (brk (l :: ls))) (leaf_lines src lf kd (sp0 :: sps)).
Proof.
  intros Hk -> Hl H0 HV. destruct kd; try contradiction. cbn [leaf_lines]. pose proof Hl as Hl'. cbn [forallb] in Hl'. apply andb_prop in Hl' as [Hl0 Hls]. rewrite forallb_forall in Hls.
  eapply pc_bind with (P := fun r => Forall2 (fun sp l => at_ sp (l ++ [NL])) r (l :: ls)).
  - eapply (mapr_F2 _ (fun sp l => exists k, at_ sp (full k l))).
    + intros a d Hd (k' & Hk'). eapply trim_start_line; [|exact Hk']. destruct Hd as [<-|Hd]; auto.
    + constructor; [exists 0; rewrite full0; exact H0|]. clear - HV. induction HV; constructor; eauto.
  - intros r Hr. inversion Hr as [|a ? r' ? Ha Hr']; subst.
    assert (sp_empty a = false) as -> by (eapply sp_nonempty; [exact Ha|destruct l; discriminate]). cbn [bind].
    clear - Hr Hl. remember (a :: r') as sps eqn:E0. remember (l :: ls) as L eqn:E1. assert (HL : L <> []) by (subst; discriminate). clear a r' E0 l ls E1.
    destruct (rev_case L) as [-> |(L' & y & ->)]; [congruence|]. apply Forall2_app_inv_r in Hr as (s1 & s2 & H1 & H2 & ->).
    inversion H2 as [|b ? ? ? Hb H3]; subst. inversion H3; subst. rewrite map_last_snoc. rewrite forallb_app in Hl. apply andb_prop in Hl as [Hl1 Hl2]. cbn in Hl2. rewrite andb_true_r in Hl2.
    eapply pc_bind; [apply (trim_end_lineok b y Hl2 Hb)|]. intros b' Hb'. apply pc_ok.
    assert (Eb : brk (L' ++ [y]) = map (fun l => l ++ [NL]) L' ++ [y]).
    { clear. induction L' as [|x L' IH]; [reflexivity|]. cbn [app map]. destruct (L' ++ [y]) eqn:E; [destruct L'; discriminate|]. rewrite <- IH. reflexivity. }
    rewrite Eb. apply Forall2_app.
    + clear - H1. induction H1; constructor; auto. split; [assumption|destruct y; discriminate].
    + constructor; [|constructor]. split; [exact Hb'|]. intros ->. discriminate Hl2.
Qed.
Lemma raw_snoc L y : raw_texts (L ++ [y]) = map (fun l => l ++ [NL]) L ++ [y].
Proof. induction L as [|x L IH]; [reflexivity|]. cbn [app map raw_texts]. rewrite IH. destruct (L ++ [y]) eqn:E; [destruct L; discriminate|reflexivity]. Qed.
Lemma code_lines k sps ls flen fk spec cl nst lf : raw_end spec ls = true -> V k sps ls ->
  pc (fun r => Forall2 line_view r (code_texts spec ls)) (leaf_lines src lf (KFenced k flen fk spec cl nst) sps).
Proof.
  intros Hs HV. cbn [leaf_lines]. eapply pc_bind with (P := fun r => Forall2 (fun sp l => at_ sp (l ++ [NL])) r ls).
  - eapply mapr_F2; [|exact HV]. intros a d _ Ha. apply unindent_full, Ha.
  - intros r Hr. unfold code_texts. destruct (starts_c spec "=") eqn:Es.
    2:{ apply pc_ok. clear - Hr. induction Hr; constructor; auto. split; [assumption|destruct y; discriminate]. }
    destruct (rev_case ls) as [-> |(L' & y & ->)]; [inversion Hr; subst; apply pc_ok; constructor|].
    apply Forall2_app_inv_r in Hr as (s1 & s2 & H1 & H2 & ->). inversion H2 as [|b ? ? ? Hb H3]; subst. inversion H3; subst. rewrite map_last_snoc, raw_snoc.
    assert (Hy : is_ws (last y SP) = false).
    { unfold raw_end in Hs. rewrite last_last in Hs. rewrite Es in Hs. destruct (L' ++ [y]) eqn:E; [destruct L'; discriminate|]. cbn [negb orb] in Hs. apply negb_true_iff in Hs. exact Hs. }
    eapply pc_bind; [apply (trim_end_word b y Hy Hb)|]. intros b' Hb'. apply pc_ok. apply Forall2_app.
    + clear - H1. induction H1; constructor; auto. split; [assumption|destruct y; discriminate].
    + constructor; [|constructor]. split; [exact Hb'|]. intros ->. discriminate Hy.
Qed.
End Canon.
