(** * PCan15: how many lines a block of canonical text takes *)
From Verif Require Import Base Lex Attr Inline Block Doc Lib PSafe PIds SpecBlock PCan1 PCan2 PCan3 PCan12 PCan13 PCan14.
From Verif Require Import SpecCanon.
Local Open Scope nat_scope.

Section Canon.
Variable src : bytes.

(** The span [sp] holds the text [x]. *)
Definition at_ (sp : span) (x : bytes) : Prop := slice src sp = x /\ se sp = ss sp + length x.
(** The lines [sps] hold the texts [ls], indented by [k]. *)
Definition V (k : nat) (sps : list span) (ls : list bytes) : Prop := Forall2 (fun sp l => at_ sp (full k l)) sps ls.

Lemma at_skip sp a b : at_ sp (a ++ b) -> at_ (Sp (ss sp + length a) (se sp)) b.
Proof.
  intros [H1 H2]. split; cbn [ss se]; [|rewrite app_length in H2; lia].
  unfold slice in *. cbn [ss se]. rewrite app_length in H2.
  rewrite <- skipn_skipn. replace (se sp - (ss sp + length a)) with (se sp - ss sp - length a) by lia.
  rewrite <- skipn_firstn_comm, H1. rewrite skipn_app, skipn_all, Nat.sub_diag. reflexivity.
Qed.
Lemma at_take sp a b : at_ sp (a ++ b) -> at_ (Sp (ss sp) (ss sp + length a)) a.
Proof.
  intros [H1 H2]. split; cbn [ss se]; [|reflexivity]. unfold slice in *. cbn [ss se]. rewrite app_length in H2.
  replace (ss sp + length a - ss sp) with (length a) by lia.
  assert (K : firstn (length a) (firstn (se sp - ss sp) (skipn (ss sp) src)) = a) by (rewrite H1, firstn_app, firstn_all, Nat.sub_diag; cbn; apply app_nil_r).
  rewrite firstn_firstn in K. replace (Nat.min (length a) (se sp - ss sp)) with (length a) in K by lia. exact K.
Qed.
Lemma V_app k sps a b : V k sps (a ++ b) -> exists s1 s2, sps = s1 ++ s2 /\ V k s1 a /\ V k s2 b.
Proof. intros H. apply Forall2_app_inv_r in H as (s1 & s2 & H1 & H2 & E). eauto. Qed.
Lemma V_cons k sp sps l ls : V k (sp :: sps) (l :: ls) -> at_ sp (full k l) /\ V k sps ls.
Proof. intros H. inversion H; auto. Qed.
Lemma V_len k sps a : V k sps a -> length sps = length a.
Proof. intros H. induction H; cbn; auto. Qed.
Lemma V_In k sps ls sp : V k sps ls -> List.In sp sps -> exists l, List.In l ls /\ slice src sp = full k l.
Proof.
  intros H. induction H as [|x y l l' H1 H2 IH]; intros K; [destruct K|]; destruct K as [-> |K].
  - exists y. split; [left; reflexivity|apply H1].
  - destruct (IH K) as (z & A & B). exists z. split; [right; exact A|exact B].
Qed.

(** Lines taken by a block, in pieces. *)
Lemma take_cont_step (I : bkind -> Prop) (Q : nat * bkind -> Prop) l1 : forall k l2, I k ->
  (forall k sp, I k -> List.In sp l1 -> pc (fun x => fst x = true /\ I (snd x)) (continues k (slice src sp))) ->
  (forall k', I k' -> pc (fun x => Q (length l1 + fst x, snd x)) (take_cont src k' l2)) -> pc Q (take_cont src k (l1 ++ l2)).
Proof.
  revert Q. induction l1 as [|sp l1 IH]; intros Q k l2 Hk H1 H2.
  - cbn [app]. eapply pc_weaken; [exact (H2 k Hk)|]. intros [n k'] K. exact K.
  - cbn [app take_cont]. eapply pc_bind; [apply pc_ssub|]. intros l <-. eapply pc_bind; [apply (H1 k sp Hk); left; reflexivity|].
    intros [b k1] [E K]. cbn in E, K. subst b.
    eapply pc_bind; [apply (IH (fun x => Q (S (fst x), snd x)) k1 l2 K)|].
    + intros k2 sp2 A1 A2. apply H1; auto. right. exact A2.
    + intros k' Hk'. exact (H2 k' Hk').
    + intros [n k''] K2. apply pc_ok. exact K2.
Qed.
Lemma take_cont_stop (Q : nat * bkind -> Prop) k l2 :
  (forall sp l, l2 = sp :: l -> pc (fun x => fst x = false /\ Q (0, snd x)) (continues k (slice src sp))) -> (l2 = [] -> Q (0, k)) ->
  pc Q (take_cont src k l2).
Proof.
  intros H1 H2. destruct l2 as [|sp l]; [apply pc_ok; auto|]. cbn [take_cont]. eapply pc_bind; [apply pc_ssub|]. intros x <-.
  eapply pc_bind; [apply (H1 sp l eq_refl)|]. intros [b k'] [E K]. cbn in E, K. subst b. apply pc_ok. exact K.
Qed.

(** The lines after a block start with a blank line, if there are any. *)
Definition stop (R : list bytes) : Prop := match R with [] => True | l :: _ => l = [] end.
Lemma stop_line k l2 R sp l : V k l2 R -> stop R -> l2 = sp :: l -> slice src sp = [NL].
Proof. intros H HR ->. inversion H as [|? ? ? ? H1 H2]; subst. cbn in HR. subst. apply H1. Qed.

Lemma metered_blank k line0 rest R : V k (line0 :: rest) ([] :: R) -> pc (eq (KAtom BBlankline, Sp 0 1, 1)) (metered src line0 rest).
Proof.
  intros H. inversion H as [|? ? ? ? [H1 _] _]; subst. unfold metered. eapply pc_bind; [apply pc_ssub|]. intros l <-. rewrite H1. cbn [full].
  rewrite identify_blank. cbn [bind]. eapply pc_bind; [apply (take_cont_stop (eq (0, KAtom BBlankline)))|].
  - intros sp l _. apply pc_ok. split; reflexivity.
  - reflexivity.
  - intros x <-. apply pc_ok. reflexivity.
Qed.
Lemma metered_rule k line0 rest R : V k (line0 :: rest) (B "***" :: R) -> pc (eq (KAtom BThematicBreak, Sp k (k + 3), 1)) (metered src line0 rest).
Proof.
  intros H. inversion H as [|? ? ? ? [H1 _] _]; subst. unfold metered. eapply pc_bind; [apply pc_ssub|]. intros l <-. rewrite H1.
  rewrite identify_rule. cbn [bind]. eapply pc_bind; [apply (take_cont_stop (eq (0, KAtom BThematicBreak)))|].
  - intros sp l _. apply pc_ok. split; reflexivity.
  - reflexivity.
  - intros x <-. apply pc_ok. reflexivity.
Qed.
Lemma line_ok_cons l : line_ok l = true -> exists c r, l = c :: r /\ is_ws c = false.
Proof.
  unfold line_ok. destruct l as [|c r]; [discriminate|]. intros H. apply andb_prop in H as [H _]. apply andb_prop in H as [H _]. apply andb_prop in H as [H _].
  apply negb_true_iff in H. eauto.
Qed.
Lemma metered_para k line0 rest l ls R : forallb line_ok (l :: ls) = true -> V k (line0 :: rest) ((l :: ls) ++ R) -> stop R ->
  pc (eq (KParagraph, Sp k k, length (l :: ls))) (metered src line0 rest).
Proof.
  intros Hl H HR. cbn [app] in H. inversion H as [|? ? ? ? [H1 _] H2]; subst. cbn [forallb] in Hl. apply andb_prop in Hl as [Hl0 Hl].
  unfold metered. eapply pc_bind; [apply pc_ssub|]. intros x <-. rewrite H1. rewrite identify_para by exact Hl0. cbn [bind].
  apply V_app in H2 as (s1 & s2 & -> & V1 & V2).
  eapply pc_bind; [apply (take_cont_step (eq KParagraph) (eq (length ls, KParagraph)))|].
  - reflexivity.
  - intros k0 sp <- Hin. destruct (V_In _ _ _ _ V1 Hin) as (y & Hy & ->). cbn [continues]. apply pc_ok. split; [|reflexivity]. cbn [fst].
    rewrite forallb_forall in Hl. specialize (Hl y Hy). rewrite blank_full. destruct (line_ok_cons y Hl) as (c & r & -> & Hc). rewrite line_ok_blank by exact Hl. reflexivity.
  - intros k' <-. apply take_cont_stop.
    + intros sp l2 E. rewrite (stop_line _ _ _ _ _ V2 HR E). apply pc_ok. split; [reflexivity|]. cbn [snd]. rewrite (V_len _ _ _ V1), Nat.add_0_r. reflexivity.
    + intros _. cbn [fst snd]. rewrite (V_len _ _ _ V1), Nat.add_0_r. reflexivity.
  - intros x <-. apply pc_ok. reflexivity.
Qed.
Lemma metered_quote k line0 rest ls R : ls <> [] -> V k (line0 :: rest) (map quote_line ls ++ R) -> stop R ->
  pc (eq (KBlockquote, Sp k (k + 1), length ls)) (metered src line0 rest).
Proof.
  intros Hne H HR. destruct ls as [|l ls]; [congruence|]. cbn [map app] in H. inversion H as [|? ? ? ? [H1 _] H2]; subst.
  unfold metered. eapply pc_bind; [apply pc_ssub|]. intros x <-. rewrite H1. rewrite identify_quote. cbn [bind].
  apply V_app in H2 as (s1 & s2 & -> & V1 & V2).
  eapply pc_bind; [apply (take_cont_step (eq KBlockquote) (eq (length ls, KBlockquote)))|].
  - reflexivity.
  - intros k0 sp <- Hin. destruct (V_In _ _ _ _ V1 Hin) as (y & Hy & ->). apply in_map_iff in Hy as (z & <- & _). cbn [continues].
    rewrite identify_quote. apply pc_ok. split; reflexivity.
  - intros k' <-. apply take_cont_stop.
    + intros sp l2 E. rewrite (stop_line _ _ _ _ _ V2 HR E). apply pc_ok. split; [reflexivity|]. cbn [snd]. rewrite (V_len _ _ _ V1), map_length, Nat.add_0_r. reflexivity.
    + intros _. cbn [fst snd]. rewrite (V_len _ _ _ V1), map_length, Nat.add_0_r. reflexivity.
  - intros x <-. apply pc_ok. reflexivity.
Qed.
Lemma identify_trim x y : trim_start_m ws_not_nl x = trim_start_m ws_not_nl y -> length x = length y ->
  identify x = identify y.
Proof. intros H1 H2. unfold identify. rewrite H1, H2. reflexivity. Qed.
Lemma identify_code k l : code_line l = true -> pc (fun x => tick_fence (fst x) = false) (identify (full k l)).
Proof.
  intros H. unfold code_line in H. apply andb_prop in H as [H H3]. apply andb_prop in H as [H1 H2]. apply negb_true_iff in H3.
  destruct l as [|a l]; [cbn [full]; rewrite identify_blank; apply pc_ok; reflexivity|].
  cbn [nonempty negb orb] in H2.
  assert (K : exists w c r, a :: l = w ++ c :: r /\ forallb ws_not_nl w = true /\ is_ws c = false /\ trim_start_m is_ws (a :: l) = c :: r).
  { revert H1 H2. clear. generalize (a :: l). intros x. induction x as [|d x IH]; intros H1 H2; [discriminate H2|].
    cbn [forallb existsb] in H1, H2. apply andb_prop in H1 as [Hd H1]. destruct (is_ws d) eqn:Ed.
    - destruct (IH H1 H2) as (w & c & r & -> & A1 & A2 & A3). exists (d :: w), c, r. cbn [app forallb trim_start_m]. unfold ws_not_nl at 1. rewrite Ed, Hd, A1. cbn. auto.
    - exists [], d, x. cbn. rewrite Ed. auto. }
  destruct K as (w & c & r & E & A1 & A2 & A3). rewrite A3 in H3. unfold full. rewrite E.
  set (y := repeat SP (k + length w) ++ c :: r ++ [NL]).
  assert (Ey : identify (repeat SP k ++ (w ++ c :: r) ++ [NL]) = identify y).
  { apply identify_trim.
    - unfold y. rewrite (trim_pad ws_not_nl (k + length w)) by (cbn; auto using ws_nl). rewrite <- app_assoc. cbn [app].
      assert (T : forall z, trim_start_m ws_not_nl (w ++ z) = trim_start_m ws_not_nl z) by (intros z; clear - A1; induction w as [|d w IH]; [reflexivity|]; cbn in *; apply andb_prop in A1 as [-> A1]; auto).
      assert (T2 : forall z, trim_start_m ws_not_nl (repeat SP k ++ z) = trim_start_m ws_not_nl z) by (intros z; clear; induction k as [|k IH]; [reflexivity|]; exact IH).
      rewrite T2, T. cbn. rewrite (ws_nl c A2). reflexivity.
    - unfold y. rewrite !app_length, !repeat_length. cbn. rewrite !app_length. cbn. lia. }
  cbn iota. rewrite Ey. unfold y. apply identify_no_fence; auto.
  revert H3. clear. destruct r as [|d [|e r]]; cbn [starts_with app B list_ascii_of_string]; intros H3;
    try exact H3; (destruct (beq "`" c); [|reflexivity]); cbn [andb] in *; try reflexivity; destruct (beq "`" d); try reflexivity; destruct r; exact H3.
Qed.
Lemma metered_code k line0 rest lang ls R : lang_ok lang = true -> forallb code_line ls = true ->
  V k (line0 :: rest) ((B "```" ++ lang) :: ls ++ B "```" :: R) ->
  pc (eq (KFenced k 3 (FenceCode "`") lang true None, Sp k (k + (4 + length lang)), 2 + length ls)) (metered src line0 rest).
Proof.
  intros Hlang Hl H. apply V_cons in H as [[H1 _] H2].
  unfold metered. eapply pc_bind; [apply pc_ssub|]. intros x <-. rewrite H1. rewrite identify_fence by exact Hlang. cbn [bind].
  apply V_app in H2 as (s1 & s2 & -> & V1 & V2). destruct s2 as [|sp2 s3]; [inversion V2|]. apply V_cons in V2 as [[H3 _] V3].
  eapply pc_bind; [apply (take_cont_step (eq (KFenced k 3 (FenceCode "`") lang false None)) (eq (1 + length ls, KFenced k 3 (FenceCode "`") lang true None)))|].
  - reflexivity.
  - intros k0 sp <- Hin. destruct (V_In _ _ _ _ V1 Hin) as (y & Hy & ->). cbn [continues].
    rewrite forallb_forall in Hl. eapply pc_bind; [apply identify_code, Hl, Hy|]. intros [k1 sp1] K. cbn [fst] in K. apply pc_ok. cbn [fst snd]. split; [reflexivity|].
    destruct k1; try reflexivity. destruct k0; [reflexivity|]. cbn in K. cbn [fence_kind_eqb]. rewrite K. reflexivity.
  - intros k' <-. cbn [take_cont]. eapply pc_bind; [apply pc_ssub|]. intros l <-. rewrite H3. cbn [continues].
    assert (Ei : identify (full k (B "```")) = Ok (KFenced k 3 (FenceCode "`") [] false None, Sp k (k + 4))) by (exact (identify_fence k [] eq_refl)).
    rewrite Ei. cbn [bind fence_kind_eqb]. change (beq "`" "`") with true. cbn [Nat.leb bytes_eqb andb].
    eapply pc_bind; [apply (take_cont_stop (eq (0, KFenced k 3 (FenceCode "`") lang true None)))|].
    + intros sp l _. apply pc_ok. split; reflexivity.
    + reflexivity.
    + intros x <-. apply pc_ok. cbn [fst snd]. rewrite (V_len _ _ _ V1). f_equal. lia.
  - intros x <-. apply pc_ok. reflexivity.
Qed.

(** List items. *)
(** What follows the lines of an item: nothing, or a line that is not indented; after a blank line,
    it may even be a paragraph. *)
Definition item_stop (k : nat) (lb : bool) (R : list bytes) : Prop :=
  match R with
  | [] => True
  | l :: _ => exists c r, l = c :: r /\ is_ws c = false /\ (lb = true \/ pc (fun x => is_para_kind (fst x) = false) (identify (full k l)))
  end.
Lemma ws_pad k c r : is_ws c = false -> length (repeat SP k ++ c :: r) - length (trim_start_m is_ws (repeat SP k ++ c :: r)) = k.
Proof. intros H. rewrite (trim_pad is_ws) by (cbn; auto). apply pad_len. Qed.
Lemma indent_full k n l : full k (indent_line n l) = match l with [] => [NL] | _ => repeat SP (k + n) ++ l ++ [NL] end.
Proof.
  destruct l as [|c l]; [reflexivity|]. cbn [indent_line]. unfold full. destruct (repeat SP n ++ c :: l) eqn:E; [destruct n; discriminate E|].
  rewrite <- E, repeat_app, <- !app_assoc. reflexivity.
Qed.
Lemma trim_start_le f (x : bytes) : length (trim_start_m f x) <= length x.
Proof. induction x as [|c x IH]; [cbn; lia|]. cbn. destruct (f c); cbn; lia. Qed.
Lemma ws_more n x : n <= length (repeat SP n ++ x) - length (trim_start_m is_ws (repeat SP n ++ x)).
Proof.
  assert (T2 : trim_start_m is_ws (repeat SP n ++ x) = trim_start_m is_ws x) by (clear; induction n as [|n IH]; [reflexivity|]; exact IH).
  rewrite T2, app_length, repeat_length. pose proof (trim_start_le is_ws x). lia.
Qed.
Definition tlb (tail : bool) : list bytes := if tail then [[]] else [].
Lemma item_blank k ty lb : continues (KListItem k ty lb) [NL] = Ok (true, KListItem k ty true).
Proof. cbn [continues]. rewrite identify_blank. reflexivity. Qed.
Lemma item_indented k ty lb n l : 0 < n -> pc (fun x => fst x = true /\ exists lb', snd x = KListItem k ty lb') (continues (KListItem k ty lb) (full k (indent_line n l))).
Proof.
  intros Hn. rewrite indent_full. destruct l as [|c l]; [rewrite item_blank; apply pc_ok; split; [reflexivity|eexists; reflexivity]|].
  cbn [continues]. apply pc_bind_eq. intros [next sp] _. apply pc_ok. cbn [fst snd]. split; [|eexists; reflexivity].
  pose proof (ws_more (k + n) ((c :: l) ++ [NL])) as K.
  assert ((k <? Datatypes.length (repeat SP (k + n) ++ (c :: l) ++ [NL]) - Datatypes.length (trim_start_m is_ws (repeat SP (k + n) ++ (c :: l) ++ [NL]))) = true) as ->
    by (apply Nat.ltb_lt; lia).
  rewrite orb_true_r. reflexivity.
Qed.
Lemma item_stops k ty lb sps R : V k sps R -> item_stop k lb R ->
  pc (fun x => fst x = 0 /\ exists lb', snd x = KListItem k ty lb') (take_cont src (KListItem k ty lb) sps).
Proof.
  intros HV HR. apply take_cont_stop.
  - intros sp l ->. inversion HV as [|? y ? ? [H1 _] _]; subst. cbn in HR. destruct HR as (c & r & -> & Hc & Hp). rewrite H1. cbn [continues].
    assert (Ef : full k (c :: r) = repeat SP k ++ c :: r ++ [NL]) by reflexivity. rewrite Ef in *. rewrite ws_pad by exact Hc.
    apply pc_bind_eq. intros [next spn] E. apply pc_ok. cbn [fst snd].
    pose proof (identify_nonblank k c (r ++ [NL]) Hc _ E) as K. cbn [fst] in K. rewrite K, Nat.ltb_irrefl. cbn [orb].
    split; [|split; [reflexivity|eexists; reflexivity]].
    destruct Hp as [-> |Hp]; [reflexivity|]. specialize (Hp _ E). cbn [fst] in Hp. rewrite Hp. apply andb_false_r.
  - intros _. split; [reflexivity|eexists; reflexivity].
Qed.
Lemma metered_item k line0 rest mk ty l ls tail R :
  pc (eq (KListItem k ty false, Sp k (k + length mk))) (identify (full k (mk ++ SP :: l))) ->
  V k (line0 :: rest) (hang mk (l :: ls) ++ tlb tail ++ R) -> item_stop k tail R ->
  pc (fun x => exists lb, x = (KListItem k ty lb, Sp k (k + length mk), S (length ls) + length (tlb tail))) (metered src line0 rest).
Proof.
  intros Hi H HR. cbn [hang app] in H. inversion H as [|? ? ? ? [H1 _] H2]; subst.
  unfold metered. eapply pc_bind; [apply pc_ssub|]. intros x <-. rewrite H1. eapply pc_bind; [exact Hi|]. intros x <-.
  apply V_app in H2 as (s1 & s2 & -> & V1 & V2). apply V_app in V2 as (s2' & s3 & -> & V2 & V3).
  eapply pc_bind; [apply (take_cont_step (fun k' => exists lb, k' = KListItem k ty lb /\ (tail = false -> True))
                                         (fun x => exists lb, x = (length ls + length (tlb tail), KListItem k ty lb)))|].
  - eauto.
  - intros k0 sp (lb & -> & _) Hin. destruct (V_In _ _ _ _ V1 Hin) as (y & Hy & ->). apply in_map_iff in Hy as (z & <- & _).
    eapply pc_weaken; [apply item_indented; lia|]. intros [b k'] [E1 (lb' & E2)]. cbn in *. eauto.
  - intros k' (lb & -> & _). rewrite (V_len _ _ _ V1), map_length.
    destruct tail; cbn [tlb] in *.
    + inversion V2 as [|sp ? ? ? [H3 _] V2']; subst. inversion V2'; subst. cbn [app take_cont]. eapply pc_bind; [apply pc_ssub|]. intros y <-. rewrite H3.
      rewrite item_blank. cbn [bind]. eapply pc_bind; [apply (item_stops _ _ _ _ _ V3 HR)|]. intros [n k'] [E1 (lb' & E2)]. cbn in *. subst. apply pc_ok. exists lb'. reflexivity.
    + inversion V2; subst. cbn [app].
      assert (HR' : item_stop k lb R). { clear - HR. destruct R; [exact I|]. destruct HR as (c & r & A & B & [C|C]); [discriminate|]. exists c, r. auto. }
      eapply pc_weaken; [apply (item_stops _ _ _ _ _ V3 HR')|]. intros [n k'] [E1 (lb' & E2)]. cbn in *. subst. exists lb'. reflexivity.
  - intros [n k'] (lb & E). injection E as -> ->. apply pc_ok. exists lb. reflexivity.
Qed.
End Canon.
