(** * PCov4: the block parser covers the source *)
From Verif Require Import Base Lex Attr Block Lib PSafe SpecAttr PAttr SpecBlock SpecLex PBlock1 PBlock2 PLex PBlock3 PMark PBlock4 PTab0 PTable PTree4 PTree5 PTree6 Doc SpecCover PCov0 PCov1 PCov2 PCov3.
Local Open Scope nat_scope.

Definition cleans (src : bytes) (ls : list span) : Prop := Forall (fun l => clean src (ss l)) ls.
Definition rec_cov (src : bytes) (rec : tstate -> list span -> res tstate) : Prop := forall s ls lo hi s',
  lines_ok src lo ls hi -> cleans src (tl ls) -> Forall pe (t_events s) -> rec s ls = Ok s' ->
  GS false s s' /\ forall i, inl i ls -> passed_block src i \/ bcov (t_events s') i.

Lemma cont_lines_cov src k ol ls ls' : wfb src -> Forall (line_ok src) ls -> cleans src (tl ls) ->
  (match ls with [] => Ok [] | l :: ls => let! ls' := mapr (cont_line src k ol) ls in Ok (l :: ls') end) = Ok ls' ->
  cleans src (tl ls') /\ forall i, inl i ls -> passed_block src i \/ inl i ls'.
Proof.
  intros Hw Hl Hc E. destruct ls as [|l ls]; [apply okp1 in E; subst; split; [constructor|auto]|]. apply bind_ok in E. destruct E as (ys & Em & E). apply okp1 in E. subst ls'. cbn [tl] in *.
  pose proof (Forall_inv_tail Hl) as Hl'.
  assert (Hg : forall a y, List.In a ls -> cont_line src k ol a = Ok y -> ss a <= ss y /\ ss y <= se y /\ se y = se a /\ gap src quote_char (ss a) (ss y)).
  { intros a y Hin Ey. rewrite Forall_forall in Hl'. apply (cont_line_gap src k ol); [apply (Hl' a Hin)|auto]. }
  split.
  - eapply Forall_map_clean; [exact Em|exact Hc|]. intros a y Hin Ey. destruct (Hg a y Hin Ey) as (A & _ & _ & D). auto.
  - intros i Hi. rewrite inl_cons in *. destruct Hi as [Hi|Hi]; [auto|]. destruct (inl_map src _ (margin src) _ _ i Em) with (2 := Hi) as [?|?]; [|left; right; left; auto|auto].
    intros a y Hin Ey. destruct (Hg a y Hin Ey) as (A & B & C & D). split; [auto|]. split; [auto|]. intros j J1 J2. unfold cleans in Hc. rewrite Forall_forall in Hc.
    eapply clean_margin; [exact (Hc a Hin)|eapply gap_impl; [apply quote_margin|exact D]|auto|auto].
Qed.
Lemma G_pe top a b : G top a b -> Forall pe a -> Forall pe b.
Proof. intros (_ & _ & H). exact H. Qed.
Lemma G_mono top a b i : G top a b -> bcov a i -> bcov b i.
Proof. intros (_ & H & _). apply H. Qed.

Lemma parse_container_cov rec src s c k sp_start sp_end ol ls s' lo hi : wfb src -> rec_cov src rec -> is_container_kind k -> lines_ok src lo ls hi -> cleans src (tl ls) -> Forall pe (t_events s) ->
  parse_container rec src s c k sp_start sp_end ol ls = Ok s' ->
  GS false s s' /\ forall i, inn i sp_start \/ inn i sp_end \/ inl i ls -> passed_block src i \/ bcov (t_events s') i.
Proof.
  intros Hw Hrec Hk Hls Hc Hpe E. unfold parse_container in E. apply bind_ok in E. destruct E as (ls' & El & E).
  destruct (cont_lines_ok src k ol lo ls hi Hw Hk Hls) as (ls1 & El1 & Hls1 & _). rewrite El1 in El. apply okp1 in El. subst ls1.
  destruct (cont_lines_cov src k ol ls ls' Hw (proj1 Hls) Hc El1) as [Hc' Hcov].
  apply bind_ok in E. destruct E as (s1 & E1 & E). pose proof (maybe_open_G false _ _ _ _ E1) as G1.
  assert (Hgen : (let! s5 := rec (t_enter s1 (NCont c) sp_start) ls' in let! s7 := close_inner_list s5 (ss sp_end) in t_exit s7 sp_end) = Ok s' ->
    GS false s s' /\ forall i, inn i sp_start \/ inn i sp_end \/ inl i ls -> passed_block src i \/ bcov (t_events s') i).
  { clear E. intros E. apply bind_ok in E. destruct E as (s5 & E5 & E). apply bind_ok in E. destruct E as (s7 & E7 & E).
    destruct (enter_G false s1 (NCont c) sp_start I) as [G2 C2]. pose proof (G_pe _ _ _ G2 (G_pe _ _ _ G1 Hpe)) as Hpe2.
    destruct (Hrec _ _ _ _ _ Hls1 Hc' Hpe2 E5) as [G5 C5]. pose proof (close_inner_G false _ _ _ E7) as G7. destruct (exit_G false _ _ _ E) as [G8 C8].
    pose proof (G_trans _ _ _ _ G7 G8) as G78.
    split; [exact (G_trans _ _ _ _ G1 (G_trans _ _ _ _ G2 (G_trans _ _ _ _ G5 G78)))|].
    intros i [Hi|[Hi|Hi]].
    - right. apply (G_mono _ _ _ i G78), (G_mono _ _ _ i G5). auto.
    - right. auto.
    - destruct (Hcov i Hi) as [?|Hi']; [auto|]. destruct (C5 i Hi') as [?|?]; [auto|]. right. apply (G_mono _ _ _ i G78). auto. }
  destruct c; try (exact (Hgen E)). match type of E with context [BListItem ?q] => destruct q end; try (exact (Hgen E)). clear Hgen.
  cbv zeta in E. apply bind_ok in E. destruct E as (te & Ete & E). apply bind_ok in E. destruct E as (s3 & E3 & E). apply bind_ok in E. destruct E as (l0 & _ & E).
  apply bind_ok in E. destruct E as (s5 & E5 & E). apply bind_ok in E. destruct E as (s6 & E6 & E). apply bind_ok in E. destruct E as (s7 & E7 & E).
  set (s2 := t_enter s1 (NLeaf FDescriptionTerm) sp_start) in *. destruct (enter_G false s1 (NLeaf FDescriptionTerm) sp_start I) as [G2 C2]. fold s2 in G2, C2.
  destruct (exit_G false _ _ _ E3) as [G3 C3]. destruct (exit_events _ _ _ E3) as (nn & Ev3).
  assert (Ev2 : t_events s2 = t_events s1 ++ [BE (BEnter (NLeaf FDescriptionTerm)) sp_start]) by reflexivity. rewrite Ev2 in Ev3.
  assert (Ld : length (t_events s3) = length (t_events s1) + 2) by (rewrite Ev3, !app_length; cbn; lia). rewrite Ld in E6.
  set (s4 := t_enter s3 (NCont (BListItem IDescription)) (Sp (ss l0) (ss l0))) in *. destruct (enter_G false s3 (NCont (BListItem IDescription)) (Sp (ss l0) (ss l0)) I) as [G4 _]. fold s4 in G4.
  assert (Ev4 : t_events s4 = t_events s3 ++ [BE (BEnter (NCont (BListItem IDescription))) (Sp (ss l0) (ss l0))]) by reflexivity.
  pose proof (G_trans _ _ _ _ G2 (G_trans _ _ _ _ G3 G4)) as G24. pose proof (G_pe _ _ _ G24 (G_pe _ _ _ G1 Hpe)) as Hpe4.
  destruct (Hrec _ _ _ _ _ Hls1 Hc' Hpe4 E5) as [G5 C5]. destruct (proj1 G5 eq_refl) as (x & Hx). rewrite Ev4, Ev3 in Hx. rewrite !map_app, <- !app_assoc in Hx. cbn [map app bsp] in Hx.
  destruct (move_term_G s5 _ _ _ s6 (map bsp (t_events s1)) _ _ _ x Hx (map_length _ _) (le_n _) (le_n _) (G_pe _ _ _ G5 Hpe4) E6) as ((x' & Hx') & M6 & P6).
  assert (G16 : G false (t_events s1) (t_events s6)).
  { split; [intros _; exists x'; auto|]. split; [|auto]. intros i Hi. apply M6, (G_mono _ _ _ i G5), (G_mono _ _ _ i G24). exact Hi. }
  pose proof (close_inner_G false _ _ _ E7) as G7. destruct (exit_G false _ _ _ E) as [G8 C8]. pose proof (G_trans _ _ _ _ G7 G8) as G78.
  split; [exact (G_trans _ _ _ _ G1 (G_trans _ _ _ _ G16 G78))|].
  intros i [Hi|[Hi|Hi]].
  - right. apply (G_mono _ _ _ i G78), M6, (G_mono _ _ _ i G5), (G_mono _ _ _ i G4), (G_mono _ _ _ i G3). auto.
  - right. auto.
  - destruct (Hcov i Hi) as [?|Hi']; [auto|]. destruct (C5 i Hi') as [?|?]; [auto|]. right. apply (G_mono _ _ _ i G78), M6. auto.
Qed.

Lemma cleans_tl src ls : cleans src ls -> cleans src (tl ls).
Proof. intros H. destruct ls; [constructor|exact (Forall_inv_tail H)]. Qed.
Lemma emit_cov rec src s top k sp_start sp_end ol ls taken s' lo hi : wfb src -> rec_cov src rec -> lines_ok src lo ls hi -> prep_out src taken k sp_start sp_end ls -> Forall pe (t_events s) ->
  emit rec src s top k sp_start sp_end ol ls = Ok s' -> GS top s s' /\ forall i, inl i taken -> passed_block src i \/ bcov (t_events s') i.
Proof.
  intros Hw Hrec Hls (P1 & P2 & P3 & P4) Hpe E. pose proof (proj1 Hls) as Hl.
  assert (Hfin : (match k with KAtom _ => False | _ => True end) -> (GS top s s' /\ forall i, inn i sp_start \/ inn i sp_end \/ inl i ls -> passed_block src i \/ bcov (t_events s') i) ->
     GS top s s' /\ forall i, inl i taken -> passed_block src i \/ bcov (t_events s') i).
  { intros Hk [H1 H2]. split; [auto|]. intros i Hi. destruct (P1 i Hi) as [?|[?|Hx]]; auto. destruct k; try contradiction; destruct Hx; auto. }
  assert (Hleaf : forall lf, (lf = FParagraph -> se sp_start <= ss sp_start) -> (top = false -> no_sec k lf = true) -> parse_leaf src s lf k sp_start sp_end ls = Ok s' ->
     GS top s s' /\ forall i, inn i sp_start \/ inn i sp_end \/ inl i ls -> passed_block src i \/ bcov (t_events s') i).
  { intros lf H1 H2 H3. destruct (parse_leaf_cov src s lf k sp_start sp_end ls s' Hw Hl H1 H3) as [X1 X2]. split.
    - unfold GS in *. destruct (no_sec k lf); [apply G_top; exact X1|]. destruct top; [exact X1|discriminate (H2 eq_refl)].
    - intros i Hi. destruct (X2 i Hi); [left; left; auto|auto]. }
  assert (Hcont : forall c, is_container_kind k -> cleans src (tl ls) -> parse_container rec src s c k sp_start sp_end ol ls = Ok s' ->
     GS top s s' /\ forall i, inn i sp_start \/ inn i sp_end \/ inl i ls -> passed_block src i \/ bcov (t_events s') i).
  { intros c H1 H2 H3. destruct (parse_container_cov rec src s c k sp_start sp_end ol ls s' lo hi Hw Hrec H1 Hls H2 Hpe H3) as [X1 X2]. split; [apply G_top; exact X1|exact X2]. }
  unfold emit in E. destruct k.
  - apply okp1 in E. subst s'. split; [apply push_G; exact I|]. intros i Hi. destruct (P1 i Hi) as [?|[Hx|[]]]; [auto|]. right. apply bcov_push; [discriminate|auto].
  - apply Hfin; [exact I|]. apply (Hleaf FParagraph); auto. intros _. rewrite (P3 I). lia.
  - apply bind_ok in E. destruct E as (lv & _ & E). apply Hfin; [exact I|]. apply (Hleaf _) with (3 := E); [discriminate|]. intros ->. reflexivity.
  - apply Hfin; [exact I|]. destruct k; [|apply (Hleaf _) with (3 := E); [discriminate|reflexivity]]. eapply Hcont; [exact I|apply cleans_tl; exact P2|exact E].
  - apply Hfin; [exact I|]. destruct footnote; [eapply Hcont; [exact I|exact P2|exact E]|apply (Hleaf _) with (3 := E); [discriminate|reflexivity]].
  - apply Hfin; [exact I|]. eapply Hcont; [exact I|exact P2|exact E].
  - apply bind_ok in E. destruct E as (ik & _ & E). apply Hfin; [exact I|]. eapply Hcont; [exact I|exact P2|exact E].
  - apply Hfin; [exact I|]. eapply parse_table_cov; eauto.
Qed.
Lemma set_attr_events k s : t_events (set_attr_after k s) = t_events s.
Proof. unfold set_attr_after. destruct k as [[]| | | | | | |]; reflexivity. Qed.
Lemma cleans_skipn src n ls : cleans src ls -> cleans src (skipn n ls).
Proof. unfold cleans. rewrite !Forall_forall. intros H x Hx. apply H. revert Hx. clear. revert ls; induction n; intros ls H; [exact H|]. destruct ls; [contradiction|]. right. apply IHn. exact H. Qed.
Lemma skipn_tl {A} n (l : list A) : tl (skipn n l) = skipn n (tl l).
Proof. revert l; induction n; intros l; [reflexivity|]. destruct l; [reflexivity|]. cbn [skipn tl]. rewrite IHn. destruct l; [rewrite skipn_nil; reflexivity|reflexivity]. Qed.
Lemma parse_blocks_cov src : wfb src -> forall f top s ls lo hi s', lines_ok src lo ls hi -> cleans src (tl ls) -> Forall pe (t_events s) -> parse_blocks f src top s ls = Ok s' ->
  GS top s s' /\ forall i, inl i ls -> passed_block src i \/ bcov (t_events s') i.
Proof.
  intros Hw. induction f as [|f IH]; intros top s ls lo hi s' Hls Hc Hpe E.
  { destruct ls; cbn in E; [|discriminate]. apply okp1 in E. subst. split; [apply G_refl|]. intros i Hi. destruct (inl_nil _ Hi). }
  cbn [parse_blocks] in E. destruct ls as [|l rest]; [apply okp1 in E; subst; split; [apply G_refl|]; intros i Hi; destruct (inl_nil _ Hi)|].
  apply bind_ok in E. destruct E as ([lc s1] & E1 & E). rewrite parse_block_prep in E1. apply bind_ok in E1. destruct E1 as ([[[[[k sp_start] sp_end] ol] ls'] n] & Ep & E1).
  destruct (prep_ok src l rest lo hi Hw Hls) as (k2 & a2 & b2 & o2 & ls2 & n2 & Ep2 & Hn & _ & _ & _ & Hls2 & _ & Hrest & _ & _).
  rewrite Ep in Ep2. assert (k2 = k /\ a2 = sp_start /\ b2 = sp_end /\ ls2 = ls' /\ n2 = n) as (-> & -> & -> & -> & ->) by (injection Ep2; auto 6). clear Ep2.
  pose proof (prep_cov src l rest lo hi k sp_start sp_end ol ls' n Hw Hls Hc Ep) as Hout.
  unfold fin in E1. apply bind_ok in E1. destruct E1 as (sa & Ea & E1). apply bind_ok in E1. destruct E1 as (sb & Eb & E1). apply bind_ok in E1. destruct E1 as (sc & Ec & E1). apply okp in E1. destruct E1 as [-> ->].
  pose proof (G_trans _ _ _ _ (update_lists_G top _ _ _ _ Ea) (update_loose_G top _ _ _ Eb)) as G1.
  destruct (emit_cov (parse_blocks f src false) src sb top k sp_start sp_end ol ls' _ sc _ _ Hw (fun s0 l0 lo0 hi0 s0' => IH false s0 l0 lo0 hi0 s0') Hls2 Hout (G_pe _ _ _ G1 Hpe) Ec) as [G2 C2].
  pose proof (G_trans _ _ _ _ G1 G2) as G12.
  assert (Hpe3 : Forall pe (t_events (set_attr_after k sc))) by (rewrite set_attr_events; exact (G_pe _ _ _ G12 Hpe)).
  destruct (IH top (set_attr_after k sc) (skipn n (l :: rest)) _ _ s' Hrest) as [G3 C3]; [|auto|exact E|].
  { rewrite skipn_tl. apply cleans_skipn. exact Hc. }
  unfold GS in G3. rewrite set_attr_events in G3. split; [exact (G_trans _ _ _ _ G12 G3)|].
  intros i Hi. rewrite <- (firstn_skipn n (l :: rest)) in Hi. apply inl_app in Hi. destruct Hi as [Hi|Hi]; [|auto]. destruct (C2 i Hi) as [?|?]; [auto|]. right. apply (G_mono _ _ _ i G3). auto.
Qed.
Lemma close_lists_G n : forall pos s s', close_lists n pos s = Ok s' -> GS true s s'.
Proof.
  induction n as [|n IH]; intros pos s s' E; cbn [close_lists] in E; [apply okp1 in E; subst; apply G_refl|]. destruct (t_lists s) as [|l ls]; [apply okp1 in E; subst; apply G_refl|].
  apply bind_ok in E. destruct E as (s1 & E1 & E). exact (G_trans _ _ _ _ (close_list_G true (t_set_lists s ls) _ _ _ E1) (IH _ _ _ E)).
Qed.
Lemma exit_n_G n : forall pos s s', exit_n n pos s = Ok s' -> GS true s s'.
Proof.
  induction n as [|n IH]; intros pos s s' E; cbn [exit_n] in E; [apply okp1 in E; subst; apply G_refl|]. apply bind_ok in E. destruct E as (s1 & E1 & E). exact (G_trans _ _ _ _ (proj1 (exit_G true _ _ _ E1)) (IH _ _ _ E)).
Qed.
Lemma lines_from_cov : forall rest start pos i, start <= i -> i < pos + length rest -> start <= pos -> inl i (lines_from rest start pos).
Proof.
  intros rest. induction rest as [|c rest IH]; intros start pos i H1 H2 H3; cbn [lines_from length] in *.
  - assert (Nat.ltb start pos = true) as -> by (apply Nat.ltb_lt; lia). apply inl_cons. left. split; cbn; lia.
  - destruct (beq c NL); [|apply IH; lia]. apply inl_cons. destruct (Nat.lt_ge_cases i (S pos)); [left; split; cbn; lia|right; apply IH; lia].
Qed.
Lemma lines_from_clean src : forall rest start pos, skipn pos src = rest -> line_start src start -> cleans src (lines_from rest start pos).
Proof.
  intros rest. induction rest as [|c rest IH]; intros start pos H Hs; cbn [lines_from].
  - destruct (Nat.ltb start pos); constructor; [|constructor]. exists start. split; [auto|]. split; [auto|]. cbn. intros j J1 J2. lia.
  - destruct (skipn_cons_nth _ _ _ _ H) as [N1 N2]. destruct (beq c NL) eqn:Ec; [|apply IH; auto]. apply beq_eq in Ec. subst c. constructor.
    + exists start. split; [auto|]. split; [auto|]. cbn. intros j J1 J2. lia.
    + apply IH; [auto|]. right. split; [lia|]. replace (S pos - 1) with pos by lia. auto.
Qed.
(** Every byte is white space, part of a margin or of a table row without content, or in the range of
    an event of the block parser. *)
Theorem block_parse_cov src evs i : wfb src -> block_parse src = Ok evs -> i < length src -> passed_block src i \/ bcov evs i.
Proof.
  intros Hw E Hi. unfold block_parse in E. cbv zeta in E. apply bind_ok in E. destruct E as (s1 & E1 & E). apply bind_ok in E. destruct E as (s2 & E2 & E). apply bind_ok in E. destruct E as (s3 & E3 & E).
  apply bind_ok in E. destruct E as (s4 & E4 & E). apply bind_ok in E. destruct E as (u & _ & E). apply okp1 in E. subst evs.
  assert (Hcl : cleans src (tl (lines src))) by (apply cleans_tl; apply lines_from_clean; [reflexivity|left; auto]).
  assert (Hp0 : Forall pe (t_events (t_enter t_new (NCont BDocument) (Sp 0 0)))) by (repeat constructor).
  destruct (parse_blocks_cov src Hw _ _ _ _ _ _ _ (lines_lines_ok src Hw) Hcl Hp0 E1) as [G1 C1].
  destruct (C1 i) as [?|Hc]; [apply lines_from_cov; cbn; lia|auto|]. right.
  apply (G_mono _ _ _ i (proj1 (exit_G true _ _ _ E4))), (G_mono _ _ _ i (exit_n_G _ _ _ _ E3)). apply (G_mono _ _ _ i (close_lists_G _ _ _ _ E2)). exact Hc.
Qed.
Print Assumptions block_parse_cov.
