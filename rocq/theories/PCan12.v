(** * PCan12: the content of a paragraph *)
From Verif Require Import Base Lex Attr Inline Block Doc Lib PSafe PCan1 PCan2 PCan3 PCan4 PCan5 PCan6 PCan7 PCan8 PCan9 PCan10 PCan11.
From Verif Require Import SpecCanon.
Local Open Scope nat_scope.

(** ** Lines *)
(** The lines of a text, all but the last with their line break. *)
Fixpoint brk (ls : list bytes) : list bytes :=
  match ls with
  | [] => []
  | [l] => [l]
  | l :: ls' => (l ++ [NL]) :: brk ls'
  end.
Lemma split_lines_ne x : split_lines x <> [].
Proof. destruct x as [|c x]; cbn; [discriminate|]. destruct (beq c NL); [discriminate|]. destruct (split_lines x); discriminate. Qed.
Lemma split_lines_app u r : split_lines (u ++ NL :: r) = split_lines u ++ split_lines r.
Proof.
  induction u as [|c u IH]; [reflexivity|]. cbn. destruct (beq c NL); [rewrite IH; reflexivity|]. rewrite IH.
  pose proof (split_lines_ne u). destruct (split_lines u); [congruence|reflexivity].
Qed.
Lemma split_lines_snoc u c : c <> NL -> exists A l, split_lines (u ++ [c]) = A ++ [l ++ [c]].
Proof.
  intros Hc. assert (Hb : beq c NL = false) by (destruct (beq c NL) eqn:E; [apply beq_eq in E; congruence|reflexivity]).
  induction u as [|d u (A & l & IH)].
  - exists [], []. cbn. rewrite Hb. reflexivity.
  - cbn. destruct (beq d NL); [exists ([] :: A), l; rewrite IH; reflexivity|]. rewrite IH. destruct A as [|a A].
    + exists [], (d :: l). reflexivity.
    + exists ((d :: a) :: A), l. reflexivity.
Qed.
Lemma concat_brk x : concat (brk (split_lines x)) = x.
Proof.
  induction x as [|c x IH]; [reflexivity|]. cbn [split_lines]. pose proof (split_lines_ne x) as Hne.
  destruct (beq c NL) eqn:E.
  - apply beq_eq in E as ->. destruct (split_lines x) as [|l ls]; [congruence|].
    change (brk ([] :: l :: ls)) with ([NL] :: brk (l :: ls)). cbn [concat]. rewrite IH. reflexivity.
  - destruct (split_lines x) as [|l ls]; [congruence|]. destruct ls as [|l' ls]; [cbn in *; rewrite app_nil_r in *; rewrite IH; reflexivity|].
    change (brk ((c :: l) :: l' :: ls)) with (((c :: l) ++ [NL]) :: brk (l' :: ls)).
    change (brk (l :: l' :: ls)) with ((l ++ [NL]) :: brk (l' :: ls)) in IH.
    cbn [concat app] in *. rewrite IH. reflexivity.
Qed.
Lemma split_no_nl x : Forall no_nl (split_lines x).
Proof.
  induction x as [|c x IH]; cbn; [repeat constructor; intros []|]. destruct (beq c NL) eqn:E; [constructor; [intros []|exact IH]|].
  assert (c <> NL) by (intros ->; rewrite beq_refl in E; discriminate E).
  destruct (split_lines x) as [|l ls]; constructor; try (inversion IH; assumption); intros [K|K]; try congruence; try destruct K.
  inversion IH as [|? ? H1 H2]; subst. exact (H1 K).
Qed.

Lemma tidy_lines x : forallb line_ok (split_lines x) = true -> tidy x.
Proof.
  intros H a b -> Hb. destruct (hd_is (fun c => beq c NL) (skipn (count_while is_blank b) b)) eqn:E; [|reflexivity]. exfalso.
  set (n := count_while is_blank b) in *. rewrite <- (firstn_skipn n b) in H.
  destruct (skipn n b) as [|c r] eqn:Es; [discriminate E|]. cbn in E. apply beq_eq in E as ->.
  assert (Hf : forallb is_blank (firstn n b) = true) by (unfold n; clear; induction b as [|c b IH]; cbn; [reflexivity|]; destruct (is_blank c) eqn:E; cbn; [rewrite E; exact IH|reflexivity]).
  assert (Hn : firstn n b <> []). { destruct b as [|c b]; [discriminate Hb|]. cbn in Hb. unfold n. cbn. rewrite Hb. discriminate. }
  destruct (rev_case (firstn n b)) as [K|(u & c & K)]; [congruence|]. rewrite K in *.
  rewrite forallb_app in Hf. apply andb_prop in Hf as [_ Hf]. cbn in Hf. rewrite andb_true_r in Hf.
  assert (Hc : c <> NL) by (intros ->; discriminate Hf).
  rewrite app_assoc, split_lines_app, forallb_app in H. apply andb_prop in H as [H _].
  rewrite app_assoc in H. destruct (split_lines_snoc (a ++ u) c Hc) as (A & l & Es'). rewrite Es', forallb_app in H.
  apply andb_prop in H as [_ H]. cbn [forallb] in H. rewrite andb_true_r in H. unfold line_ok in H.
  destruct (l ++ [c]) as [|d m] eqn:El; [destruct l; discriminate El|]. apply andb_prop in H as [_ H].
  rewrite <- El, last_last in H. apply negb_true_iff in H.
  assert (is_ws c = true) by (revert Hf; clear; destruct c as [[][][][][][][][]]; intros H; try discriminate H; reflexivity). congruence.
Qed.

Section Canon.
Variables (src : bytes) (pp : prepass).
Notation From := (PCan3.From src pp). Notation Out := (PCan2.Out src pp).
Notation cat := (PCan3.cat src). Notation lns := (PCan3.lns src).

(** ** At the end *)
Lemma From_end : From (LV false) [] [] [] [] [] [] true.
Proof.
  intros s ls R D w (lx & line & sp & r & -> & A2 & A3 & A4 & A5 & A6 & A7) HD HC HL _.
  symmetry in A7. apply app_eq_nil in A7 as [-> _]. apply lns_nil in A6 as ->. cbn [app] in *. rewrite app_nil_r.
  destruct A2 as [A2|A2]; [|destruct (LP_nil _ _ A2)].
  eapply (flush_end src pp lx line (se sp)); eauto.
Qed.

(** The parser between two leaf blocks. *)
Definition quiet (s : istate) : Prop := exists line sp, s = IS (In (lex_new []) false line [] sp) [] [] None None [] [].

Lemma quiet_new : quiet i_new.
Proof. unfold quiet, i_new, in_new. eauto. Qed.
Lemma quiet_reset s s' : i_reset s = Ok s' -> quiet s'.
Proof.
  unfold i_reset. destruct (is_nil (s_events s)) eqn:E; [|discriminate]. cbn [assert bind].
  destruct (is_none (s_attr s)); [|discriminate]. destruct (is_none (s_verb s)); [|discriminate]. cbn. intros H. injection H as <-.
  destruct (s_events s); [|discriminate E]. unfold quiet, in_reset. eauto.
Qed.
Lemma quiet_next s n nf : quiet s -> pc (fun x => fst x = None /\ quiet (snd x)) (i_next n nf src s).
Proof.
  intros (line & sp & ->). destruct n as [|n]; [apply pc_fuel|]. destruct nf as [|nf]; [apply pc_fuel|]. cbn [i_next fill].
  assert (must_buffer (IS (In (lex_new []) false line [] sp) [] [] None None [] []) = true) as -> by reflexivity.
  rewrite pe_eq. rewrite (lex_end_same false _ (LX_new [])). cbn. apply pc_ok. split; [reflexivity|]. exists line, (Sp (se sp) (se sp)). reflexivity.
Qed.

Lemma lns_brk l ls X : X <> [] -> Forall no_nl X -> map (slice src) (l :: ls) = brk X -> lns (slice src l) ls.
Proof.
  revert l ls. induction X as [|x X IH]; intros l ls Hne HX E; [congruence|]. inversion HX as [|? ? H1 H2]; subst.
  destruct X as [|y X].
  - cbn in E. injection E as E1 E2. destruct ls; [|discriminate E2]. cbn. rewrite E1. exact H1.
  - change (brk (x :: y :: X)) with ((x ++ [NL]) :: brk (y :: X)) in E. cbn [map] in E. injection E as E1 E2.
    destruct ls as [|l' ls]; [destruct X; discriminate E2|]. split; [eauto|]. apply IH; auto. discriminate.
Qed.

(** The events of a paragraph's content. *)
Theorem para_content l : inls_ok l = true -> forallb line_ok (split_lines (inls_src l)) = true ->
  forall s l0 ls s2, quiet s -> map (slice src) (l0 :: ls) = brk (split_lines (inls_src l)) ->
    i_feed_line src s l0 (is_nil ls) = Ok s2 -> Out s2 ls (inls_evs l).
Proof.
  intros Hok Hlines s l0 ls s2 (line & sp & ->) Hls Hfeed.
  assert (Hl : inls_src l = slice src l0 ++ cat ls).
  { rewrite <- (concat_brk (inls_src l)), <- Hls. reflexivity. }
  assert (Hlns : lns (slice src l0) ls) by (eapply lns_brk; [apply split_lines_ne|apply split_no_nl|exact Hls]).
  unfold i_feed_line, in_feed_line in Hfeed. cbn [s_in i_complete negb assert bind in_set_complete i_lex i_ahead] in Hfeed.
  rewrite (lex_ahead_is false _ []) in Hfeed by (left; apply LX_new). cbn [bind] in Hfeed.
  apply bind_ok in Hfeed as (i & E1 & E2). unfold set_current_line in E1. apply bind_ok in E1 as (b & E3 & E4).
  apply bsub_ok in E3 as (L1 & L2 & ->). cbn in E4, E2. injection E4 as <-. injection E2 as <-. cbn [s_set_in s_openers s_events s_attr s_verb s_cow s_attrs].
  assert (Hne : norm l <> []).
  { intros K. apply (f_equal inls_src) in K. rewrite norm_src in K. rewrite K in Hlines. discriminate Hlines. }
  pose proof (andb_prop _ _ Hok) as [_ Hok2].
  assert (HF : From (LV false) [] [] [] (inls_src (norm l) ++ []) [] (flat_map inl_evs (norm l) ++ []) false).
  { apply (From_list src pp (S (Datatypes.length (inls_src (norm l)))) false).
    - apply Nat.lt_succ_diag_r.
    - apply norm_normal, Hok.
    - constructor.
    - rewrite app_nil_r, norm_src. apply tidy_lines, Hlines.
    - intros _. split; reflexivity.
    - intros o [].
    - intros w _ _ o [].
    - discriminate.
    - apply From_B, From_end.
    - exact Hne. }
  rewrite app_nil_r, norm_src in HF. unfold inls_evs. rewrite <- (app_nil_r (flat_map inl_evs l)), <- norm_evs by exact Hok2.
  apply (HF _ ls [] [] []).
  - exists (lex_new (slice src l0)), l0, (Sp (ss l0) (ss l0)), (slice src l0). split; [reflexivity|]. split; [left; apply LX_new|].
    destruct l0 as [a b']. cbn in *. repeat split; auto.
  - constructor.
  - exact I.
  - exact I.
  - congruence.
Qed.
End Canon.
