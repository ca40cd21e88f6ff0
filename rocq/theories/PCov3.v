(** * PCov3: leaf blocks and tables cover their lines *)
From Verif Require Import Base Lex Attr Block Lib PSafe SpecAttr PAttr SpecBlock SpecLex PBlock1 PBlock2 PLex PBlock3 PMark PBlock4 PTab0 PTick PTable PTree4 PTree6 Doc SpecCover PCov0 PCov1 PCov2.
From Verif Require PInl9.
Local Open Scope nat_scope.

Lemma inl_mapr (f : span -> res span) (P : nat -> Prop) ls ys i : mapr f ls = Ok ys ->
  (forall l y, List.In l ls -> f l = Ok y -> forall j, inn j l -> P j \/ inn j y) -> inl i ls -> P i \/ inl i ys.
Proof.
  intros E H Hi. apply mapr_Forall2 in E. revert H Hi. induction E as [|a b ls ys E1 E IH]; intros H Hi; [destruct (inl_nil _ Hi)|].
  rewrite inl_cons in *. destruct Hi as [Hi|Hi]; [destruct (H a b (or_introl eq_refl) E1 i Hi); auto|]. destruct (IH ltac:(intros l y Hl; apply H; right; auto) Hi); auto.
Qed.
Lemma inl_map_last (f : span -> res span) (P : nat -> Prop) ls ys i : map_last f ls = Ok ys ->
  (forall l y, List.In l ls -> f l = Ok y -> forall j, inn j l -> P j \/ inn j y) -> inl i ls -> P i \/ inl i ys.
Proof.
  intros E H Hi. unfold map_last in E. destruct (rev_case ls) as [->|(l' & x & ->)]; [destruct (inl_nil _ Hi)|]. rewrite last_opt_app in E.
  apply bind_ok in E. destruct E as (y & Ey & E). apply okp1 in E. rewrite butlast_app in E. subst ys. rewrite inl_app in *. destruct Hi as [Hi|Hi]; [auto|].
  rewrite inl_cons in *. destruct Hi as [Hi|Hi]; [|destruct (inl_nil _ Hi)]. destruct (H x y ltac:(apply in_or_app; right; left; auto) Ey i Hi); auto.
Qed.
Lemma trim_start_in src sp y j : wfb src -> span_ok src sp -> sp_trim_start src sp = Ok y -> inn j sp -> white src j \/ inn j y.
Proof. intros Hw Hs E [J1 J2]. destruct (trim_start_gap src sp y Hw Hs E) as (A & B & C & D & _). destruct (Nat.lt_ge_cases j (ss y)); [left; apply D; auto|right; split; lia]. Qed.
Lemma trim_end_in src sp y j : wfb src -> span_ok src sp -> sp_trim_end src sp = Ok y -> inn j sp -> white src j \/ inn j y.
Proof. intros Hw Hs E [J1 J2]. destruct (trim_end_gap src sp y Hw Hs E) as (A & B & C & D). destruct (Nat.lt_ge_cases j (se y)); [right; split; lia|left; apply D; auto]. Qed.
Lemma trim_in src sp z j : wfb src -> span_ok src sp -> sp_trim src sp = Ok z -> inn j sp -> white src j \/ inn j z.
Proof.
  intros Hw Hs E Hj. unfold sp_trim in E. apply bind_ok in E. destruct E as (y & E1 & E2). destruct (trim_start_gap src sp y Hw Hs E1) as (_ & _ & _ & _ & Hy).
  destruct (trim_start_in src sp y j Hw Hs E1 Hj) as [?|Hj']; [auto|]. eapply trim_end_in; eauto.
Qed.
Lemma trim_end_span src sp y : wfb src -> span_ok src sp -> sp_trim_end src sp = Ok y -> span_ok src y.
Proof.
  intros Hw Hs E. unfold sp_trim_end in E. rewrite span_ok_ssub in E by auto. cbn [bind] in E. apply okp1 in E. subst y. apply (trim_end_boundary src sp Hw Hs).
Qed.
Lemma mapr_span src (f : span -> res span) ls ys : mapr f ls = Ok ys -> Forall (span_ok src) ls -> (forall l y, span_ok src l -> f l = Ok y -> span_ok src y) -> Forall (span_ok src) ys.
Proof. intros E H Hf. apply mapr_Forall2 in E. induction E; constructor; [eapply Hf; [exact (Forall_inv H)|eauto]|apply IHE; exact (Forall_inv_tail H)]. Qed.
Lemma inl_filter i ls : inl i ls -> inl i (filter (fun l => negb (sp_empty l)) ls).
Proof.
  intros (l & Hl & Hi). exists l. split; [|auto]. apply filter_In. split; [auto|]. unfold sp_empty. rewrite negb_involutive. apply Nat.ltb_lt. destruct Hi. lia.
Qed.
Lemma leaf_lines_cov src lf k ls ls' i : wfb src -> Forall (line_ok src) ls -> leaf_lines src lf k ls = Ok ls' -> inl i ls -> white src i \/ inl i ls'.
Proof.
  intros Hw Hl E Hi. assert (Hs : Forall (span_ok src) ls) by (eapply Forall_impl; [|exact Hl]; intros a Ha; apply Ha).
  assert (Htr : forall l y, List.In l ls -> sp_trim_start src l = Ok y -> forall j, inn j l -> white src j \/ inn j y).
  { intros l y Hin Ey j Hj. rewrite Forall_forall in Hs. eapply trim_start_in; eauto. }
  assert (Hte : forall L, Forall (span_ok src) L -> forall l y, List.In l L -> sp_trim_end src l = Ok y -> forall j, inn j l -> white src j \/ inn j y).
  { intros L HL l y Hin Ey j Hj. rewrite Forall_forall in HL. eapply trim_end_in; eauto. }
  unfold leaf_lines in E. destruct k.
  4:{ apply bind_ok in E. destruct E as (ls1 & E1 & E). assert (Hi1 : white src i \/ inl i ls1).
      { eapply inl_mapr; [exact E1| |exact Hi]. intros l y Hin Ey j [J1 J2]. rewrite Forall_forall in Hs. destruct (unindent_gap src _ l y (Hs l Hin) Ey) as (A & B & C & D).
        destruct (Nat.lt_ge_cases j (ss y)); [left; apply D; auto|right; split; lia]. }
      destruct Hi1 as [?|Hi1]; [auto|]. destruct (starts_c spec "="); [|apply okp1 in E; subst; auto].
      eapply inl_map_last; [exact E| |exact Hi1]. apply Hte. apply mapr_Forall2 in E1. clear - E1 Hl Hw. induction E1 as [|a b ls ls1 E1 E IH]; constructor; [|apply IH; exact (Forall_inv_tail Hl)].
      destruct (unindent_ok src indent a Hw (Forall_inv Hl)) as (y & Ey & Hy & _). rewrite Ey in E1. apply okp1 in E1. subst. apply Hy. }
  all: apply bind_ok in E; destruct E as (ls1 & E1 & E); cbv zeta in E;
    assert (Hs1 : Forall (span_ok src) ls1) by (eapply mapr_span; [exact E1|exact Hs|]; intros l y Hlo Ey; exact (proj2 (proj2 (proj2 (proj2 (trim_start_gap src l y Hw Hlo Ey))))));
    destruct (inl_mapr _ _ _ _ i E1 Htr Hi) as [?|Hi1]; [auto|];
    set (ls2 := match ls1 with [] => ls1 | l :: ls' => if sp_empty l then ls' else ls1 end) in E;
    assert (Hi2 : inl i ls2) by (unfold ls2; destruct ls1 as [|l q]; [auto|]; destruct (sp_empty l) eqn:Ee; [|auto]; rewrite inl_cons in Hi1; destruct Hi1 as [[J1 J2]|?]; [|auto];
       unfold sp_empty in Ee; apply negb_true_iff in Ee; apply Nat.ltb_ge in Ee; lia);
    assert (Hs2 : Forall (span_ok src) ls2) by (unfold ls2; destruct ls1 as [|l q]; [auto|]; destruct (sp_empty l); [exact (Forall_inv_tail Hs1)|auto]);
    clearbody ls2; apply bind_ok in E; destruct E as (ls3 & E3 & E);
    (assert (H3 : white src i \/ (inl i ls3 /\ Forall (span_ok src) ls3));
     [destruct lf; try (apply okp1 in E3; subst; right; auto; fail);
      destruct (inl_mapr _ _ _ _ i E3 (Hte ls2 Hs2) Hi2) as [?|Hi3]; [auto|right; split; [auto|]]; eapply mapr_span; [exact E3|exact Hs2|]; intros l y Hlo Ey; eapply trim_end_span; eauto
     |destruct H3 as [?|[Hi3 Hs3]]; [auto|]; eapply inl_map_last; [exact E|apply Hte; auto|auto]]).
Qed.

Definition no_sec (k : bkind) (lf : leaf) : bool := match k, lf with KHeading _, FHeading _ true _ => false | _, _ => true end.
Lemma parse_leaf_cov src s lf k sp_start sp_end ls s' : wfb src -> Forall (line_ok src) ls -> (lf = FParagraph -> se sp_start <= ss sp_start) ->
  parse_leaf src s lf k sp_start sp_end ls = Ok s' ->
  GS (negb (no_sec k lf)) s s' /\ forall i, inn i sp_start \/ inn i sp_end \/ inl i ls -> white src i \/ bcov (t_events s') i.
Proof.
  intros Hw Hl Hp E. unfold parse_leaf in E. apply bind_ok in E. destruct E as (ls' & El & E). apply bind_ok in E. destruct E as (s1 & E1 & E). cbv zeta in E.
  set (top := negb (no_sec k lf)) in *.
  assert (H1 : GS top s s1).
  { unfold top, no_sec. destruct k; try (apply okp1 in E1; subst; apply G_refl). destruct lf; try (apply okp1 in E1; subst; apply G_refl). destruct has_section; [|apply okp1 in E1; subst; apply G_refl]. exact (open_section_G _ _ _ _ E1). }
  destruct (enter_G top s1 (NLeaf lf) sp_start) as [H2 C2]; [unfold pe; cbn; destruct lf; auto|].
  destruct (inlines_G top (t_enter s1 (NLeaf lf) sp_start) (filter (fun l => negb (sp_empty l)) ls')) as [H3 C3].
  destruct (exit_G top _ _ _ E) as [H4 C4].
  split; [exact (G_trans _ _ _ _ (G_trans _ _ _ _ H1 H2) (G_trans _ _ _ _ H3 H4))|].
  intros i [Hi|[Hi|Hi]].
  - right. apply (proj1 (proj2 H4)), (proj1 (proj2 H3)). auto.
  - right. auto.
  - destruct (leaf_lines_cov src lf k ls ls' i Hw Hl El Hi) as [?|Hi']; [auto|]. right. apply (proj1 (proj2 H4)). apply C3. apply inl_filter. auto.
Qed.

(** ** Tables *)
Definition esim (e e' : bev) : Prop := bsp e' = bsp e /\ (bk e <> BStale -> bk e' <> BStale) /\ (pe e -> pe e').
Lemma esim_refl e : esim e e.
Proof. repeat split; auto. Qed.
Lemma G_sim top a b : Forall2 esim a b -> G top a b.
Proof.
  intros H. split; [|split].
  - intros _. exists []. rewrite app_nil_r. induction H as [|x y a b (E & _) H IH]; [auto|]. cbn. rewrite E, IH. reflexivity.
  - intros i (e & He & Hs & Hi). induction H as [|x y a b (E1 & E2 & E3) H IH]; [contradiction|]. destruct He as [->|He].
    + exists y. split; [left; auto|]. split; [auto|]. rewrite E1. auto.
    + destruct (IH He) as (z & Hz & Hz'). exists z. split; [right; auto|auto].
  - intros Hp. induction H as [|x y a b (E1 & E2 & E3) H IH]; constructor; [apply E3; exact (Forall_inv Hp)|apply IH; exact (Forall_inv_tail Hp)].
Qed.
Lemma sim_refl l : Forall2 esim l l.
Proof. induction l; constructor; auto using esim_refl. Qed.
Lemma sim_trans a b c : Forall2 esim a b -> Forall2 esim b c -> Forall2 esim a c.
Proof.
  intros H. revert c. induction H as [|x y a b (A1 & A2 & A3) H IH]; intros c Hc; inversion Hc as [|? z ? c' (B1 & B2 & B3) Hc']; subst; constructor; [|auto].
  split; [congruence|]. split; auto.
Qed.
Lemma sim_upd l j e e' : nth_error l j = Some e -> esim e e' -> Forall2 esim l (upd l j e').
Proof. revert j. induction l as [|x l IH]; intros [|j] H E; try discriminate; cbn in *; constructor; auto using sim_refl, esim_refl. injection H as ->. auto. Qed.
Lemma realign_sim evs : forall als b, Forall2 esim evs (realign evs als b).
Proof.
  induction evs as [|e evs IH]; intros als b; cbn [realign]; [constructor|]. destruct e as [k sp]. cbn [bk bsp].
  destruct k as [[|[]]| |[|[]]| |]; constructor; auto using esim_refl; repeat split; auto; discriminate.
Qed.
Lemma make_head_G top evs als he hx evs' : make_head evs als he hx = Ok evs' -> G top evs evs'.
Proof.
  unfold make_head. cbv zeta. set (e1 := firstn (he + 1) evs ++ _). assert (H1 : Forall2 esim evs e1).
  { unfold e1. rewrite <- (firstn_skipn (he + 1) evs) at 1. apply Forall2_app; [apply sim_refl|apply realign_sim]. }
  intros E. apply G_sim. eapply sim_trans; [exact H1|]. clearbody e1. clear H1.
  apply bind_ok in E. destruct E as (e & Ee & E). apply get_at_ok in Ee. apply bind_ok in E. destruct E as (e2 & E2 & E). apply bind_ok in E. destruct E as (x & Ex & E). apply get_at_ok in Ex.
  destruct (bk e) as [[[]|]| | | |] eqn:Ek; try discriminate. apply set_at_ok in E2. destruct E2 as [_ E2].
  destruct (bk x) as [| |[[]|]| |] eqn:Ekx; try discriminate. apply set_at_ok in E. destruct E as [_ E].
  eapply sim_trans; [eapply (sim_upd e1 he e); [exact Ee|]|rewrite <- E2; rewrite E; eapply sim_upd; [exact Ex|]].
  - split; [reflexivity|]. split; [intros _; discriminate|intros _; exact I].
  - split; [reflexivity|]. split; [intros _; discriminate|intros _; exact I].
Qed.

(** A verbatim span left open in a row began with a run of backticks after its last cell. *)
Lemma runs_notick a t : ~ List.In "`"%char a -> tick_runs 0 (a ++ t) = tick_runs 0 t.
Proof.
  induction a as [|c a IH]; intros H; [reflexivity|]. cbn [app tick_runs]. destruct (beq c "`") eqn:E; [apply beq_eq in E; subst; exfalso; apply H; left; reflexivity|].
  cbn [Nat.eqb app]. apply IH. intros X. apply H. right. exact X.
Qed.
Lemma runs_repeat n t : forall cur, tick_runs cur (repeat "`"%char n ++ t) = tick_runs (cur + n) t.
Proof. induction n as [|n IH]; intros cur; cbn [repeat app tick_runs]; [f_equal; lia|]. rewrite beq_refl, IH. f_equal. lia. Qed.
Lemma runs_seq n t : 0 < n -> hd_is (fun c => beq c "`") t = false -> tick_runs 0 (repeat "`"%char n ++ t) = n :: tick_runs 0 t.
Proof.
  intros Hn Ht. rewrite runs_repeat. cbn [Nat.add]. destruct n as [|n]; [lia|]. destruct t as [|c t]; [reflexivity|]. cbn in Ht. cbn [tick_runs]. rewrite Ht. reflexivity.
Qed.
Lemma forallb_repeat (c : ascii) t : forallb (fun x => beq x c) t = true -> t = repeat c (length t).
Proof. induction t as [|x t IH]; cbn; intros H; [reflexivity|]. apply andb_prop in H. destruct H as [H1 H2]. apply beq_eq in H1. subst. f_equal. auto. Qed.
Definition last_end (cs : nat) (evs : list bev) : nat := match last_opt evs with Some e => se (bsp e) | None => cs end.
Lemma last_end_app cs a b : last_end cs (a ++ b) = last_end (last_end cs a) b.
Proof.
  unfold last_end. destruct (rev_case b) as [->|(b' & x & ->)]; [rewrite app_nil_r; reflexivity|]. rewrite app_assoc, !last_opt_app. reflexivity.
Qed.
Lemma cells_last cells : forall cs, last_end cs (cells_evs cells) = cells_end cs cells.
Proof. induction cells as [|c cells IH]; intros cs; [reflexivity|]. unfold cells_evs. cbn [map concat cells_end]. rewrite last_end_app, <- IH. reflexivity. Qed.
Lemma row_cells_tick src rem aligns : span_ok src rem ->
  forall f lx pos cs sep verb col s s' p' sep' verb', lex_wf lx -> tinv lx -> lx_src lx = slice src rem -> pos = ss rem + lx_c lx -> cs <= pos -> lx_verb lx = match verb with Some _ => true | None => false end ->
  row_cells f src aligns lx pos cs sep verb col s = Ok (s', p', sep', verb') ->
  exists new, t_events s' = t_events s ++ new /\ forall m, verb' = Some m ->
    (verb = Some m /\ last_end cs new = cs /\ ~ List.In m (tick_runs 0 (lx_rest lx))) \/
    (exists a b, lx_rest lx = a ++ repeat "`"%char m ++ b /\ 0 < m /\ hd_is (fun c => beq c "`") b = false /\ ~ List.In m (tick_runs 0 b) /\ last_end cs new <= pos + length a).
Proof.
  intros Hr. induction f as [|f IH]; intros lx pos cs sep verb col s s' p' sep' verb' Hl Ht Hs Hp Hcs Hvb H; [discriminate|]. cbn [row_cells] in H.
  destruct (lex_next_ok lx Hl) as (o & l' & E & Es & Ev & Hw' & Ho). rewrite E in H. cbn [bind] in H.
  destruct o as [[k n]|].
  2:{ assert (X : s' = s /\ verb' = verb) by (injection H; auto). destruct X as [-> ->]. exists []. rewrite app_nil_r. split; [reflexivity|]. intros m Hm. left. split; [auto|]. split; [reflexivity|].
      destruct Ho as (-> & _). intros []. }
  destruct (lex_next_tick _ _ _ Hl Ht E) as ((K1 & K2) & Ht' & K3). destruct Ho as ((T1 & T2 & _ & T4) & Hc' & _). cbn [tk tlen] in *.
  assert (Hrest : lx_rest lx = firstn n (lx_rest lx) ++ lx_rest l').
  { rewrite <- (firstn_skipn n (lx_rest lx)) at 1. apply f_equal. unfold lx_rest. rewrite skipn_skipn, Es, Hc'. reflexivity. }
  assert (Hfl : length (firstn n (lx_rest lx)) = n) by (rewrite firstn_length; lia).
  assert (Hhd : k = LSeq Backtick -> hd_is (fun c => beq c "`") (lx_rest l') = false).
  { intros Hk. specialize (K1 Hk). unfold lx_rest. rewrite Es. destruct (skipn (lx_c l') (lx_src lx)) as [|c r] eqn:Er; [reflexivity|]. cbn.
    destruct (skipn_cons_nth _ _ _ _ Er) as [Hn _]. destruct (beq c "`") eqn:Ec; [|reflexivity]. apply beq_eq in Ec. subst c. contradiction. }
  assert (Hseq : k = LSeq Backtick -> firstn n (lx_rest lx) = repeat "`"%char n).
  { intros ->. cbn [kind_text seq_char] in T4. destruct T4 as [_ T4]. apply forallb_repeat in T4. rewrite Hfl in T4. exact T4. }
  assert (Hno : verb <> None -> k <> LSeq Backtick -> ~ List.In "`"%char (firstn n (lx_rest lx))).
  { intros Hv Hk Hin. rewrite Hvb in K2. destruct verb as [v|]; [|congruence]. apply In_nth_error in Hin. destruct Hin as (j & Hj). assert (j < n) by (rewrite <- Hfl; apply nth_error_Some; congruence).
    rewrite nth_error_firstn in Hj by auto. unfold lx_rest in Hj. rewrite nth_error_skipn in Hj. exact (K2 eq_refl Hk (lx_c lx + j) ltac:(lia) ltac:(lia) Hj). }
  assert (Hsv : forall v, k = LSeq Backtick -> lex_wf (lex_set_verb l' v) /\ tinv (lex_set_verb l' v)).
  { intros v Hk. split; [exact Hw'|]. destruct (K3 Hk) as [Y1 Y2]. split; [intros _; exact Y1|]. cbn [lx_next lex_set_verb]. rewrite Y2. exact I. }
  assert (Hlift : forall cs0 new m, (exists a b, lx_rest l' = a ++ repeat "`"%char m ++ b /\ 0 < m /\ hd_is (fun c => beq c "`") b = false /\ ~ List.In m (tick_runs 0 b) /\ last_end cs0 new <= pos + n + length a) ->
    exists a b, lx_rest lx = a ++ repeat "`"%char m ++ b /\ 0 < m /\ hd_is (fun c => beq c "`") b = false /\ ~ List.In m (tick_runs 0 b) /\ last_end cs0 new <= pos + length a).
  { intros cs0 new m (a & b & X1 & X2 & X3 & X4 & X5). exists (firstn n (lx_rest lx) ++ a), b. split; [rewrite Hrest at 1; rewrite X1, <- app_assoc; reflexivity|]. repeat (split; [assumption|]).
    rewrite app_length, Hfl. lia. }
  assert (Hpos : pos + n = ss rem + lx_c l') by lia. assert (Hes : lx_src l' = slice src rem) by congruence.
  (* a token that does not change the state *)
  assert (Hskip : lx_verb l' = match verb with Some _ => true | None => false end) by congruence.
  destruct verb as [l|].
  - assert (Hstay : forall H : row_cells f src aligns l' (pos + n) cs sep (Some l) col s = Ok (s', p', sep', verb'), (k = LSeq Backtick -> n <> l) ->
      exists new, t_events s' = t_events s ++ new /\ forall m, verb' = Some m ->
      (Some l = Some m /\ last_end cs new = cs /\ ~ List.In m (tick_runs 0 (lx_rest lx))) \/
      (exists a b, lx_rest lx = a ++ repeat "`"%char m ++ b /\ 0 < m /\ hd_is (fun c => beq c "`") b = false /\ ~ List.In m (tick_runs 0 b) /\ last_end cs new <= pos + length a)).
    { intros H0 Hk. destruct (IH l' (pos + n) cs sep (Some l) col s s' p' sep' verb' Hw' Ht' Hes Hpos ltac:(lia) Hskip H0) as (new & N1 & N2). exists new. split; [exact N1|].
      intros m Hm. destruct (N2 m Hm) as [(X1 & X2 & X3)|X]; [|right; apply Hlift; exact X]. injection X1 as ->. left. split; [reflexivity|]. split.
      - exact X2.
      - rewrite Hrest. destruct (match k with LSeq Backtick => true | _ => false end) eqn:Ek.
        + assert (Hk0 : k = LSeq Backtick) by (destruct k; try discriminate; destruct q; try discriminate; reflexivity). rewrite (Hseq Hk0), runs_seq by (auto; lia). intros [Y|Y]; [apply (Hk Hk0); auto|contradiction].
        + rewrite runs_notick; [exact X3|]. apply Hno; [discriminate|]. intros ->. discriminate. }
    destruct k; try (apply Hstay; [exact H|discriminate]). destruct q; try (apply Hstay; [exact H|discriminate]).
    destruct (Nat.eqb n l) eqn:En; [|apply Hstay; [exact H|intros _; apply Nat.eqb_neq; exact En]].
    destruct (Hsv false eq_refl) as [W1 W2]. destruct (IH (lex_set_verb l' false) (pos + n) cs sep None col s s' p' sep' verb' W1 W2 Hes Hpos ltac:(lia) eq_refl H) as (new & N1 & N2). exists new. split; [exact N1|].
    intros m Hm. destruct (N2 m Hm) as [(X1 & _)|X]; [discriminate|]. right. apply Hlift. exact X.
  - assert (Hstay : forall H : row_cells f src aligns l' (pos + n) cs sep None col s = Ok (s', p', sep', verb'), exists new, t_events s' = t_events s ++ new /\ forall m, verb' = Some m ->
      (None = Some m /\ last_end cs new = cs /\ ~ List.In m (tick_runs 0 (lx_rest lx))) \/
      (exists a b, lx_rest lx = a ++ repeat "`"%char m ++ b /\ 0 < m /\ hd_is (fun c => beq c "`") b = false /\ ~ List.In m (tick_runs 0 b) /\ last_end cs new <= pos + length a)).
    { intros H0. destruct (IH l' (pos + n) cs sep None col s s' p' sep' verb' Hw' Ht' Hes Hpos ltac:(lia) Hskip H0) as (new & N1 & N2). exists new. split; [exact N1|].
      intros m Hm. destruct (N2 m Hm) as [(X1 & _)|X]; [discriminate|]. right. apply Hlift. exact X. }
    destruct k as [| | | | | | |sy|q]; try (apply Hstay; exact H).
    + destruct sy; try (apply Hstay; exact H).
      apply bind_ok in H. destruct H as (sp & _ & H). apply bind_ok in H. destruct H as (c & _ & H). cbv zeta in H. apply bind_ok in H. destruct H as (s2 & E2 & H).
      destruct (exit_events _ _ _ E2) as (nn & X2). cbn [t_events t_inline t_enter t_push t_set_events t_set_open] in X2. rewrite <- !app_assoc in X2. cbn [app] in X2.
      destruct (IH l' (pos + n) (pos + n) _ None _ s2 s' p' sep' verb' Hw' Ht' Hes Hpos (le_n _) Hskip H) as (new & N1 & N2).
      eexists. split; [rewrite N1, X2, <- app_assoc; reflexivity|]. intros m Hm. right. destruct (N2 m Hm) as [(X1 & _)|X]; [discriminate|].
      assert (Hn1 : n = 1) by (cbn in T4; rewrite T4 in Hfl; cbn in Hfl; auto). apply Hlift in X. destruct X as (a & b & Y1 & Y2 & Y3 & Y4 & Y5). exists a, b. repeat (split; [assumption|]).
      rewrite last_end_app. change (last_end cs _) with (pos + 1). rewrite Hn1 in Y5. exact Y5.
    + destruct q; try (apply Hstay; exact H).
      destruct (Hsv true eq_refl) as [W1 W2]. destruct (IH (lex_set_verb l' true) (pos + n) cs sep (Some n) col s s' p' sep' verb' W1 W2 Hes Hpos ltac:(lia) eq_refl H) as (new & N1 & N2). exists new. split; [exact N1|].
      intros m Hm. right. destruct (N2 m Hm) as [(X1 & X2 & X3)|X]; [|apply Hlift; exact X]. injection X1 as ->. exists [], (lx_rest l'). cbn [app length].
      split; [rewrite Hrest at 1; rewrite (Hseq eq_refl); reflexivity|]. split; [lia|]. split; [auto|]. split; [exact X3|]. rewrite X2. lia.
Qed.
Lemma cells_bar src cells : forall lo hi, cells_ok src lo cells hi -> 0 < lo -> nth_error src (lo - 1) = Some "|"%char -> nth_error src (cells_end lo cells - 1) = Some "|"%char /\ lo <= cells_end lo cells /\ cells_end lo cells <= hi.
Proof.
  induction cells as [|c cells IH]; intros lo hi H H0 H1; cbn [cells_ok cells_end] in *; [auto|]. destruct H as (-> & _ & Hi & Q1 & Q2 & Q3 & Q4 & _ & _ & Q5).
  pose proof (proj1 (proj1 Hi)). destruct (IH (c_end c + 1) hi Q4 ltac:(lia)) as (X1 & X2 & X3); [replace (c_end c + 1 - 1) with (c_end c) by lia; exact Q5|]. split; [exact X1|]. split; [lia|exact X3].
Qed.
Lemma cells_cov src lo cells hi j : cells_ok src lo cells hi -> lo <= j -> j < cells_end lo cells -> cells_end lo cells <= length src -> white src j \/ bcov (cells_evs cells) j.
Proof.
  revert lo. induction cells as [|c cells IH]; intros lo H H1 H2 H3; cbn [cells_end] in *; [lia|].
  cbn [cells_ok] in H. destruct H as (-> & _ & Hi & Q1 & Q2 & Q3 & Q4 & W1 & W2 & _).
  assert (Hce : c_end c + 1 <= length src) by apply Q3. assert (Hle : ss (c_in c) <= se (c_in c)) by apply Hi.
  destruct (Nat.lt_ge_cases j (c_end c + 1)) as [X|X].
  - destruct (Nat.lt_ge_cases j (ss (c_in c))) as [X1|X1]; [left; apply (gap_slice src is_ws (c_lo c) (ss (c_in c))); auto; lia|].
    destruct (Nat.lt_ge_cases j (se (c_in c))) as [X2|X2].
    { right. exists (BE BInline (c_in c)). split; [right; left; auto|]. split; [discriminate|split; auto]. }
    destruct (Nat.lt_ge_cases j (c_end c)) as [X3|X3]; [left; apply (gap_slice src is_ws (se (c_in c)) (c_end c)); auto; lia|].
    right. exists (BE (BExit (NLeaf (FTableCell (c_al c)))) (Sp (c_end c) (c_end c + 1))). split; [right; right; left; auto|]. split; [discriminate|split; cbn; lia].
  - destruct (IH _ Q4 X H2 H3) as [?|(e & He & He')]; [auto|]. right. exists e. split; [|auto]. unfold cells_evs. cbn [map concat]. apply in_or_app. right. exact He.
Qed.
Lemma cells_evs_pe cells : Forall pe (cells_evs cells).
Proof. induction cells as [|c cells IH]; [constructor|]. unfold cells_evs. cbn [map concat]. apply Forall_app. split; [repeat constructor|exact IH]. Qed.
Lemma blank_white src r i : span_ok src r -> is_blank_line (slice src r) = true -> inn i r -> white src i.
Proof. intros Hs Hb [I1 I2]. apply blank_iff in Hb. refine (gap_slice src is_ws (ss r) (se r) _ _ _ i I1 I2); [apply Hs|apply Hs|]. destruct r; exact Hb. Qed.
Lemma trim_m_nonl l x r : trim_m is_ws l = x :: r -> (forall i, S i < length l -> nth_error l i <> Some NL) -> ~ List.In NL r.
Proof.
  intros E H Hin. unfold trim_m in E. set (l1 := trim_start_m is_ws l) in *. destruct (trim_end_spec is_ws l1) as (t & Et & _ & Hlast). rewrite E in Et, Hlast.
  apply In_nth_error in Hin. destruct Hin as (j & Hj). assert (Hjl : j < length r) by (apply nth_error_Some; congruence).
  unfold l1 in Et. rewrite trim_start_skipn in Et. set (n := count_while is_ws l) in *.
  assert (Hn : nth_error l (n + S j) = Some NL). { rewrite <- nth_error_skipn, Et. cbn [app]. cbn [nth_error]. rewrite nth_error_app1 by auto. exact Hj. }
  destruct (Nat.lt_ge_cases (S (n + S j)) (length l)) as [X|X]; [exact (H _ X Hn)|].
  assert (Hlen : length (skipn n l) = length ((x :: r) ++ t)) by (rewrite Et; reflexivity). rewrite skipn_length, app_length in Hlen. cbn [length] in Hlen.
  assert (j = length r - 1) as -> by lia. destruct (rev_case r) as [->|(r' & z & ->)]; [cbn in Hjl; lia|]. rewrite app_length in Hj. cbn in Hj. replace (length r' + 1 - 1) with (length r') in Hj by lia.
  rewrite nth_error_app2, Nat.sub_diag in Hj by lia. injection Hj as ->. change (x :: r' ++ [NL]) with ((x :: r') ++ [NL]) in Hlast. rewrite last_opt_app in Hlast. discriminate.
Qed.

Lemma table_rows_cov src : wfb src -> forall rows blanks aligns last s s' top,
  Forall (line_ok src) (rows ++ blanks) -> Forall (fun r => trow src r /\ is_blank_line (slice src r) = false) rows -> Forall (fun r => is_blank_line (slice src r) = true) blanks ->
  table_rows src (rows ++ blanks) aligns last s = Ok s' ->
  GS top s s' /\ forall i, inl i (rows ++ blanks) -> passed_block src i \/ bcov (t_events s') i.
Proof.
  intros Hw. induction rows as [|r rows IH]; intros blanks aligns last s s' top Hl Hr Hb E.
  { assert (Hs' : s' = s).
    { cbn [app] in *. destruct blanks as [|b blanks]; cbn [table_rows] in E; [apply okp1 in E; auto|]. apply bind_ok in E. destruct E as (rw & Er & E).
      pose proof (Forall_inv Hl) as Hlb. destruct (row_trim_ok src b Hw Hlb (or_introl (Forall_inv Hb))) as (rw' & Er' & Hrw & R1 & R2 & R3 & R4). rewrite Er' in Er. apply okp1 in Er. subst rw'.
      destruct (sp_empty rw) eqn:Ee; [apply okp1 in E; auto|]. exfalso. unfold sp_empty in Ee. apply negb_false_iff in Ee. apply Nat.ltb_lt in Ee. destruct (R4 Ee) as [R5 _].
      destruct (blank_white src b (ss rw) (proj1 Hlb) (Forall_inv Hb)) as (c & Hc & Hcw); [split; lia|]. rewrite R5 in Hc. injection Hc as <-. discriminate. }
    subst s'. split; [apply G_refl|]. intros i (l & Hin & Hi). left. left. rewrite Forall_forall in Hl, Hb. eapply blank_white; [apply (Hl l Hin)|apply (Hb l Hin)|auto]. }
  cbn [app table_rows] in E. cbn [app] in Hl. pose proof (Forall_inv Hl) as Hl0. pose proof (Forall_inv_tail Hl) as Hl'. destruct (Forall_inv Hr) as [Ht Hnb]. pose proof (Forall_inv_tail Hr) as Hr'.
  destruct (row_trim_ok src r Hw Hl0 Ht) as (rw & Er & Hi & B1 & B2 & B3 & Bp). pose proof Er as Er0. rewrite Er in E. cbn [bind] in E.
  destruct (sp_empty rw) eqn:Ee.
  { exfalso. unfold sp_empty in Ee. apply negb_true_iff in Ee. apply Nat.ltb_ge in Ee. assert (Hx : is_blank_line (slice src r) = true); [|congruence].
    apply blank_iff. apply forallb_forall. intros c Hc. apply In_nth_error in Hc. destruct Hc as (j & Hj).
    assert (Hjl : j < se r - ss r) by (rewrite <- (span_ok_len src r (proj1 Hl0)); apply nth_error_Some; congruence).
    rewrite slice_nth in Hj by lia. destruct (trim_in src r rw (ss r + j) Hw (proj1 Hl0) Er0) as [(c' & Hc' & Hw')|[X1 X2]]; [split; lia| |lia]. congruence. }
  unfold sp_empty in Ee. apply negb_false_iff in Ee. apply Nat.ltb_lt in Ee. specialize (Bp Ee). cbv zeta in Bp. destruct Bp as (Bp & Bt & Bn).
  assert (Hb1 : boundary src (ss rw + 1) = true) by (rewrite Nat.add_1_r; eapply wfb_after; eauto).
  assert (Hsl : se rw <= length src) by apply Hi.
  assert (Hrem : span_ok src (Sp (ss rw + 1) (se rw))).
  { destruct Hi as [(I1 & I2 & I3 & I4) _]. repeat split; cbn [ss se]; auto; lia. }
  rewrite span_ok_bsub in E by auto. cbn [bind] in E.
  set (s1 := t_enter s (NCont (BTableRow false)) (Sp (ss rw) (ss rw + 1))) in *.
  destruct (row_cells_ok src (Sp (ss rw + 1) (se rw)) aligns Hw Hrem (S (S (length (slice src (Sp (ss rw + 1) (se rw))))))
        (lex_new (slice src (Sp (ss rw + 1) (se rw)))) (ss rw + 1) (ss rw + 1) true None 0 s1) as (cells & sep & verb & Erc & Hcells & Hsep & Hcal & Hcend);
      [apply lex_wf_new|reflexivity|cbn; lia|cbn; lia|lia|exact Hb1|cbn; lia|apply lbar_new|left; reflexivity|]. cbn [ss se skipn] in *.
  destruct (row_cells_tick src (Sp (ss rw + 1) (se rw)) aligns Hrem _ _ _ _ true None 0 _ _ _ _ _ (lex_wf_new _) (tinv_new _) eq_refl (eq_sym (Nat.add_0_r _)) (le_n _) eq_refl Erc) as (new & Hnew & Htick).
  cbn [t_events t_set_events] in Hnew. apply app_inv_head in Hnew. subst new. rewrite cells_last in Htick.
  rewrite Erc in E. cbn [bind] in E.
  assert (Hev1 : t_events s1 = t_events s ++ [BE (BEnter (NCont (BTableRow false))) (Sp (ss rw) (ss rw + 1))]) by reflexivity.
  assert (Hcov : forall P, (forall i, inn i rw -> passed_block src i \/ P i) -> forall i, inn i r -> passed_block src i \/ P i).
  { intros P HP i Hin. destruct (trim_in src r rw i Hw (proj1 Hl0) Er0 Hin) as [?|Hin']; [left; left; auto|auto]. }
  destruct (sep && match verb with None => true | Some _ => false end)%bool eqn:Esep.
  - apply andb_prop in Esep. destruct Esep as [Esep Ever]. specialize (Hsep Esep). destruct verb as [?|]; [discriminate|]. specialize (Hcend eq_refl Bn).
    cbn [t_events t_set_events] in E. rewrite Hev1 in E.
    replace (skipn (length (t_events s) + 1) ((t_events s ++ [BE (BEnter (NCont (BTableRow false))) (Sp (ss rw) (ss rw + 1))]) ++ cells_evs cells)) with (cells_evs cells) in E.
    2:{ rewrite skipn_app, skipn_all2 by (rewrite app_length; cbn; lia). rewrite app_length. cbn [length]. rewrite Nat.sub_diag. reflexivity. }
    rewrite filter_cells in E.
    destruct (mapr_ok (fun e => ispan src (bsp e) /\ separator_cell (slice src (bsp e)) = true) (fun e a => align_mark a (slice src (bsp e))) (fun e => cell_align src (bsp e)) (map (fun c => BE BInline (c_in c)) cells))
        as (als & Ea & Hmk).
    { pose proof (cells_ispan _ _ _ _ Hcells) as Hisp. rewrite Forall_map. rewrite Forall_forall in *. intros c Hin. cbn. auto. }
    { intros e [E1 E2]. destruct (cell_align_ok src _ E1 E2) as [a Ha]. eauto. }
    rewrite Ea in E. cbn [bind] in E.
    assert (Hsr : sep_row als (slice src rw)).
    { rewrite Bt. eexists. split; [reflexivity|]. rewrite <- Hcend. eapply sep_text; [exact Hcells|]. clear - Hmk. remember (map (fun c => BE BInline (c_in c)) cells) as l eqn:El. revert cells El.
      induction Hmk; intros cells El; destruct cells as [|c cells]; try discriminate El; constructor; cbn [map] in El; injection El as -> ->; auto. }
    assert (Hbase : firstn (length (t_events s)) ((t_events s ++ [BE (BEnter (NCont (BTableRow false))) (Sp (ss rw) (ss rw + 1))]) ++ cells_evs cells) = t_events s).
    { rewrite <- app_assoc, firstn_app, firstn_all, Nat.sub_diag. cbn. apply app_nil_r. }
    cbn [t_events t_set_events t_set_open] in E. rewrite ?Hev1, Hbase in E.
    assert (Hrow : forall i, inn i r -> passed_block src i \/ bcov (t_events s') i).
    { apply (Hcov (bcov (t_events s'))). intros i [X1 X2]. left. right. right. left. exists rw, als. auto. }
    assert (Hfin : forall al' last' st, t_events st = t_events s \/ G top (t_events s) (t_events st) -> table_rows src (rows ++ blanks) al' last' st = Ok s' -> GS top s s' /\ forall i, inl i (r :: rows ++ blanks) -> passed_block src i \/ bcov (t_events s') i).
    { intros al' last' st Hst E'. destruct (IH blanks _ _ _ _ top Hl' Hr' Hb E') as [G1 C1]. split.
      - eapply G_trans; [|exact G1]. destruct Hst as [->|Hst]; [apply G_refl|exact Hst].
      - intros i Hin. apply inl_cons in Hin. destruct Hin; auto. }
    destruct last as [[he hx]|].
    + apply bind_ok in E. destruct E as (evs' & Eh & E). eapply Hfin; [|exact E]. right. exact (make_head_G top _ _ _ _ _ Eh).
    + eapply Hfin; [|exact E]. left. reflexivity.
  - apply bind_ok in E. destruct E as (s3 & E3 & E). destruct (exit_events _ _ _ E3) as (nn & Ev3). cbn [t_events t_set_events] in Ev3. rewrite Hev1 in Ev3.
    destruct (IH blanks _ _ _ _ top Hl' Hr' Hb E) as [G1 C1].
    assert (G3 : G top (t_events s) (t_events s3)).
    { rewrite Ev3, <- !app_assoc. apply G_app. apply Forall_app. split; [repeat constructor|]. apply Forall_app. split; [apply cells_evs_pe|repeat constructor]. }
    split; [exact (G_trans _ _ _ _ G3 G1)|]. intros i Hin. apply inl_cons in Hin. destruct Hin as [Hin|Hin]; [|auto].
    revert i Hin. apply (Hcov (bcov (t_events s'))). intros i [X1 X2].
    destruct verb as [v|].
    + destruct (Nat.eq_dec i (ss rw)) as [->|Hne].
      { right. apply (proj1 (proj2 G1)). rewrite Ev3. apply bcov_app. left. apply bcov_app. left. apply bcov_app. right. eexists. split; [left; reflexivity|]. split; [discriminate|]. split; cbn; lia. }
      destruct (cells_bar src cells (ss rw + 1) (se rw) Hcells) as (Hbar & Hce1 & Hce2); [lia|replace (ss rw + 1 - 1) with (ss rw) by lia; exact Bp|].
      destruct (Nat.lt_ge_cases i (cells_end (ss rw + 1) cells)) as [Hlt|Hge].
      { destruct (cells_cov src _ _ _ i Hcells) as [?|Hc]; [lia|lia|lia|left; left; auto|]. right. apply (proj1 (proj2 G1)). rewrite Ev3. apply bcov_app. left. apply bcov_app. right. exact Hc. }
      left. right. right. right. exists (ss rw), (Sp (cells_end (ss rw + 1) cells) (se rw)). cbn [ss se]. split; [lia|]. split; [exact Hge|]. split; [auto|]. split; [auto|]. split; [exact Bp|]. split; [exact Hbar|]. split.
      * replace (Sp (ss rw) (se rw)) with rw by (destruct rw; reflexivity). rewrite Bt. intros [X|Hin]; [discriminate|]. revert Hin.
        destruct (trim_m is_ws (slice src r)) as [|x q] eqn:Etm.
        { exfalso. apply trim_m_blank in Etm. congruence. }
        assert (Hq : slice src rw = trim_m is_ws (slice src r)).
        { unfold sp_trim in Er0. apply bind_ok in Er0. destruct Er0 as (y & Y1 & Y2). apply (trim_ws src r y rw Hw (proj1 Hl0) Y1 Y2). }
        rewrite Bt, Etm in Hq. injection Hq as <- ->. eapply trim_m_nonl; [exact Etm|]. apply line_one. auto.
      * destruct (Htick v eq_refl) as [(X & _)|(a & b & Y1 & Y2 & Y3 & Y4 & Y5)]; [discriminate|].
        unfold lx_rest, lx_c, pend in Y1. cbn [lx_src lex_new lx_pos lx_next skipn Nat.sub] in Y1.
        set (e := cells_end (ss rw + 1) cells) in *. exists (skipn (e - (ss rw + 1)) a), v, b. split; [|auto].
        replace (slice src (Sp e (se rw))) with (skipn (e - (ss rw + 1)) (slice src (Sp (ss rw + 1) (se rw)))).
        2:{ unfold slice. cbn [ss se]. rewrite skipn_firstn_comm, skipn_skipn. f_equal; [lia|]. f_equal. lia. }
        fold (slice src (Sp (ss rw + 1) (se rw))) in Y1. rewrite Y1, skipn_app. cbn [ss se] in Y5. replace (e - (ss rw + 1) - length a) with 0 by lia. reflexivity.
    + specialize (Hcend eq_refl Bn).
      assert (Hc3 : white src i \/ bcov (t_events s3) i).
      { destruct (Nat.eq_dec i (ss rw)) as [->|Hne].
        - right. rewrite Ev3. apply bcov_app. left. apply bcov_app. left. apply bcov_app. right. eexists. split; [left; reflexivity|]. split; [discriminate|]. split; cbn; lia.
        - destruct (cells_cov src _ _ _ i Hcells) as [?|Hc]; [lia|lia|lia|auto|]. right. rewrite Ev3. apply bcov_app. left. apply bcov_app. right. exact Hc. }
      destruct Hc3 as [?|Hc3]; [left; left; auto|]. right. apply (proj1 (proj2 G1)). exact Hc3.
Qed.
Lemma parse_table_cov src s ls sp_start sp_end s' top : wfb src -> Forall (line_ok src) ls -> Forall (fun l => clean src (ss l)) (tl ls) -> tlines src ls ->
  parse_table src s ls sp_start sp_end = Ok s' ->
  GS top s s' /\ forall i, inn i sp_start \/ inn i sp_end \/ inl i ls -> passed_block src i \/ bcov (t_events s') i.
Proof.
  intros Hw Hl Hcl (rows & blanks & post & -> & Hne & Hr & Hb & Hcap) E. unfold parse_table in E. rewrite app_assoc in *.
  assert (Ht : Forall (trow src) (rows ++ blanks)).
  { apply Forall_app. split; [eapply Forall_impl; [|exact Hr]; intros a Ha; apply Ha|]. eapply Forall_impl; [|exact Hb]. intros a Ha. left. exact Ha. }
  rewrite caption_pos_ok in E by auto. cbn [bind] in E. cbv zeta in E. set (s1 := t_enter s (NCont BTable) sp_start) in *.
  destruct (enter_G top s (NCont BTable) sp_start I) as [G1 C1]. fold s1 in G1, C1.
  apply Forall_app in Hl. destruct Hl as [Hl1 Hl2].
  assert (Hcls : Forall (fun l => clean src (ss l)) post).
  { destruct rows as [|r0 rows]; [congruence|]. cbn [app tl] in Hcl. apply Forall_app in Hcl. tauto. }
  apply bind_ok in E. destruct E as ([s2 n] & E2 & E). apply bind_ok in E. destruct E as (s3 & E3 & E).
  assert (Hcapt : GS top s1 s2 /\ n = length (rows ++ blanks) /\ forall i, inl i post -> passed_block src i \/ bcov (t_events s2) i).
  { destruct post as [|c cs].
    - apply okp in E2. destruct E2 as [-> ->]. rewrite app_nil_r. split; [apply G_refl|]. split; [auto|]. intros i Hi. destruct (inl_nil _ Hi).
    - rewrite skipn_app, skipn_all, Nat.sub_diag in E2. cbn [app skipn] in E2.
      apply bind_ok in E2. destruct E2 as (c1 & Ec & E2). apply bind_ok in E2. destruct E2 as (cl & Em & E2). apply bind_ok in E2. destruct E2 as (s1' & Ex & E2). apply okp in E2. destruct E2 as [-> ->].
      destruct (enter_G top s1 (NLeaf FCaption) sp_start I) as [G2 _]. destruct (inlines_G top (t_enter s1 (NLeaf FCaption) sp_start) cl) as [G3 C3]. destruct (exit_G top _ _ _ Ex) as [G4 _].
      split; [exact (G_trans _ _ _ _ G2 (G_trans _ _ _ _ G3 G4))|]. split; [auto|].
      pose proof (proj1 (Forall_inv Hl2)) as Hsc. destruct (caption_starts src c Hcap) as (r & Hst). destruct (trim_start_gap src c c1 Hw Hsc Ec) as (A1 & A2 & A3 & A4 & A5).
      assert (Hsl : slice src c1 = "^"%char :: SP :: r).
      { destruct (sp_trim_start_ok src c Hw Hsc) as [Ec' _]. rewrite Ec' in Ec. apply okp1 in Ec. subst c1. rewrite trim_skip_slice; [|auto|apply count_while_le]. rewrite <- trim_start_skipn. exact Hst. }
      pose proof (span_ok_len src c1 A5) as Hlc. rewrite Hsl in Hlc. cbn [length] in Hlc.
      assert (N0 : nth_error src (ss c1) = Some "^"%char). { pose proof (slice_nth src c1 0 ltac:(lia)) as Q. rewrite Hsl in Q. cbn in Q. rewrite Nat.add_0_r in Q. auto. }
      assert (N1 : nth_error src (S (ss c1)) = Some SP). { pose proof (slice_nth src c1 1 ltac:(lia)) as Q. rewrite Hsl in Q. cbn in Q. rewrite Nat.add_1_r in Q. auto. }
      assert (Hs2 : span_ok src (Sp (ss c1 + 2) (se c1))).
      { destruct A5 as (B1 & B2 & B3 & B4). repeat split; cbn [ss se]; auto; [lia|]. replace (ss c1 + 2) with (S (S (ss c1))) by lia. eapply wfb_after; eauto. }
      intros i Hi. apply inl_cons in Hi.
      assert (Hi' : passed_block src i \/ inl i (Sp (ss c1 + 2) (se c1) :: cs)).
      { rewrite inl_cons. destruct Hi as [Hi|Hi]; [|auto]. destruct (trim_start_in src c c1 i Hw Hsc Ec Hi) as [?|[X1 X2]]; [left; left; auto|].
        destruct (Nat.eq_dec i (ss c1)) as [->|Y1].
        { left. right. left. apply (clean_margin src (ss c) (S (ss c1))); [exact (Forall_inv Hcls)| |lia|lia]. apply (gap_join _ _ _ (ss c1)).
          - eapply gap_impl; [|exact A4]. intros x Hx. unfold margin_char. rewrite Hx. reflexivity.
          - intros j J1 J2. assert (j = ss c1) as -> by lia. exists "^"%char. auto. }
        destruct (Nat.eq_dec i (S (ss c1))) as [->|Y2]; [left; left; exists SP; auto|]. right. left. split; cbn; lia. }
      destruct Hi' as [?|Hi']; [auto|].
      destruct (inl_map_last (sp_trim_end src) (white src) _ _ i Em) as [?|Hi2]; [|exact Hi'|left; left; auto|].
      + intros l y Hin Ey j Hj. apply (trim_end_in src l y j Hw); auto. destruct Hin as [<-|Hin]; [auto|]. pose proof (Forall_inv_tail Hl2) as Hf. rewrite Forall_forall in Hf. apply Hf. auto.
      + right. apply (proj1 (proj2 G4)). auto. }
  destruct Hcapt as (G2 & -> & C2). rewrite firstn_app, firstn_all, Nat.sub_diag in E3. cbn [firstn] in E3. rewrite app_nil_r in E3.
  destruct (table_rows_cov src Hw rows blanks _ _ _ _ top Hl1 Hr Hb E3) as [G3 C3]. destruct (exit_G top _ _ _ E) as [G4 C4].
  split; [exact (G_trans _ _ _ _ G1 (G_trans _ _ _ _ G2 (G_trans _ _ _ _ G3 G4)))|].
  intros i [Hi|[Hi|Hi]].
  - right. apply (proj1 (proj2 G4)), (proj1 (proj2 G3)), (proj1 (proj2 G2)). auto.
  - right. auto.
  - apply inl_app in Hi. destruct Hi as [Hi|Hi].
    + destruct (C3 i Hi) as [?|?]; [auto|]. right. apply (proj1 (proj2 G4)). auto.
    + destruct (C2 i Hi) as [?|?]; [auto|]. right. apply (proj1 (proj2 G4)), (proj1 (proj2 G3)). auto.
Qed.
