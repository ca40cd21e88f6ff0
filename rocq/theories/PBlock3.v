(** * PBlock3: continuation lines and the ranges derived from lines *)
From Verif Require Import Base Lex Attr Block Lib PSafe SpecAttr PAttr PAttr3 PAttr4 PAttr5 PropsAttr SpecBlock PBlock1 PBlock2 PLex.
Local Open Scope nat_scope.

(** ** Moving the start of a line *)
Lemma span_shift src sp i : wfb src -> span_ok src sp -> i <= se sp - ss sp -> okpos (slice src sp) i -> span_ok src (Sp (ss sp + i) (se sp)).
Proof.
  intros Hw Hs Hi Ho. pose proof (okpos_boundary src sp i Hw Hs Hi Ho) as Hb. destruct Hs as (H1 & H2 & H3 & H4).
  repeat split; cbn [ss se]; auto; qlia.
Qed.
Lemma line_shift src sp i : wfb src -> line_ok src sp -> i <= se sp - ss sp -> okpos (slice src sp) i -> line_ok src (Sp (ss sp + i) (se sp)).
Proof.
  intros Hw (Hs & He & Ho) Hi Hk. split; [apply span_shift; auto|]. split; [exact He|].
  intros j Hj1 Hj2. cbn [ss se] in *. apply Ho; qlia.
Qed.
Lemma okpos_ascii l i : i <= length l -> forallb ascii7 (firstn i l) = true -> okpos l i.
Proof.
  intros Hi H. destruct i as [|i]; [left; auto|]. destruct (nth_error l i) as [c|] eqn:E; [|apply nth_error_None in E; lia].
  apply (okpos_after l i c); auto. apply (forallb_last _ _ _ _ H E).
Qed.
Lemma forallb_impl {A} (f g : A -> bool) l : (forall x, f x = true -> g x = true) -> forallb f l = true -> forallb g l = true.
Proof. intros H. rewrite !forallb_forall. auto. Qed.
Lemma okpos_le_count f l i : (forall c, f c = true -> ascii7 c = true) -> i <= count_while f l -> okpos l i.
Proof.
  intros Hf Hi. pose proof (count_while_le f l). apply okpos_ascii; [lia|].
  eapply forallb_impl; [exact Hf|]. apply forallb_firstn_count. auto.
Qed.
Lemma slice_full_len src sp : span_ok src sp -> length (slice src sp) = se sp - ss sp.
Proof. apply span_ok_len. Qed.

(** ** Trimming ranges *)
Lemma sp_trim_start_ok src sp : wfb src -> span_ok src sp ->
  sp_trim_start src sp = Ok (Sp (ss sp + count_while is_ws (slice src sp)) (se sp)) /\
  span_ok src (Sp (ss sp + count_while is_ws (slice src sp)) (se sp)).
Proof.
  intros Hw Hs. unfold sp_trim_start. rewrite span_ok_ssub by auto. cbn [bind].
  rewrite trim_start_len, span_ok_len by auto. pose proof (count_while_le is_ws (slice src sp)) as Hc.
  rewrite span_ok_len in Hc by auto. assert (ss sp <= se sp) by apply Hs. split.
  - do 2 f_equal. lia.
  - apply span_shift; auto. apply (okpos_le_count is_ws); auto. apply ws_ascii.
Qed.
Lemma trim_end_boundary src sp : wfb src -> span_ok src sp ->
  let n := length (trim_end_m is_ws (slice src sp)) in
  n <= se sp - ss sp /\ span_ok src (Sp (ss sp) (ss sp + n)) /\
  (ss sp + n = se sp \/ exists c, nth_error src (ss sp + n) = Some c /\ is_ws c = true).
Proof.
  intros Hw Hs n. destruct (trim_end_spec is_ws (slice src sp)) as (t & E & Ht & _). fold n in E.
  assert (Hl : n + length t = se sp - ss sp).
  { unfold n. rewrite <- app_length, <- E. apply span_ok_len. auto. }
  assert (Hcase : ss sp + n = se sp \/ exists c, nth_error src (ss sp + n) = Some c /\ is_ws c = true).
  { destruct t as [|c t]; [left; cbn in Hl; assert (ss sp <= se sp) by apply Hs; lia|]. right. exists c. cbn in Ht. apply andb_prop in Ht.
    split; [|tauto]. rewrite <- (slice_nth src sp n) by (cbn in Hl; lia). rewrite E, nth_error_app2; unfold n; [|lia].
    rewrite Nat.sub_diag. reflexivity. }
  split; [lia|]. split; [|auto]. destruct Hs as (H1 & H2 & H3 & H4). repeat split; cbn [ss se]; auto; try lia.
  destruct Hcase as [->|(c & Hc & Hw')]; [auto|]. eapply wfb_ascii_at; eauto. apply ws_ascii; auto.
Qed.
Lemma sp_trim_end_ok src sp : wfb src -> span_ok src sp -> text_end src (se sp) ->
  exists e, sp_trim_end src sp = Ok (Sp (ss sp) e) /\ span_ok src (Sp (ss sp) e) /\ e <= se sp /\ text_end src e /\
    e = ss sp + length (trim_end_m is_ws (slice src sp)).
Proof.
  intros Hw Hs Ht. unfold sp_trim_end. rewrite span_ok_ssub by auto. cbn [bind].
  destruct (trim_end_boundary src sp Hw Hs) as (H1 & H2 & H3). eexists. split; [reflexivity|]. split; [auto|].
  assert (ss sp <= se sp) by apply Hs. split; [lia|]. split; [|auto].
  destruct H3 as [->|(c & Hc & Hcw)]; [auto|]. right. eauto.
Qed.
(** A trimmed line of a leaf block. *)
Definition ispan (src : bytes) (sp : span) : Prop := span_ok src sp /\ text_end src (se sp).
Lemma line_ispan src sp : line_ok src sp -> ispan src sp.
Proof. intros (H1 & H2 & _). split; [auto|left; auto]. Qed.

(** [sub] ranges lie inside the lines they come from, in order. *)
Inductive within : list span -> list span -> Prop :=
| w_nil : within [] []
| w_cons a b ls ls' : ss b <= ss a -> ss a <= se a -> se a <= se b -> within ls ls' -> within (a :: ls) (b :: ls').
Lemma within_chain ls ls' : within ls ls' -> forall lo hi, chain lo ls' hi -> chain lo ls hi.
Proof.
  induction 1 as [|a b ls ls' H1 H2 H3 H IH]; intros lo hi Hc; [auto|]. cbn in *. destruct Hc as (C1 & C2 & C3).
  repeat split; try lia. eapply chain_weaken; [exact H3|apply le_n|]. auto.
Qed.
Lemma within_length ls ls' : within ls ls' -> length ls = length ls'.
Proof. induction 1; cbn; congruence. Qed.
Lemma within_size ls ls' : within ls ls' -> size ls <= size ls'.
Proof. induction 1 as [|a b ls ls' H1 H2 H3 H IH]; [auto|]. rewrite !size_cons. unfold sp_len. lia. Qed.
Lemma within_refl src ls : Forall (line_ok src) ls -> within ls ls.
Proof. induction 1 as [|l ls H Hl IH]; constructor; auto; destruct H as (H & _); destruct H; lia. Qed.
Lemma within_trans a b c : within a b -> within b c -> within a c.
Proof.
  intros H; revert c; induction H as [|x y a b H1 H2 H3 H IH]; intros c Hc; inversion Hc; subst; constructor; auto; lia.
Qed.
Lemma chain_tail lo l ls hi : chain lo (l :: ls) hi -> chain lo ls hi.
Proof. cbn. intros (H1 & H2 & H3). eapply chain_weaken; [|apply le_n|exact H3]. lia. Qed.
Lemma chain_filter f lo ls hi : chain lo ls hi -> chain lo (filter f ls) hi.
Proof.
  revert lo; induction ls as [|l ls IH]; intros lo H; [auto|]. cbn [filter]. destruct (f l).
  - cbn in *. destruct H as (H1 & H2 & H3). auto.
  - apply IH. eapply chain_tail; eauto.
Qed.

(** Monadic map over lines. *)
Lemma mapr_ok {A C} (P : A -> Prop) (Q : A -> C -> Prop) (f : A -> res C) ls :
  Forall P ls -> (forall x, P x -> exists y, f x = Ok y /\ Q x y) -> exists ys, mapr f ls = Ok ys /\ Forall2 Q ls ys.
Proof.
  intros HP Hf. induction HP as [|x ls Hx HP IH]; [exists []; split; [reflexivity|constructor]|].
  destruct (Hf x Hx) as (y & E & HQ). destruct IH as (ys & E2 & HQs). exists (y :: ys). cbn. rewrite E. cbn. rewrite E2. cbn. auto.
Qed.
Lemma Forall2_within (P : span -> Prop) ls ys :
  Forall2 (fun x y => P y /\ ss x <= ss y /\ ss y <= se y /\ se y <= se x) ls ys -> Forall P ys /\ within ys ls.
Proof. induction 1 as [|x y ls ys (H1 & H2 & H3 & H4) H [IH1 IH2]]; split; constructor; auto. Qed.

Lemma map_last_ok (P : span -> Prop) (f : span -> res span) ls :
  Forall P ls -> (forall x, P x -> exists y, f x = Ok y /\ P y /\ ss x <= ss y /\ ss y <= se y /\ se y <= se x) ->
  (forall x, P x -> ss x <= se x) ->
  exists ys, map_last f ls = Ok ys /\ Forall P ys /\ within ys ls.
Proof.
  intros HP Hf Hle. unfold map_last. destruct (last_opt ls) as [x|] eqn:E.
  - apply last_opt_some in E. destruct E as [l' ->]. apply Forall_app in HP. destruct HP as [HP1 HP2]. inversion HP2; subst.
    destruct (Hf x) as (y & Ey & Hy & H4 & H5 & H6); [auto|]. rewrite Ey. cbn [bind]. rewrite butlast_app. eexists. split; [reflexivity|]. split.
    + apply Forall_app. auto.
    + clear -HP1 H4 H5 H6 Hle. induction HP1; cbn; constructor; auto; try lia. constructor.
  - apply last_opt_none in E. subst ls. exists []. repeat split; constructor.
Qed.

Lemma mapr_lines (P : span -> Prop) (f : span -> res span) ls :
  Forall P ls -> (forall x, P x -> exists y, f x = Ok y /\ P y /\ ss x <= ss y /\ ss y <= se y /\ se y <= se x) ->
  exists ys, mapr f ls = Ok ys /\ Forall P ys /\ within ys ls.
Proof.
  intros HP Hf. destruct (mapr_ok P (fun x y => P y /\ ss x <= ss y /\ ss y <= se y /\ se y <= se x) f ls HP Hf) as (ys & E & H).
  exists ys. split; [auto|]. apply Forall2_within. auto.
Qed.

(** ** The inline ranges of a leaf block *)
Lemma unindent_ok src indent sp : wfb src -> line_ok src sp ->
  exists y, unindent src indent sp = Ok y /\ line_ok src y /\ ss sp <= ss y /\ ss y <= se y /\ se y <= se sp.
Proof.
  intros Hw Hl. unfold unindent. rewrite span_ok_bsub by apply Hl. cbn [bind]. eexists. split; [reflexivity|].
  set (m := Nat.min indent (count_while ws_not_nl (slice src sp))).
  assert (Hc : count_while ws_not_nl (slice src sp) <= se sp - ss sp).
  { rewrite <- (span_ok_len src sp) by apply Hl. apply count_while_le. }
  assert (ss sp <= se sp) by apply Hl.
  split; [apply line_shift; auto; [unfold m; lia|]|cbn; unfold m; lia].
  apply (okpos_le_count ws_not_nl); [|unfold m; lia]. intros c Hc'. apply ws_ascii, ws_not_nl_ws. auto.
Qed.
Lemma trim_start_ispan src sp : wfb src -> ispan src sp ->
  exists y, sp_trim_start src sp = Ok y /\ ispan src y /\ ss sp <= ss y /\ ss y <= se y /\ se y <= se sp.
Proof.
  intros Hw [Hs Ht]. destruct (sp_trim_start_ok src sp Hw Hs) as [E Hs']. eexists. split; [exact E|]. split; [split; [exact Hs'|exact Ht]|].
  destruct Hs' as (H1 & _). cbn in *. lia.
Qed.
Lemma trim_end_ispan src sp : wfb src -> ispan src sp ->
  exists y, sp_trim_end src sp = Ok y /\ ispan src y /\ ss sp <= ss y /\ ss y <= se y /\ se y <= se sp.
Proof.
  intros Hw [Hs Ht]. destruct (sp_trim_end_ok src sp Hw Hs Ht) as (e & E & Hs' & He & Ht' & _). eexists. split; [exact E|]. split; [split; auto|].
  destruct Hs' as (H1 & _). cbn in *. lia.
Qed.
Lemma ispan_le src sp : ispan src sp -> ss sp <= se sp.
Proof. intros [(H & _) _]. auto. Qed.
Lemma Forall_line_ispan src ls : Forall (line_ok src) ls -> Forall (ispan src) ls.
Proof. apply Forall_impl. apply line_ispan. Qed.

(** Every line but the last ends where a line of the source ends. *)
Fixpoint eols (src : bytes) (l : list span) : Prop :=
  match l with [] => True | x :: r => (r = [] \/ eol src (se x)) /\ eols src r end.
Definition lf_eols (src : bytes) (lf : leaf) (l : list span) : Prop :=
  match lf with FLinkDefinition _ => True | _ => eols src l end.
Lemma eols_all src l : Forall (fun x => eol src (se x)) l -> eols src l.
Proof. induction 1; cbn; auto. Qed.
Lemma eols_filter src f l : eols src l -> eols src (filter f l).
Proof.
  induction l as [|x r IH]; cbn; auto. intros [H1 H2]. destruct (f x); auto. cbn. split; auto.
  destruct H1 as [-> |H1]; auto.
Qed.
Lemma lf_eols_filter src lf f l : lf_eols src lf l -> lf_eols src lf (filter f l).
Proof. destruct lf; cbn; auto using eols_filter. Qed.
Lemma eols_snoc src l x y : eols src (l ++ [x]) -> eols src (l ++ [y]).
Proof.
  induction l as [|z l IH]; cbn; auto. intros [[H1|H1] H2]; split; auto.
  destruct l; discriminate.
Qed.
Lemma eols_map_last src f l l' : map_last f l = Ok l' -> eols src l -> eols src l'.
Proof.
  unfold map_last. destruct (last_opt l) as [x|] eqn:E.
  - apply last_opt_some in E. destruct E as [r ->]. rewrite butlast_app. destruct (f x); cbn; try discriminate.
    intros [= <-]. apply eols_snoc.
  - intros [= <-]; auto.
Qed.
Lemma mapr_Forall2 {A C} (f : A -> res C) ls : forall ys, mapr f ls = Ok ys -> Forall2 (fun x y => f x = Ok y) ls ys.
Proof.
  induction ls as [|x ls IH]; cbn; intros ys H; [injection H as <-; constructor|].
  apply bind_ok in H. destruct H as (y & E & H). apply bind_ok in H. destruct H as (r & E2 & H). injection H as <-. constructor; auto.
Qed.
Lemma trim_start_ends src ls ys : mapr (sp_trim_start src) ls = Ok ys ->
  Forall (fun x => eol src (se x)) ls -> Forall (fun x => eol src (se x)) ys.
Proof.
  intros H Hl. apply mapr_Forall2 in H. revert Hl. induction H as [|x y ls ys E H IH]; intros Hl; constructor; inversion Hl; subst; auto.
  unfold sp_trim_start in E. apply bind_ok in E. destruct E as (s & _ & E). injection E as <-. exact H2.
Qed.
Lemma leaf_lines_eols src lf k lo ls hi ys : wfb src -> lines_ok src lo ls hi -> leaf_lines src lf k ls = Ok ys -> lf_eols src lf ys.
Proof.
  intros Hw [Hl _] E.
  assert (He : Forall (fun x => eol src (se x)) ls) by (eapply Forall_impl; [|exact Hl]; intros x Hx; apply Hx).
  unfold leaf_lines in E.
  assert (Hgen : (let! ls1 := mapr (sp_trim_start src) ls in
     let ls2 := match ls1 with l :: ls' => if sp_empty l then ls' else ls1 | [] => ls1 end in
     let! ls3 := (match lf with FLinkDefinition _ => mapr (sp_trim_end src) ls2 | _ => Ok ls2 end) in
     map_last (sp_trim_end src) ls3) = Ok ys -> lf_eols src lf ys).
  { clear E. intros E. apply bind_ok in E. destruct E as (l1 & E1 & E). cbv zeta in E. apply (trim_start_ends _ _ _ E1) in He.
    set (l2 := match l1 with l :: ls' => if sp_empty l then ls' else l1 | [] => l1 end) in *.
    assert (H2 : Forall (fun x => eol src (se x)) l2).
    { unfold l2. destruct l1 as [|x l1]; auto. destruct (sp_empty x); auto. inversion He; auto. }
    apply eols_all in H2. destruct lf; try exact I; cbn [bind] in E; eapply eols_map_last; eauto. }
  destruct k; try (apply Hgen; exact E).
  clear Hgen. apply bind_ok in E. destruct E as (l1 & E1 & E).
  assert (H1 : Forall (fun x => eol src (se x)) l1).
  { destruct (mapr_lines (line_ok src) (unindent src indent) ls Hl) as (l1' & E1' & H1 & _).
    { intros x Hx. apply unindent_ok; auto. }
    rewrite E1 in E1'. injection E1' as <-. eapply Forall_impl; [|exact H1]. intros x Hx; apply Hx. }
  apply eols_all in H1.
  assert (H2 : eols src ys).
  { destruct (starts_c spec "="); [eapply eols_map_last; eauto|injection E as <-; auto]. }
  destruct lf; try exact H2; exact I.
Qed.

Lemma leaf_lines_ok src lf k lo ls hi : wfb src -> lines_ok src lo ls hi ->
  exists ys, leaf_lines src lf k ls = Ok ys /\ Forall (ispan src) ys /\ chain lo ys hi.
Proof.
  intros Hw [Hl Hc]. unfold leaf_lines.
  assert (Hgen : exists ys,
    (let! ls1 := mapr (sp_trim_start src) ls in
     let ls2 := match ls1 with l :: ls' => if sp_empty l then ls' else ls1 | [] => ls1 end in
     let! ls3 := (match lf with FLinkDefinition _ => mapr (sp_trim_end src) ls2 | _ => Ok ls2 end) in
     map_last (sp_trim_end src) ls3) = Ok ys /\ Forall (ispan src) ys /\ chain lo ys hi).
  { destruct (mapr_lines (ispan src) (sp_trim_start src) ls) as (l1 & -> & H1 & W1).
    { apply Forall_line_ispan; auto. } { intros x Hx. apply trim_start_ispan; auto. }
    cbn [bind]. apply (within_chain _ _ W1) in Hc. cbv zeta.
    set (l2 := match l1 with l :: ls' => if sp_empty l then ls' else l1 | [] => l1 end).
    assert (H2 : Forall (ispan src) l2 /\ chain lo l2 hi).
    { unfold l2. destruct l1 as [|x l1]; [auto|]. destruct (sp_empty x); [|auto]. inversion H1; subst. split; auto. eapply chain_tail; eauto. }
    destruct H2 as [H2 C2].
    assert (H3 : exists l3, (match lf with FLinkDefinition _ => mapr (sp_trim_end src) l2 | _ => Ok l2 end) = Ok l3 /\ Forall (ispan src) l3 /\ chain lo l3 hi).
    { destruct lf; try (eexists; split; [reflexivity|]; split; [exact H2|exact C2]).
      destruct (mapr_lines (ispan src) (sp_trim_end src) l2) as (l3 & -> & H3 & W3); auto.
      { intros x Hx. apply trim_end_ispan; auto. } exists l3. split; [auto|]. split; [auto|]. eapply within_chain; eauto. }
    destruct H3 as (l3 & -> & H3 & C3). cbn [bind].
    destruct (map_last_ok (ispan src) (sp_trim_end src) l3) as (l4 & -> & H4 & W4); auto.
    { intros x Hx. apply trim_end_ispan; auto. } { apply ispan_le. } exists l4. split; [auto|]. split; [auto|]. eapply within_chain; eauto. }
  destruct k; try exact Hgen.
  destruct (mapr_lines (line_ok src) (unindent src indent) ls Hl) as (l1 & -> & H1 & W1).
  { intros x Hx. apply unindent_ok; auto. } cbn [bind]. apply (within_chain _ _ W1) in Hc.
  apply Forall_line_ispan in H1. destruct (starts_c spec "="); [|exists l1; auto].
  destruct (map_last_ok (ispan src) (sp_trim_end src) l1) as (l4 & -> & H4 & W4); auto.
  { intros x Hx. apply trim_end_ispan; auto. } { apply ispan_le. } exists l4. split; [auto|]. split; [auto|]. eapply within_chain; eauto.
Qed.

(** ** Continuation lines *)
Definition heading_like (l : bytes) : bool :=
  let l1 := skipn (count_while is_ws l) l in
  let hash := count_while (fun c => beq c "#") l1 in
  Nat.ltb 0 hash && Nat.ltb 0 (count_while is_ws (skipn hash l1)).
Lemma ws_nl_trim l x : nth_error l (count_while is_ws l) = Some x -> beq x "#" = true ->
  count_while ws_not_nl l = count_while is_ws l \/ exists r, skipn (count_while ws_not_nl l) l = NL :: r.
Proof.
  induction l as [|c l IH]; cbn; [discriminate|]. destruct (is_ws c) eqn:E.
  - cbn. intros H1 H2. destruct (beq c NL) eqn:E2.
    + right. apply beq_eq in E2. subst c. exists l. reflexivity.
    + replace (ws_not_nl c) with true by (unfold ws_not_nl; rewrite E, E2; reflexivity).
      destruct (IH H1 H2) as [->|H]; auto.
  - intros _ _. left. replace (ws_not_nl c) with false by (unfold ws_not_nl; rewrite E; reflexivity). reflexivity.
Qed.
(** A line that looks like a heading is identified as one (or as blank, for a line break inside). *)
Lemma identify_heading l : heading_like l = true ->
  exists k sp, identify l = Ok (k, sp) /\ (exists lv, k = KHeading lv) \/ identify l = Ok (KAtom BBlankline, sp).
Proof.
  unfold heading_like. intros H. apply andb_prop in H. destruct H as [H1 H2]. apply Nat.ltb_lt in H1, H2.
  set (l1 := skipn (count_while is_ws l) l) in *.
  destruct l1 as [|c chars] eqn:El; [cbn in H1; lia|]. cbn in H1. destruct (beq c "#") eqn:Ec; [|lia].
  destruct (skipn_cons_nth _ _ _ _ El) as [Hn Hs].
  unfold identify. rewrite trim_start_skipn.
  destruct (ws_nl_trim l c Hn Ec) as [Hcw|[r Hr]].
  - rewrite Hcw. fold l1. rewrite El. apply beq_eq in Ec. subst c.
    change (beq "#" NL) with false. change (beq "#" "#") with true. cbv beta iota.
    cbn [count_while] in H2. change (beq "#" "#") with true in H2. cbv beta iota in H2. cbn [skipn] in H2.
    assert (Hh : hd_none_or is_ws (skipn (count_while (fun c => beq c "#") chars) chars) = true).
    { destruct (skipn _ chars) as [|x y]; [reflexivity|]. cbn in *. destruct (is_ws x); [reflexivity|lia]. }
    rewrite Hh. do 2 eexists. left. split; [reflexivity|]. eexists; reflexivity.
  - rewrite Hr. cbn. exists KParagraph. eexists. right. reflexivity.
Qed.
