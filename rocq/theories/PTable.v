(** * PTable: tables *)
From Verif Require Import Base Lex Attr Block Lib PSafe SpecAttr PAttr SpecBlock SpecOpen SpecLex PBlock1 PBlock2 PLex PBlock3 PBlock4 PTab0 PGram PTree1.
Local Open Scope nat_scope.

(** ** Cells and rows as data *)
Record cell := Cl { c_al : align; c_lo : nat; c_in : span; c_end : nat }.
Definition cell_evs (c : cell) : list bev :=
  [BE (BEnter (NLeaf (FTableCell (c_al c)))) (Sp (c_lo c) (c_lo c)); BE BInline (c_in c);
   BE (BExit (NLeaf (FTableCell (c_al c)))) (Sp (c_end c) (c_end c + 1))].
Definition cells_evs (l : list cell) : list bev := concat (map cell_evs l).
Fixpoint cells_ok (src : bytes) (lo : nat) (l : list cell) (hi : nat) : Prop :=
  match l with
  | [] => lo <= hi
  | c :: l' => lo = c_lo c /\ span_ok src (Sp (c_lo c) (c_lo c)) /\ ispan src (c_in c) /\ c_lo c <= ss (c_in c) /\ se (c_in c) <= c_end c /\
               span_ok src (Sp (c_end c) (c_end c + 1)) /\ cells_ok src (c_end c + 1) l' hi /\
               (forallb is_ws (slice src (Sp (c_lo c) (ss (c_in c)))) = true /\ forallb is_ws (slice src (Sp (se (c_in c)) (c_end c))) = true /\ nth_error src (c_end c) = Some "|"%char)
  end.
(** The cells of a row take the alignments in turn; where the last cell ends. *)
Fixpoint cells_al (als : list align) (l : list cell) : Prop :=
  match l with [] => True | c :: l' => c_al c = hd AlUnspecified als /\ cells_al (tl als) l' end.
Fixpoint cells_end (lo : nat) (l : list cell) : nat := match l with [] => lo | c :: l' => cells_end (c_end c + 1) l' end.
Lemma cells_sq src v l : forall als lo hi, cells_ok src lo l hi -> cells_al als l -> exists als', sq src v (XRow als) lo (cells_evs l) (XRow als') hi.
Proof.
  induction l as [|c l IH]; intros als lo hi H Ha; cbn [cells_ok] in H; [exists als; constructor; auto|].
  destruct H as (-> & H2 & H3 & H4 & H5 & H6 & H7 & H8). cbn [cells_al] in Ha. destruct Ha as [Ha Ha']. destruct (IH _ _ _ H7 Ha') as (als' & IH'). exists als'.
  change (cells_evs (c :: l)) with (BE (BEnter (NLeaf (FTableCell (c_al c)))) (Sp (c_lo c) (c_lo c)) :: inl_evs [c_in c] ++
    BE (BExit (NLeaf (FTableCell (c_al c)))) (Sp (c_end c) (c_end c + 1)) :: cells_evs l).
  eapply s_leaf; eauto.
  - rewrite Ha. apply li_cell.
  - split; [auto|exact I].
  - split; [constructor; [auto|constructor]|]. cbn. pose proof (ispan_le _ _ H3). lia.
  - exact I.
Qed.
Lemma cells_evs_app a b : cells_evs (a ++ b) = cells_evs a ++ cells_evs b.
Proof. unfold cells_evs. rewrite map_app, concat_app. reflexivity. Qed.

(** [r_sep] is the separator row after a head row and the alignments it gives. *)
Record row := Rw { r_sp : span; r_head : bool; r_cells : list cell; r_end : nat; r_sep : option (span * list align) }.
Definition row_evs (r : row) : list bev :=
  BE (BEnter (NCont (BTableRow (r_head r)))) (r_sp r) :: cells_evs (r_cells r) ++ [BE (BExit (NCont (BTableRow (r_head r)))) (Sp (r_end r) (r_end r))].
Definition rows_evs (l : list row) : list bev := concat (map row_evs l).
Definition sep_at (src : bytes) (lo : nat) (sp : span) (als : list align) : Prop := lo <= ss sp /\ span_ok src sp /\ sep_row als (slice src sp).
Definition row_als (als : list align) (r : row) : list align := match r_sep r with Some (_, a) => a | None => als end.
Definition row_hi (r : row) : nat := match r_sep r with Some (sp, _) => se sp | None => r_end r end.
Fixpoint als_after (als : list align) (l : list row) : list align := match l with [] => als | r :: l' => als_after (row_als als r) l' end.
Fixpoint rows_ok (src : bytes) (als : list align) (lo : nat) (l : list row) (hi : nat) : Prop :=
  match l with
  | [] => lo <= hi
  | r :: l' => lo <= ss (r_sp r) /\ span_ok src (r_sp r) /\ cells_ok src (se (r_sp r)) (r_cells r) (r_end r) /\
               span_ok src (Sp (r_end r) (r_end r)) /\ cells_al (row_als als r) (r_cells r) /\
               match r_sep r with Some (sp, a) => r_head r = true /\ sep_at src (r_end r) sp a | None => r_head r = false end /\
               rows_ok src (row_als als r) (row_hi r) l' hi
  end.
Lemma rows_sq src v l : forall b als d lo hi, d <> TDue -> rows_ok src als lo l hi -> exists b' als' d', sq src v (XTable b als d) lo (rows_evs l) (XTable b' als' d') hi /\ d' <> TDue.
Proof.
  induction l as [|r l IH]; intros b als d lo hi Hd H; cbn [rows_ok] in H; [exists b, als, d; split; [constructor; auto|auto]|].
  destruct H as (H1 & H2 & H3 & H4 & H5 & H6 & H7). destruct (IH false _ TNone _ _ ltac:(discriminate) H7) as (b' & als' & d' & Hs & Hd'). exists b', als', d'. split; [|auto].
  destruct (cells_sq _ v _ _ _ _ H3 H5) as (als2 & Hc).
  unfold rows_evs. cbn [map concat]. unfold row_evs at 1. cbn [app]. rewrite <- app_assoc. cbn [app].
  eapply s_node with (ic := XRow (row_als als r)) (m := XRow als2) (x' := XTable false (row_als als r) (if r_head r then TDue else TNone)); eauto; try exact I.
  - apply ci_row; [|auto]. unfold row_als. destruct (r_sep r) as [[sp a]|]; [destruct H6 as [-> _]; discriminate|auto].
  - unfold row_als, row_hi in *. cbn [se]. destruct (r_sep r) as [[sp a]|].
    + destruct H6 as [-> (S1 & S2 & S3)]. eapply s_sep; eauto; discriminate.
    + rewrite H6. exact Hs.
Qed.
Lemma rows_evs_app a b : rows_evs (a ++ b) = rows_evs a ++ rows_evs b.
Proof. unfold rows_evs. rewrite map_app, concat_app. reflexivity. Qed.
Lemma rows_ok_app src a b : forall als lo hi, rows_ok src als lo (a ++ b) hi <-> exists m, rows_ok src als lo a m /\ rows_ok src (als_after als a) m b hi.
Proof.
  induction a as [|r a IH]; intros als lo hi; cbn [app rows_ok als_after].
  - split; [intros H; exists lo; auto|]. intros (m & H1 & H2). destruct b; cbn in *; [lia|]. split; [lia|tauto].
  - rewrite IH. split.
    + intros (A & C & D & E & E1 & E2 & m & F & G). exists m. tauto.
    + intros (m & (A & C & D & E & E1 & E2 & F) & G). do 6 (split; [assumption|]). exists m. auto.
Qed.
Lemma rows_ok_hi src l : forall als lo hi hi', hi <= hi' -> rows_ok src als lo l hi -> rows_ok src als lo l hi'.
Proof. induction l as [|r l IH]; intros als lo hi hi' H; cbn; [lia|]. intros (A & C & D & E & E1 & E2 & F). do 6 (split; [assumption|]). eapply IH; eauto. Qed.
Lemma als_after_app a b : forall als, als_after als (a ++ b) = als_after (als_after als a) b.
Proof. induction a as [|r a IH]; intros als; [reflexivity|]. cbn. apply IH. Qed.

(** ** The text of a separator row *)
Lemma last_cons2 {A} (x y : A) l : last_opt (x :: y :: l) = last_opt (y :: l).
Proof. unfold last_opt. cbn [length]. rewrite !Nat.sub_succ, !Nat.sub_0_r. reflexivity. Qed.
Lemma hyphens t : forallb (fun c => beq c "-") t = true -> t = repeat "-"%char (length t).
Proof. induction t as [|c t IH]; [reflexivity|]. cbn. intros H. apply andb_prop in H. destruct H as [H1 H2]. apply beq_eq in H1. subst. f_equal. auto. Qed.
Lemma sep_shape t : separator_cell t = true -> exists (l : bool) n (r : bool), t = (if l then B ":" else []) ++ repeat "-"%char (S n) ++ (if r then B ":" else []).
Proof.
  destruct t as [|c [|d [|e t]]]; cbn [separator_cell]; try discriminate; intros H.
  - apply beq_eq in H. subst. exists false, 0, false. reflexivity.
  - apply orb_prop in H. destruct H as [H|H]; [apply orb_prop in H; destruct H as [H|H]|]; apply andb_prop in H; destruct H as [H1 H2]; apply beq_eq in H1; apply beq_eq in H2; subst.
    + exists true, 0, false. reflexivity.
    + exists false, 1, false. reflexivity.
    + exists false, 0, true. reflexivity.
  - apply andb_prop in H. destruct H as [H H3]. apply andb_prop in H. destruct H as [H1 H2].
    destruct (rev_case (d :: e :: t)) as [X|(u & x & X)]; [discriminate|]. rewrite X in *. rewrite last_opt_app in H2. rewrite butlast_app in H3. apply hyphens in H3.
    destruct u as [|u0 u]; [discriminate X|]. rewrite H3 in *. cbn [length repeat] in *.
    assert (Hsn : forall n, repeat "-"%char n ++ ["-"%char] = "-"%char :: repeat "-"%char n) by (induction n as [|n IHn]; [reflexivity|]; cbn [repeat app]; rewrite IHn; reflexivity).
    apply orb_prop in H1. apply orb_prop in H2. destruct H1 as [H1|H1], H2 as [H2|H2]; apply beq_eq in H1; apply beq_eq in H2; subst c x.
    + exists false, (S (S (length u))), false. cbn [app repeat]. rewrite Hsn, app_nil_r. reflexivity.
    + exists false, (S (length u)), true. reflexivity.
    + exists true, (S (length u)), false. cbn [app repeat]. rewrite Hsn, app_nil_r. reflexivity.
    + exists true, (length u), true. reflexivity.
Qed.
Lemma sep_text src cells : forall als lo hi, cells_ok src lo cells hi -> Forall2 (fun c a => align_mark a (slice src (c_in c))) cells als ->
  sep_cells als (slice src (Sp lo (cells_end lo cells))).
Proof.
  induction cells as [|c cells IH]; intros als lo hi H Ha; inversion Ha as [|? ? ? ? A1 A2]; subst; cbn [cells_end].
  - replace (slice src (Sp lo lo)) with (@nil ascii); [constructor|]. unfold slice. cbn. rewrite Nat.sub_diag. reflexivity.
  - cbn [cells_ok] in H. destruct H as (-> & H2 & H3 & H4 & H5 & H6 & H7 & W1 & W2 & W3). specialize (IH _ _ _ H7 A2).
    assert (Hle : c_end c + 1 <= cells_end (c_end c + 1) cells).
    { clear - H7. revert H7. generalize (c_end c + 1) as lo. induction cells as [|d cells IH]; intros lo H; [apply le_n|]. cbn [cells_end cells_ok] in *.
      destruct H as (-> & _ & H3 & H4 & H5 & _ & H & _). apply IH in H. pose proof (ispan_le _ _ H3). lia. }
    pose proof (ispan_le _ _ H3) as Hin.
    assert (E : slice src (Sp (c_lo c) (cells_end (c_end c + 1) cells)) = slice src (Sp (c_lo c) (ss (c_in c))) ++ slice src (c_in c) ++ slice src (Sp (se (c_in c)) (c_end c)) ++ B "|" ++ slice src (Sp (c_end c + 1) (cells_end (c_end c + 1) cells))).
    { assert (Ec : Sp (ss (c_in c)) (se (c_in c)) = c_in c) by (destruct (c_in c); reflexivity).
      rewrite <- (slice_app src (c_lo c) (ss (c_in c))) by lia. apply f_equal. rewrite <- (slice_app src (ss (c_in c)) (se (c_in c))) by lia. rewrite Ec. apply f_equal.
      rewrite <- (slice_app src (se (c_in c)) (c_end c)) by lia. apply f_equal. rewrite <- (slice_app src (c_end c) (c_end c + 1)) by lia. apply (f_equal2 (@app ascii)); [|reflexivity].
      unfold slice. cbn [ss se]. replace (c_end c + 1 - c_end c) with 1 by lia. rewrite (nth_skipn_cons _ _ _ W3). reflexivity. }
    rewrite E. apply sc_cons; auto.
Qed.

(** ** One row *)
Lemma nth_error_Some_lt {A} (l : list A) n x : nth_error l n = Some x -> n < length l.
Proof. intros H. apply nth_error_Some. congruence. Qed.
Lemma okp1 {A} (a b : A) : Ok a = Ok b -> b = a.
Proof. intros H. inversion H. reflexivity. Qed.
(** What trimming takes away is white space. *)
Lemma trim_ws src sp y z : wfb src -> span_ok src sp -> sp_trim_start src sp = Ok y -> sp_trim_end src y = Ok z ->
  forallb is_ws (slice src (Sp (ss sp) (ss z))) = true /\ forallb is_ws (slice src (Sp (se z) (se sp))) = true /\ slice src z = trim_m is_ws (slice src sp).
Proof.
  intros Hw Hs E1 E2. destruct (sp_trim_start_ok src sp Hw Hs) as [E Hy]. rewrite E in E1. apply okp1 in E1. set (n := count_while is_ws (slice src sp)) in *. subst y.
  unfold sp_trim_end in E2. rewrite span_ok_ssub in E2 by auto. cbn [bind] in E2. apply okp1 in E2. subst z. cbn [ss se].
  assert (Hn : n <= se sp - ss sp) by (rewrite <- (span_ok_len src sp Hs); apply count_while_le).
  assert (Hle : ss sp <= se sp) by apply Hs.
  assert (Ey : slice src (Sp (ss sp + n) (se sp)) = trim_start_m is_ws (slice src sp)).
  { rewrite trim_start_skipn. fold n. unfold slice. cbn [ss se]. rewrite skipn_firstn_comm, skipn_skipn. f_equal. lia. }
  destruct (trim_end_spec is_ws (slice src (Sp (ss sp + n) (se sp)))) as (t & Et & Ht & _).
  set (m := length (trim_end_m is_ws (slice src (Sp (ss sp + n) (se sp))))) in *.
  assert (Hl : length (slice src (Sp (ss sp + n) (se sp))) = se sp - (ss sp + n)) by (apply (span_ok_len src _ Hy)).
  assert (Hm : m <= se sp - (ss sp + n)) by (rewrite <- Hl; apply trim_end_le).
  assert (Em : slice src (Sp (ss sp + n) (ss sp + n + m)) = trim_end_m is_ws (slice src (Sp (ss sp + n) (se sp)))).
  { rewrite trim_end_prefix. fold m. unfold slice. cbn [ss se]. rewrite firstn_firstn. f_equal. lia. }
  split; [|split].
  - assert (X : slice src (Sp (ss sp) (ss sp + n)) = firstn n (slice src sp)) by (unfold slice; cbn [ss se]; rewrite firstn_firstn; f_equal; lia).
    rewrite X. apply count_while_firstn.
  - assert (X : slice src (Sp (ss sp + n + m) (se sp)) = t); [|rewrite X; exact Ht]. apply (app_inv_head (slice src (Sp (ss sp + n) (ss sp + n + m)))).
    rewrite slice_app by lia. rewrite Em, <- Et. reflexivity.
  - rewrite Em, Ey. reflexivity.
Qed.
Lemma skipn_hd_tl {A} (d : A) l n : hd d (skipn n l) = match nth_error l n with Some a => a | None => d end /\ tl (skipn n l) = skipn (n + 1) l.
Proof. revert n; induction l as [|x l IH]; intros [|n]; cbn; auto. Qed.
Lemma row_cells_ok src rem aligns : wfb src -> span_ok src rem ->
  forall f lx pos cs sep verb col s, lex_wf lx -> lx_src lx = slice src rem -> pos = ss rem + lx_c lx -> ss rem <= cs -> cs <= pos ->
  boundary src cs = true -> length (lx_rest lx) < f -> lbar lx -> (verb = None -> cs = pos \/ nobar (slice src rem) (lx_c lx)) ->
  exists cells sep' verb', row_cells f src aligns lx pos cs sep verb col s = Ok (t_set_events s (t_events s ++ cells_evs cells), se rem, sep', verb') /\
    cells_ok src cs cells (se rem) /\ (sep' = true -> Forall (fun c => separator_cell (slice src (c_in c)) = true) cells) /\
    cells_al (skipn col aligns) cells /\ (verb' = None -> (slice src rem = [] \/ ~ nobar (slice src rem) (length (slice src rem))) -> cells_end cs cells = se rem).
Proof.
  intros Hw Hr. assert (Hlen : length (slice src rem) = se rem - ss rem) by (apply span_ok_len; auto).
  assert (Hle : ss rem <= se rem) by apply Hr.
  induction f as [|f IH]; intros lx pos cs sep verb col s Hl Hs Hp Hc1 Hc2 Hb Hf Hba Hvb; [lia|]. cbn [row_cells].
  destruct (lex_next_ok lx Hl) as (o & l' & E & Es & Ev & Hw' & H). rewrite E. cbn [bind]. destruct (lex_next_bar _ _ _ Hl Hba E) as [Hba' Htb].
  assert (Hcle : lx_c lx <= length (lx_src lx)) by (apply lex_rest_le; auto).
  destruct o as [[k n]|].
  2:{ destruct H as (Hr0 & _). exists [], sep, verb. cbn [cells_evs map concat cells_ok]. rewrite app_nil_r. split; [|split; [|split; [constructor|split; [exact I|]]]].
      - assert (Hpos : pos = se rem).
        { unfold lx_rest in Hr0. apply skipn_nil_iff in Hr0. rewrite Hs, Hlen in *. lia. }
        rewrite Hpos. destruct s; reflexivity.
      - rewrite Hs in Hcle. lia.
      - intros Hv Hend. cbn [cells_end]. unfold lx_rest in Hr0. apply skipn_nil_iff in Hr0. rewrite Hs in *. rewrite Hlen in Hr0.
        destruct (Hvb Hv) as [-> |Hnb]; [lia|]. assert (Hce : lx_c lx = length (slice src rem)) by lia. rewrite Hce in *. destruct Hend as [Hend|Hend]; [|contradiction].
        rewrite Hend in *. cbn [length] in *. lia. }
  destruct H as ((T1 & T2 & T3 & T4) & Hc' & _). cbn [tlen tk] in *.
  assert (Hrl : length (lx_rest lx) = length (lx_src lx) - lx_c lx) by apply skipn_length.
  assert (Hrl' : length (lx_rest l') < f).
  { unfold lx_rest. rewrite skipn_length, Es, Hc'. lia. }
  assert (Hskip : forall lx2 sep0 verb0 cs0 col0 s0, lx_src lx2 = lx_src l' -> lx_pos lx2 = lx_pos l' -> lx_next lx2 = lx_next l' -> lex_wf lx2 ->
    ss rem <= cs0 -> cs0 <= pos + n -> boundary src cs0 = true -> lbar lx2 -> (verb0 = None -> cs0 = pos + n \/ nobar (slice src rem) (lx_c l')) ->
    exists cells sep' verb', row_cells f src aligns lx2 (pos + n) cs0 sep0 verb0 col0 s0 = Ok (t_set_events s0 (t_events s0 ++ cells_evs cells), se rem, sep', verb') /\
    cells_ok src cs0 cells (se rem) /\ (sep' = true -> Forall (fun c => separator_cell (slice src (c_in c)) = true) cells) /\
    cells_al (skipn col0 aligns) cells /\ (verb' = None -> (slice src rem = [] \/ ~ nobar (slice src rem) (length (slice src rem))) -> cells_end cs0 cells = se rem)).
  { intros lx2 sep0 verb0 cs0 col0 s0 Q1 Q2 Q3 Q4 Q5 Q6 Q7 Q8 Q9.
    assert (Hcc : lx_c lx2 = lx_c l') by (unfold lx_c, pend; rewrite Q2, Q3; reflexivity).
    apply IH; auto; [congruence|rewrite Hcc, Hc'; lia| |rewrite Hcc; exact Q9]. unfold lx_rest. rewrite Hcc, Q1. exact Hrl'. }
  assert (Hkeep : forall verb0, (verb0 = None -> nobar (slice src rem) (lx_c l')) -> exists cells sep' verb', row_cells f src aligns l' (pos + n) cs sep verb0 col s = Ok (t_set_events s (t_events s ++ cells_evs cells), se rem, sep', verb') /\
    cells_ok src cs cells (se rem) /\ (sep' = true -> Forall (fun c => separator_cell (slice src (c_in c)) = true) cells) /\
    cells_al (skipn col aligns) cells /\ (verb' = None -> (slice src rem = [] \/ ~ nobar (slice src rem) (length (slice src rem))) -> cells_end cs cells = se rem)).
  { intros verb0 Hv0. apply Hskip; auto; lia. }
  assert (Hnob : k <> LSym Pipe -> nobar (slice src rem) (lx_c l')) by (intros Hk; rewrite <- Hs; destruct Htb as [Htb|Htb]; [cbn in Htb; contradiction|exact Htb]).
  destruct verb as [l|].
  - destruct k; try (apply Hkeep; discriminate). destruct q; try (apply Hkeep; discriminate). destruct (Nat.eqb n l); [|apply Hkeep; discriminate].
    apply Hskip; auto; try lia. intros _. right. apply Hnob. discriminate.
  - destruct k as [| | | | | | |sy|q]; try (apply Hkeep; intros _; apply Hnob; discriminate).
    + destruct sy; try (apply Hkeep; intros _; apply Hnob; discriminate). cbn [kind_text sym_text] in T4.
      assert (Hn1 : n = 1).
      { assert (length (firstn n (lx_rest lx)) = n) by (rewrite firstn_length; lia). rewrite T4 in H. cbn in H. auto. }
      subst n.
      assert (Hpipe : nth_error src pos = Some "|"%char).
      { destruct (lx_rest lx) as [|c r] eqn:Er; [cbn in T2; lia|]. cbn in T4. injection T4 as ->.
        unfold lx_rest in Er. destruct (skipn_cons_nth _ _ _ _ Er) as [Hn _]. rewrite Hs in Hn.
        rewrite slice_nth in Hn by (apply nth_error_Some_lt in Hn; lia). subst pos. exact Hn. }
      assert (Hpos1 : pos + 1 <= se rem) by (rewrite Hs, Hlen in *; lia).
      assert (Hsl : se rem <= length src) by apply Hr.
      assert (Hbp : boundary src pos = true) by (eapply wfb_ascii_at; eauto).
      assert (Hbp1 : boundary src (pos + 1) = true) by (rewrite Nat.add_1_r; eapply wfb_after; eauto).
      assert (Hsp : ispan src (Sp cs pos)).
      { split; [repeat split; cbn [ss se]; auto; lia|]. right. exists "|"%char. auto. }
      unfold sp_trim. destruct (trim_start_ispan src _ Hw Hsp) as (y1 & Et1 & Hy1 & A1 & A2 & A3). rewrite Et1. cbn [bind].
      destruct (trim_end_ispan src _ Hw Hy1) as (y2 & Et2 & Hy2 & A4 & A5 & A6). rewrite Et2. cbn [bind].
      destruct (trim_ws src _ _ _ Hw (proj1 Hsp) Et1 Et2) as (W1 & W2 & _).
      rewrite span_ok_ssub by apply Hy2. cbn [bind].
      set (al := match nth_error aligns col with Some a => a | None => AlUnspecified end).
      change (t_inline (t_enter s (NLeaf (FTableCell al)) (Sp cs cs)) y2) with (t_inlines (t_enter s (NLeaf (FTableCell al)) (Sp cs cs)) [y2]).
      rewrite leaf_chunk. cbn [bind].
      destruct (Hskip l' (sep && separator_cell (slice src y2)) None (pos + 1) (col + 1)
                 (t_set_events s (t_events s ++ BE (BEnter (NLeaf (FTableCell al))) (Sp cs cs) :: inl_evs [y2] ++ [BE (BExit (NLeaf (FTableCell al))) (Sp pos (pos + 1))])))
        as (cells & sep' & verb' & Er & Hok & Hsep & Hal & Hend); auto; try qlia.
      rewrite Er. exists (Cl al cs y2 pos :: cells), sep', verb'. cbn [ss se] in *. split; [|split; [|split; [|split]]].
      * cbn [t_events t_set_events]. do 2 f_equal. f_equal. f_equal. unfold t_set_events. cbn [t_pblank t_ploose t_attr t_lists t_secs t_open t_events].
        rewrite <- app_assoc. reflexivity.
      * clear - Hok W1 W2 Hpipe Hbp Hbp1 Hpos1 Hsl Hsp Hy2 A1 A2 A3 A4 A5 A6 Hb Hc1 Hc2. cbn [cells_ok c_lo c_in c_end]. split; [lia|]. split; [repeat split; cbn [ss se]; auto; lia|]. split; [auto|]. split; [lia|]. split; [lia|].
        split; [repeat split; cbn [ss se]; auto; lia|]. split; [exact Hok|]. auto.
      * intros Hs'. specialize (Hsep Hs'). constructor; [|auto]. cbn [c_in].
        (* the flag only ever decreases *)
        revert Er Hs'. clear. intros Er Hs'.
        assert (Hmono : forall f aligns lx pos cs sep verb col s s' p' sep' verb', row_cells f src aligns lx pos cs sep verb col s = Ok (s', p', sep', verb') -> sep' = true -> sep = true).
        { clear. induction f as [|f IH]; intros aligns lx pos cs sep verb col s s' p' sep' verb' H Hs; [discriminate|]. cbn [row_cells] in H.
          destruct (lex_next lx) as [[[[k n]|] lx1]| |]; cbn [bind] in H; try discriminate; [|injection H as <- <- <- <-; auto].
          destruct verb as [l|].
          - destruct k; try (eapply IH; eauto; fail). destruct q; try (eapply IH; eauto; fail). destruct (Nat.eqb n l); eapply IH; eauto.
          - destruct k as [| | | | | | |sy|q]; try (eapply IH; eauto; fail).
            + destruct sy; try (eapply IH; eauto; fail).
              destruct (sp_trim src (Sp cs pos)) as [sp| |]; cbn [bind] in H; try discriminate.
              destruct (ssub src sp _) as [c| |]; cbn [bind] in H; try discriminate.
              destruct (t_exit _ _) as [s2| |]; cbn [bind] in H; try discriminate.
              apply IH in H; [|auto]. apply andb_prop in H. tauto.
            + destruct q; try (eapply IH; eauto; fail). }
        apply Hmono in Er; [|auto]. apply andb_prop in Er. tauto.
      * cbn [cells_al c_al]. destruct (skipn_hd_tl AlUnspecified aligns col) as [Q1 Q2]. rewrite Q1, Q2. split; [reflexivity|exact Hal].
      * cbn [cells_end c_end]. exact Hend.
    + destruct q; try (apply Hkeep; intros _; apply Hnob; discriminate). apply Hskip; auto; try lia. discriminate.
Qed.

(** ** Making the head row *)
Fixpoint set_aligns (l : list cell) (als : list align) : list cell :=
  match l with
  | [] => []
  | c :: l' => Cl (match als with a :: _ => a | [] => AlUnspecified end) (c_lo c) (c_in c) (c_end c) :: set_aligns l' (tl als)
  end.
Lemma realign_cells l : forall als tail, Forall (fun e => match bk e with BEnter (NLeaf (FTableCell _)) | BExit (NLeaf (FTableCell _)) => False | _ => True end) tail ->
  realign (cells_evs l ++ tail) als false = cells_evs (set_aligns l als) ++ tail.
Proof.
  induction l as [|c l IH]; intros als tail Ht.
  - cbn [cells_evs map concat app set_aligns]. generalize false. revert als. induction Ht as [|e tail He Ht IHt]; intros als b; [reflexivity|]. cbn [realign].
    destruct (bk e) as [[]| |[]| |]; try (f_equal; apply IHt); destruct l; try contradiction; f_equal; apply IHt.
  - specialize (IH (tl als) tail Ht). unfold cells_evs in *. cbn [map concat cell_evs app realign bk bsp set_aligns negb].
    cbn [c_al c_lo c_in c_end]. rewrite IH. reflexivity.
Qed.
Lemma set_aligns_ok src l : forall als lo hi, cells_ok src lo l hi -> cells_ok src lo (set_aligns l als) hi.
Proof. induction l as [|c l IH]; intros als lo hi H; [exact H|]. cbn [set_aligns cells_ok c_lo c_in c_end] in *. destruct H as (A & C & D & E & F & G & H & H'). do 6 (split; [assumption|]). split; [apply IH; exact H|exact H']. Qed.
Lemma set_aligns_al l : forall als, cells_al als (set_aligns l als).
Proof. induction l as [|c l IH]; intros als; cbn; [exact I|]. split; [destruct als; reflexivity|apply IH]. Qed.
Definition head_of (r : row) (sep : span) (als : list align) : row := Rw (r_sp r) true (set_aligns (r_cells r) als) (r_end r) (Some (sep, als)).
Lemma make_head_ok P r sep als : make_head (P ++ row_evs r) als (length P) (length P + 1 + length (cells_evs (r_cells r))) = Ok (P ++ row_evs (head_of r sep als)).
Proof.
  unfold make_head. assert (E1 : firstn (length P + 1) (P ++ row_evs r) ++ realign (skipn (length P + 1) (P ++ row_evs r)) als false =
    P ++ BE (BEnter (NCont (BTableRow (r_head r)))) (r_sp r) :: cells_evs (set_aligns (r_cells r) als) ++ [BE (BExit (NCont (BTableRow (r_head r)))) (Sp (r_end r) (r_end r))]).
  { rewrite firstn_app, firstn_all2, skipn_app, skipn_all2 by lia. replace (length P + 1 - length P) with 1 by lia.
    unfold row_evs. cbn [firstn skipn app]. rewrite realign_cells; [|constructor; [exact I|constructor]]. rewrite <- app_assoc. reflexivity. }
  rewrite E1. erewrite get_at_yes; [|rewrite nth_error_app2, Nat.sub_diag by lia; reflexivity]. cbn [bind bk bsp].
  rewrite set_at_yes by (rewrite app_length; cbn; lia). cbn [bind].
  replace (upd _ (length P) _) with (P ++ BE (BEnter (NCont (BTableRow true))) (r_sp r) :: cells_evs (set_aligns (r_cells r) als) ++ [BE (BExit (NCont (BTableRow (r_head r)))) (Sp (r_end r) (r_end r))]).
  2:{ rewrite <- (Nat.add_0_r (length P)). rewrite upd_app_r. reflexivity. }
  assert (Hlc : length (cells_evs (set_aligns (r_cells r) als)) = length (cells_evs (r_cells r))).
  { clear. revert als. induction (r_cells r) as [|c l IH]; intros als; [reflexivity|]. unfold cells_evs in *. cbn [map concat set_aligns]. rewrite !app_length, IH. reflexivity. }
  assert (Eidx : length P + 1 + length (cells_evs (r_cells r)) = length P + S (length (cells_evs (set_aligns (r_cells r) als)) + 0)) by lia.
  rewrite Eidx. erewrite get_at_yes.
  2:{ rewrite nth_error_app2 by lia. rewrite Nat.add_comm, Nat.add_sub. cbn [nth_error]. rewrite nth_error_app2 by lia. rewrite Nat.add_comm, Nat.add_sub. reflexivity. }
  cbn [bind bk bsp]. rewrite set_at_yes by (rewrite app_length; cbn [length]; rewrite app_length; cbn; lia).
  rewrite upd_app_r. cbn [upd]. rewrite upd_app_r. reflexivity.
Qed.

(** ** All rows *)
Lemma separator_nonempty c : separator_cell c = true -> c <> [].
Proof. destruct c; [discriminate|]. discriminate. Qed.
Lemma cell_align_ok src sp : ispan src sp -> separator_cell (slice src sp) = true -> exists a, cell_align src sp = Ok a /\ align_mark a (slice src sp).
Proof.
  intros [Hs _] Hsep. pose proof (separator_nonempty _ Hsep) as H. unfold cell_align. rewrite span_ok_ssub by auto. cbn [bind].
  set (l := slice src sp) in *. assert (Hl : 1 <= length l) by (destruct l; [congruence|cbn; lia]).
  destruct (get_at_some l 0 "block.rs:809") as (c & Hc & ->); [lia|]. cbn [bind].
  rewrite usub_yes by lia. cbn [bind]. destruct (get_at_some l (length l - 1) "block.rs:810") as (d & Hd & ->); [lia|]. cbn [bind].
  eexists. split; [reflexivity|]. destruct (sep_shape _ Hsep) as (lf & n & rt & E). exists n. change (nth_error l (length l - 1)) with (last_opt l) in Hd.
  assert (Hr : beq c ":" = lf) by (rewrite E in Hc; destruct lf; cbn in Hc; injection Hc as <-; reflexivity).
  assert (Hl2 : beq d ":" = rt).
  { assert (Hsn : forall n, repeat "-"%char (S n) = repeat "-"%char n ++ ["-"%char]) by (clear; induction n as [|n IHn]; [reflexivity|]; cbn [repeat app] in *; rewrite <- IHn; reflexivity).
    rewrite E in Hd. destruct rt; rewrite ?app_nil_r, ?app_assoc in Hd; [change (B ":") with [":"%char] in Hd|rewrite Hsn, app_assoc in Hd]; rewrite last_opt_app in Hd; injection Hd as <-; reflexivity. }
  rewrite Hr, Hl2, E. destruct lf, rt; reflexivity.
Qed.
Lemma filter_cells l : filter is_binline (cells_evs l) = map (fun c => BE BInline (c_in c)) l.
Proof. induction l as [|c l IH]; [reflexivity|]. unfold cells_evs in *. cbn [map concat]. rewrite filter_app, IH. reflexivity. Qed.
Lemma cells_ispan src l : forall lo hi, cells_ok src lo l hi -> Forall (fun c => ispan src (c_in c)) l.
Proof. induction l as [|c l IH]; intros lo hi H; constructor; cbn in H; [tauto|]. destruct H as (_ & _ & _ & _ & _ & _ & H & _). eapply IH; eauto. Qed.

Lemma row_trim_ok src r : wfb src -> line_ok src r -> trow src r ->
  exists rw, sp_trim src r = Ok rw /\ ispan src rw /\ ss r <= ss rw /\ ss rw <= se rw /\ se rw <= se r /\
  (ss rw < se rw -> nth_error src (ss rw) = Some "|"%char /\ let T := slice src (Sp (ss rw + 1) (se rw)) in slice src rw = "|"%char :: T /\ (T = [] \/ ~ nobar T (length T))).
Proof.
  intros Hw Hl Ht. pose proof (line_ispan _ _ Hl) as Hi. unfold sp_trim.
  destruct (sp_trim_start_ok src r Hw (proj1 Hi)) as [E Hs]. rewrite E. cbn [bind].
  set (y := Sp (ss r + count_while is_ws (slice src r)) (se r)) in *.
  assert (Hy : ispan src y) by (split; [exact Hs|exact (proj2 Hi)]).
  destruct (trim_end_ispan src y Hw Hy) as (z & Ez & Hz & A1 & A2 & A3). rewrite Ez. exists z. split; [auto|]. split; [auto|]. cbn [y ss se] in *.
  split; [lia|]. split; [auto|]. split; [auto|]. intros Hlt.
  assert (Hss : ss z = ss y).
  { unfold sp_trim_end in Ez. rewrite span_ok_ssub in Ez by apply Hs. cbn [bind] in Ez. injection Ez as <-. reflexivity. }
  assert (Hlen : length (slice src r) = se r - ss r) by (apply span_ok_len; apply Hi).
  rewrite Hss. cbn [y ss]. destruct Ht as [Hb|Hp].
  - exfalso. apply blank_iff in Hb. assert (count_while is_ws (slice src r) = length (slice src r)).
    { clear -Hb. induction (slice src r) as [|c l IH]; [auto|]. cbn in *. apply andb_prop in Hb. destruct Hb as [-> Hb]. f_equal. auto. }
    cbn [y ss] in Hss. lia.
  - destruct Hp as [Hp Hre]. rewrite trim_start_skipn in Hp. apply starts_c_inv in Hp. destruct Hp as [t Hp]. destruct (skipn_cons_nth _ _ _ _ Hp) as [Hn _].
    rewrite slice_nth in Hn by (rewrite <- Hlen; apply nth_error_Some; congruence). split; [exact Hn|]. cbv zeta.
    assert (Ez1 : slice src z = "|"%char :: slice src (Sp (ss z + 1) (se z))).
    { unfold slice. cbn [ss se]. rewrite Hss. cbn [y ss]. rewrite (nth_skipn_cons _ _ _ Hn). replace (se z - (ss r + count_while is_ws (slice src r))) with (S (se z - (ss r + count_while is_ws (slice src r) + 1))) by (cbn [y ss] in Hss; lia).
      cbn [firstn]. rewrite Nat.add_1_r. reflexivity. }
    cbn [y ss] in Hss. rewrite Hss in Ez1. split; [exact Ez1|]. destruct (trim_ws src r y z Hw (proj1 Hi) E Ez) as (_ & _ & Et). unfold row_end in Hre. rewrite <- Et, Ez1 in Hre.
    set (T := slice src (Sp _ _)) in *. clearbody T. revert Hre. clear. intros [R1 R2].
    destruct (rev_case T) as [-> |(u & x & ->)]; [left; reflexivity|right]. unfold ends_with in R1, R2. cbn [rev] in R1, R2. rewrite rev_app_distr in R1, R2.
    change (rev (B "|")) with ["|"%char] in R1. change (rev [BSL; "|"%char]) with ["|"%char; BSL] in R2. cbn [rev app starts_with] in R1, R2. apply andb_prop in R1. destruct R1 as [R1 _]. apply beq_eq in R1. subst x.
    rewrite app_length. cbn [length]. intros [N|[N1 N2]].
    + apply N. rewrite nth_error_app2 by lia. replace (length u + 1 - 1 - length u) with 0 by lia. reflexivity.
    + destruct (rev_case u) as [-> |(v & w & ->)]; [cbn in N1; lia|]. rewrite app_length in N2. cbn [length] in N2. rewrite <- app_assoc, nth_error_app2 in N2 by lia.
      replace (length v + 1 + 1 - 2 - length v) with 0 in N2 by lia. cbn in N2. injection N2 as ->. rewrite rev_app_distr in R2. cbn in R2. destruct (rev v); discriminate R2.
Qed.

Definition last_ok (P : list bev) (rws : list row) (last : option (nat * nat)) : Prop :=
  match last with
  | None => rws = []
  | Some (he, hx) => exists rws0 r, rws = rws0 ++ [r] /\ he = length (P ++ rows_evs rws0) /\ hx = he + 1 + length (cells_evs (r_cells r))
  end.
(** Separator rows before the first row of a table only set the alignments. *)
Definition presep (src : bytes) (als0 : list align) (lo0 : nat) (als : list align) (lo : nat) : Prop :=
  (als = als0 /\ lo = lo0) \/ exists sp, sep_at src lo0 sp als /\ lo = se sp.
Lemma table_rows_ok src P : wfb src -> forall rows aligns last s rws als0 lo0 lo hi,
  Forall (fun r => line_ok src r /\ trow src r) rows -> chain lo rows hi ->
  t_events s = P ++ rows_evs rws -> rows_ok src als0 lo0 rws lo -> als_after als0 rws = aligns -> last_ok P rws last ->
  exists als1 lo1 rws', table_rows src rows aligns last s = Ok (t_set_events s (P ++ rows_evs rws')) /\ presep src als0 lo0 als1 lo1 /\ rows_ok src als1 lo1 rws' hi.
Proof.
  intros Hw. induction rows as [|r rows IH]; intros aligns last s rws als0 lo0 lo hi Hf Hc He Hok Hals Hlast; cbn [table_rows].
  - exists als0, lo0, rws. split; [rewrite <- He; destruct s; reflexivity|]. split; [left; auto|]. cbn in Hc. eapply rows_ok_hi; eauto.
  - pose proof (Forall_inv Hf) as [Hl Ht]. pose proof (Forall_inv_tail Hf) as Hf'. cbn [chain] in Hc. destruct Hc as (C1 & C2 & C3).
    pose proof (chain_le _ _ _ C3) as C4.
    destruct (row_trim_ok src r Hw Hl Ht) as (rw & Er & Hi & B1 & B2 & B3 & Bp). rewrite Er. cbn [bind].
    destruct (sp_empty rw) eqn:Ee.
    { exists als0, lo0, rws. split; [rewrite <- He; destruct s; reflexivity|]. split; [left; auto|]. eapply rows_ok_hi; [|exact Hok]. lia. }
    unfold sp_empty in Ee. apply negb_false_iff in Ee. apply Nat.ltb_lt in Ee. specialize (Bp Ee). cbv zeta in Bp. destruct Bp as (Bp & Bt & Bn).
    assert (Hb1 : boundary src (ss rw + 1) = true) by (rewrite Nat.add_1_r; eapply wfb_after; eauto).
    assert (Hsl : se rw <= length src) by apply Hi.
    assert (Hrem : span_ok src (Sp (ss rw + 1) (se rw))).
    { destruct Hi as [(I1 & I2 & I3 & I4) _]. repeat split; cbn [ss se]; auto; lia. }
    rewrite span_ok_bsub by auto. cbn [bind].
    set (s1 := t_enter s (NCont (BTableRow false)) (Sp (ss rw) (ss rw + 1))).
    destruct (row_cells_ok src (Sp (ss rw + 1) (se rw)) aligns Hw Hrem (S (S (length (slice src (Sp (ss rw + 1) (se rw))))))
        (lex_new (slice src (Sp (ss rw + 1) (se rw)))) (ss rw + 1) (ss rw + 1) true None 0 s1) as (cells & sep & verb & Erc & Hcells & Hsep & Hcal & Hcend);
      [apply lex_wf_new|reflexivity|cbn; lia|cbn; lia|lia|exact Hb1|cbn; lia|apply lbar_new|left; reflexivity|]. cbn [ss se skipn] in *.
    rewrite Erc. cbn [bind].
    assert (Hev1 : t_events s1 = t_events s ++ [BE (BEnter (NCont (BTableRow false))) (Sp (ss rw) (ss rw + 1))]) by reflexivity.
    destruct (sep && match verb with None => true | Some _ => false end) eqn:Esep.
    + apply andb_prop in Esep. destruct Esep as [Esep Ever]. specialize (Hsep Esep). destruct verb as [?|]; [discriminate|]. specialize (Hcend eq_refl Bn).
      cbn [t_events t_set_events]. rewrite Hev1.
      replace (skipn (length (t_events s) + 1) ((t_events s ++ [BE (BEnter (NCont (BTableRow false))) (Sp (ss rw) (ss rw + 1))]) ++ cells_evs cells)) with (cells_evs cells).
      2:{ rewrite skipn_app, skipn_all2 by (rewrite app_length; cbn; lia). rewrite app_length. cbn [length]. rewrite Nat.sub_diag. reflexivity. }
      rewrite filter_cells.
      destruct (mapr_ok (fun e => ispan src (bsp e) /\ separator_cell (slice src (bsp e)) = true) (fun e a => align_mark a (slice src (bsp e))) (fun e => cell_align src (bsp e)) (map (fun c => BE BInline (c_in c)) cells))
        as (als & Ea & Hmk).
      { pose proof (cells_ispan _ _ _ _ Hcells) as Hisp. rewrite Forall_map. rewrite Forall_forall in *. intros c Hin. cbn. auto. }
      { intros e [E1 E2]. destruct (cell_align_ok src _ E1 E2) as [a Ha]. eauto. }
      rewrite Ea. cbn [bind].
      assert (Hsr : sep_row als (slice src rw)).
      { rewrite Bt. eexists. split; [reflexivity|]. rewrite <- Hcend. eapply sep_text; [exact Hcells|]. clear - Hmk. remember (map (fun c => BE BInline (c_in c)) cells) as l eqn:El. revert cells El.
        induction Hmk; intros cells El; destruct cells as [|c cells]; try discriminate El; constructor; cbn [map] in El; injection El as -> ->; auto. }
      assert (Hbase : firstn (length (t_events s)) ((t_events s ++ [BE (BEnter (NCont (BTableRow false))) (Sp (ss rw) (ss rw + 1))]) ++ cells_evs cells) = t_events s).
      { rewrite <- app_assoc, firstn_app, firstn_all, Nat.sub_diag. cbn. apply app_nil_r. }
      cbn [t_events t_set_events t_set_open]. rewrite ?Hev1, Hbase.
      destruct last as [[he hx]|].
      * destruct Hlast as (rws0 & r0 & -> & -> & ->). rewrite He, rows_evs_app. change (rows_evs [r0]) with (row_evs r0 ++ []). rewrite app_nil_r, app_assoc.
        rewrite (make_head_ok _ r0 rw als). cbn [bind]. rewrite <- app_assoc.
        match goal with |- context [table_rows src rows als _ ?st] => destruct (IH als (Some (length (P ++ rows_evs rws0), length (P ++ rows_evs rws0) + 1 + length (cells_evs (r_cells r0)))) st (rws0 ++ [head_of r0 rw als]) als0 lo0 (se rw) hi) as (als1 & lo1 & rws' & Et & Hpre & Hok'); auto end.
        { eapply chain_weaken; [|apply le_n|exact C3]. lia. }
        { cbn [t_events t_set_events]. rewrite rows_evs_app. change (rows_evs [head_of r0 rw als]) with (row_evs (head_of r0 rw als) ++ []). rewrite app_nil_r, ?app_assoc. reflexivity. }
        { apply rows_ok_app in Hok. destruct Hok as (m & O1 & O2). apply rows_ok_app. exists m. split; [auto|]. cbn [rows_ok head_of r_sp r_cells r_end] in *.
          destruct O2 as (X1 & X2 & X3 & X4 & X5 & X6 & X7). do 2 (split; [assumption|]). split; [apply set_aligns_ok; auto|]. split; [auto|]. cbn [row_als head_of r_sep row_hi].
          split; [apply set_aligns_al|]. split; [|apply le_n]. split; [reflexivity|]. split; [|split; [apply Hi|exact Hsr]].
          unfold row_hi in X7. destruct (r_sep r0) as [[? ?]|]; [|cbn in X7; lia]. destruct X6 as [_ (Y1 & (Y2 & _) & _)]. cbn in X7. lia. }
        { rewrite als_after_app. reflexivity. }
        { exists rws0, (head_of r0 rw als). repeat split; auto. cbn [head_of r_cells].
          assert (Hlc : length (cells_evs (set_aligns (r_cells r0) als)) = length (cells_evs (r_cells r0))).
          { clear. revert als. induction (r_cells r0) as [|c l IH]; intros als; [reflexivity|]. unfold cells_evs in *. cbn [map concat set_aligns]. rewrite !app_length, IH. reflexivity. }
          rewrite Hlc. reflexivity. }
        exists als1, lo1, rws'. split; [rewrite Et; reflexivity|]. split; [exact Hpre|exact Hok'].
      * cbn in Hlast. subst rws. cbn in Hok.
        match goal with |- context [table_rows src rows als _ ?st] => destruct (IH als None st [] als (se rw) (se rw) hi) as (als1 & lo1 & rws' & Et & Hpre & Hok'); auto end.
        { eapply chain_weaken; [|apply le_n|exact C3]. lia. }
        { cbn. apply le_n. } { reflexivity. }
        assert (Hat : sep_at src lo0 rw als) by (split; [lia|split; [apply Hi|exact Hsr]]).
        exists als1, lo1, rws'. split; [rewrite Et; reflexivity|]. split; [|exact Hok']. right. destruct Hpre as [[-> ->]|(sp2 & (P1 & P2 & P3) & ->)]; [exists rw; auto|].
        exists sp2. split; [split; [lia|auto]|auto].
    + unfold t_exit, t_pop_open. cbn [t_open t_set_events s1 t_enter t_set_open t_push t_events].
      erewrite get_at_yes; [|rewrite <- app_assoc, nth_error_app2, Nat.sub_diag by lia; reflexivity]. cbn [bind bk].
      set (nr := Rw (Sp (ss rw) (ss rw + 1)) false cells (se rw) None).
      match goal with |- context [table_rows src rows aligns ?lst ?st] => destruct (IH aligns lst st (rws ++ [nr]) als0 lo0 (se rw) hi) as (als1 & lo1 & rws' & Et & Hpre & Hok'); auto end.
      { eapply chain_weaken; [|apply le_n|exact C3]. lia. }
      { cbn [t_push t_events t_set_events t_set_open]. rewrite He, rows_evs_app. change (rows_evs [nr]) with (row_evs nr ++ []). rewrite app_nil_r. unfold row_evs. cbn [nr r_head r_sp r_cells r_end].
        repeat (rewrite <- app_assoc; cbn [app]). reflexivity. }
      { apply rows_ok_app. exists lo. split; [auto|]. cbn [rows_ok nr r_sp r_cells r_end ss se]. split; [lia|].
        destruct Hi as [(I1 & I2 & I3 & I4) _]. split; [repeat split; cbn [ss se]; auto; lia|]. split; [auto|]. split; [repeat split; cbn [ss se]; auto; lia|]. rewrite Hals. split; [exact Hcal|]. split; [reflexivity|]. cbn. lia. }
      { rewrite als_after_app. cbn. exact Hals. }
      { exists rws, nr. split; [auto|]. rewrite He. split; [reflexivity|]. cbn [t_events t_set_events t_push t_set_open nr r_cells]. rewrite !app_length. cbn. lia. }
      exists als1, lo1, rws'. split; [rewrite Et; reflexivity|]. auto.
Qed.

(** ** The whole table *)
Lemma trow_not_caption src sp : trow src sp -> starts_c (trim_start_m is_ws (slice src sp)) "^" = false.
Proof.
  intros [Hb|[Hp _]].
  - apply blank_iff in Hb. replace (trim_start_m is_ws (slice src sp)) with (@nil ascii); [reflexivity|].
    induction (slice src sp) as [|c l IH]; [reflexivity|]. cbn in *. apply andb_prop in Hb. destruct Hb as [-> Hb]. auto.
  - apply starts_c_inv in Hp. destruct Hp as [r ->]. reflexivity.
Qed.
Lemma caption_starts src sp : caption_line src sp -> exists r, trim_start_m is_ws (slice src sp) = "^"%char :: SP :: r.
Proof.
  unfold caption_line. intros H. destruct (trim_m_prefix (slice src sp)) as (u & E & _). rewrite E.
  change (B "^ ") with ["^"%char; SP] in H.
  destruct (trim_m is_ws (slice src sp)) as [|a [|b r]]; cbn [starts_with] in H; rewrite ?andb_false_r in H; try discriminate.
  apply andb_prop in H. destruct H as [H1 H2]. apply andb_prop in H2. destruct H2 as [H2 _]. apply beq_eq in H1, H2. subst. cbn [app]. eauto.
Qed.
Definition table_lines (src : bytes) (ls : list span) : Prop :=
  exists pre post, ls = pre ++ post /\ Forall (trow src) pre /\ match post with [] => True | p :: _ => caption_line src p end.
Lemma caption_pos_ok src pre post : Forall (line_ok src) (pre ++ post) -> Forall (trow src) pre ->
  match post with [] => True | p :: _ => caption_line src p end ->
  caption_pos src (pre ++ post) = Ok (match post with [] => None | _ => Some (length pre) end).
Proof.
  induction pre as [|sp pre IH]; intros Hl Ht Hp; cbn [app caption_pos].
  - destruct post as [|p post]; [reflexivity|]. cbn [app] in Hl. inversion Hl; subst. cbn [caption_pos]. rewrite span_ok_ssub by apply H1. cbn [bind].
    destruct (caption_starts src p Hp) as [r ->]. reflexivity.
  - inversion Hl; subst. inversion Ht; subst. rewrite span_ok_ssub by apply H1. cbn [bind]. rewrite trow_not_caption by auto.
    rewrite IH by auto. cbn [bind]. destruct post; reflexivity.
Qed.
Lemma Forall_combine_tl {A} (P Q : A -> Prop) l : Forall P l -> Forall Q l -> Forall (fun x => P x /\ Q x) l.
Proof. intros H. induction H; intros HQ; inversion HQ; subst; constructor; auto. Qed.

Lemma exit_quiet n : match n with NLeaf FParagraph | NLeaf (FHeading _ _ _) | NCont (BBlockquote | BTable | BList _ _) => False | _ => True end -> quiet (Some (BExit n)).
Proof. intros H b. destruct b; cbn; auto; destruct n as [[]|[]]; try contradiction; exact I. Qed.
Lemma rows_qev l : Forall qev (rows_evs l).
Proof.
  unfold rows_evs. apply Forall_concat. apply Forall_map, Forall_forall. intros r _. unfold row_evs. constructor; [apply quiet_enter|]. apply Forall_app. split; [|repeat constructor; apply exit_quiet; exact I].
  unfold cells_evs. apply Forall_concat. apply Forall_map, Forall_forall. intros c _. unfold cell_evs. repeat constructor; [apply quiet_enter|apply quiet_inline|apply exit_quiet; exact I].
Qed.
Lemma parse_table_ok src s ls sp_start sp_end x pos : wfb src -> flow x -> pos <= ss sp_start -> se sp_start = ss sp_start -> span_ok src sp_start -> span_ok src sp_end ->
  lines_ok src (se sp_start) ls (ss sp_end) -> table_lines src ls -> lined src sp_start sp_end /\ opened src (fun _ r => row_text r) sp_start ->
  exists inner, let chunk := BE (BEnter (NCont BTable)) sp_start :: inner ++ [BE (BExit (NCont BTable)) sp_end] in
    parse_table src s ls sp_start sp_end = Ok (t_set_events s (t_events s ++ chunk)) /\ (forall v, sq src v x pos chunk x (se sp_end)) /\ Forall qev inner.
Proof.
  intros Hw Hx Hp Hse Hs1 Hs2 [Hl Hc] (pre & post & -> & Ht & Hcap) Hln. unfold parse_table.
  rewrite caption_pos_ok by auto. cbn [bind].
  set (s1 := t_enter s (NCont BTable) sp_start).
  assert (Hex : exists cap n, (match (match post with [] => None | _ => Some (length pre) end) with
     | None => Ok (s1, length (pre ++ post))
     | Some n =>
         match skipn n (pre ++ post) with
         | [] => Panic "block.rs:728"
         | c :: cs =>
             let! c1 := sp_trim_start src c in
             let! cl := map_last (sp_trim_end src) (Sp (ss c1 + 2) (se c1) :: cs) in
             let! s1' := t_exit (t_inlines (t_enter s1 (NLeaf FCaption) sp_start) cl) sp_end in
             Ok (s1', n)
         end
     end) = Ok (t_set_events s1 (t_events s1 ++ cap), n) /\ firstn n (pre ++ post) = pre /\ Forall qev cap /\
     forall v r y hi, sq src v (XTable false [] T0) (se sp_start) r y hi -> (r = [] -> True) -> cap <> [] -> sq src v (XTable true [] T0) (se sp_start) (cap ++ r) y hi).
  { destruct post as [|c cs].
    - exists [], (length pre). rewrite !app_nil_r, firstn_all. split; [|split; [auto|split; [constructor|congruence]]].
      cbn [t_events t_set_events]. destruct s1; reflexivity.
    - apply Forall_app in Hl. destruct Hl as [_ Hl]. inversion Hl; subst. apply chain_app in Hc. destruct Hc as (m & Hc1 & Hc2).
      rewrite skipn_app, skipn_all, Nat.sub_diag. cbn [skipn app].
      destruct (sp_trim_start_ok src c Hw (proj1 H1)) as [E1 Hsp1]. rewrite E1. cbn [bind ss se].
      destruct (caption_starts src c Hcap) as (r & Er). rewrite trim_start_skipn in Er.
      set (w := count_while is_ws (slice src c)) in *.
      destruct (skipn_cons_nth _ _ _ _ Er) as [_ Er2]. symmetry in Er2. destruct (skipn_cons_nth _ _ _ _ Er2) as [Hn2 _].
      assert (Hlen : length (slice src c) = se c - ss c) by (apply span_ok_len; apply H1).
      assert (Hlt : S w < se c - ss c) by (rewrite <- Hlen; apply nth_error_Some; congruence).
      rewrite slice_nth in Hn2 by auto.
      assert (Hbd : boundary src (ss c + w + 2) = true).
      { replace (ss c + w + 2) with (S (ss c + S w)) by lia. eapply wfb_after; eauto. }
      assert (Hi0 : ispan src (Sp (ss c + w + 2) (se c))).
      { destruct H1 as ((I1 & I2 & I3 & I4) & He & _). split; [repeat split; cbn [ss se]; auto; lia|]. left. exact He. }
      destruct (map_last_ok (ispan src) (sp_trim_end src) (Sp (ss c + w + 2) (se c) :: cs)) as (cl & E & Hcl & Wcl).
      { constructor; [auto|]. apply Forall_line_ispan. auto. } { intros y Hy. apply trim_end_ispan; auto. } { apply ispan_le. }
      rewrite E. cbn [bind]. rewrite leaf_chunk. cbn [bind]. eexists. exists (length pre). split; [reflexivity|]. split.
      + rewrite firstn_app, firstn_all, Nat.sub_diag. cbn. apply app_nil_r.
      + split; [constructor; [apply quiet_enter|]; apply Forall_app; split; [apply inl_qev|repeat constructor; apply exit_quiet; exact I]|]. intros v r0 y hi Hr _ _. cbn [app]. rewrite <- app_assoc. cbn [app]. apply s_cap; auto.
        * lia.
        * eapply eols_map_last; [exact E|]. apply eols_all. constructor; [cbn [se]; apply H1|]. eapply Forall_impl; [|eassumption]. intros y0 Hy0. apply Hy0.
        * split; [auto|]. apply (within_chain _ _ Wcl). cbn [chain ss se] in *. apply chain_le in Hc1. destruct Hc2 as (D1 & D2 & D3). split; [lia|]. split; [lia|auto]. }
  destruct Hex as (cap & n & -> & Hn & Hcapq & Hcapsq). cbn [bind]. rewrite Hn.
  apply Forall_app in Hl. destruct Hl as [Hl _]. apply chain_app in Hc. destruct Hc as (m & Hc1 & Hc2). apply chain_le in Hc2.
  destruct (table_rows_ok src (t_events s1 ++ cap) Hw pre [] None (t_set_events s1 (t_events s1 ++ cap)) [] [] (se sp_start) (se sp_start) (ss sp_end)) as (als1 & lo1 & rws & E & Hpre & Hok).
  { apply Forall_combine_tl; auto. } { eapply chain_weaken; [apply le_n|exact Hc2|exact Hc1]. } { cbn [rows_evs map concat]. rewrite app_nil_r. reflexivity. }
  { cbn. apply le_n. } { reflexivity. } { reflexivity. }
  rewrite E. cbn [bind]. unfold t_exit, t_pop_open. cbn [s1 t_set_events t_open t_enter t_set_open t_push t_events].
  erewrite get_at_yes; [|repeat (rewrite <- app_assoc; cbn [app]); rewrite nth_error_app2, Nat.sub_diag by lia; reflexivity].
  cbn [bind bk]. exists (cap ++ rows_evs rws). cbv zeta. split; [|split; [|apply Forall_app; split; [exact Hcapq|apply rows_qev]]].
  - unfold t_push, t_set_events, t_set_open, t_enter. cbn [t_pblank t_ploose t_attr t_lists t_secs t_open t_events t_push t_set_events t_set_open].
    repeat (rewrite <- app_assoc; cbn [app]). reflexivity.
  - intros v. assert (Hps : exists d, d <> TDue /\ forall bb ev y hi, sq src v (XTable bb als1 d) lo1 ev y hi -> sq src v (XTable bb [] T0) (se sp_start) ev y hi).
    { destruct Hpre as [[-> ->]|(sp & (P1 & P2 & P3) & ->)]; [exists T0; split; [discriminate|auto]|]. exists TNone. split; [discriminate|]. intros bb ev y hi H. eapply s_sep; eauto; discriminate. }
    destruct Hps as (d & Hd & Hps).
    destruct cap as [|e cap].
    + destruct (rows_sq src v rws true _ d _ _ Hd Hok) as (b & als2 & d2 & Hsq & Hd2). cbn [app]. apply (Hps true) in Hsq. eapply s_node with (ic := XTable true [] T0) (m := XTable b als2 d2); eauto; [apply ci_table; auto|destruct d2; try exact I; congruence|apply s_nil; auto|exact I].
    + destruct (rows_sq src v rws false _ d _ _ Hd Hok) as (b & als2 & d2 & Hsq & Hd2). apply (Hps false) in Hsq. apply Hcapsq in Hsq; [|auto|discriminate].
      eapply s_node with (ic := XTable true [] T0) (m := XTable b als2 d2); eauto; [apply ci_table; auto|destruct d2; try exact I; congruence|apply s_nil; auto|exact I].
Qed.
