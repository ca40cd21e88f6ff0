(** * PBlock4: the lines a block takes *)
From Verif Require Import Base Lex Attr Block Lib PSafe SpecAttr PAttr PAttr3 PAttr4 PAttr5 PropsAttr SpecBlock PBlock1 PBlock2 PLex PBlock3 PMark.
Local Open Scope nat_scope.

Definition hline (src : bytes) (lv : nat) (sp : span) : Prop :=
  let l := slice src sp in
  heading_like l = true -> count_while (fun c => beq c "#") (skipn (count_while is_ws l) l) = lv.
Definition trow (src : bytes) (sp : span) : Prop :=
  is_blank_line (slice src sp) = true \/ (starts_c (trim_start_m is_ws (slice src sp)) "|" = true /\ row_end (slice src sp)).
Definition caption_line (src : bytes) (sp : span) : Prop := starts_with (trim_m is_ws (slice src sp)) (B "^ ") = true.

(** The lines [ls] that follow the opening fence: the body, and the closing fence if there is one; in
    code no line of the body is a closing fence. *)
Definition fence_lines (src : bytes) (f : nat) (fk : fence_kind) (closed : bool) (body cl : list span) : Prop :=
  (if closed then exists e, cl = [e] /\ closing_fence (fence_char fk) f (slice src e) else cl = []) /\
  (forall c, fk = FenceCode c -> Forall (fun l => ~ closing_fence c f (slice src l)) body).
Definition fence_ok (f : nat) (fk : fence_kind) (n : option (ascii * nat)) : Prop :=
  3 <= f /\ match fk with FenceCode c => (c = "`"%char \/ c = "~"%char) /\ n = None | FenceDiv => True end.
Definition cont_rel (src : bytes) (k k' : bkind) (ls : list span) : Prop :=
  match k with
  | KAtom _ => ls = [] /\ k' = k
  | KFenced i f fk spec c n => exists c' n', k' = KFenced i f fk spec c' n' /\
      (c = true -> c' = true /\ ls = [] /\ n' = n) /\
      (c = false -> fence_ok f fk n -> fence_ok f fk n' /\ exists body cl, ls = body ++ cl /\ fence_lines src f fk c' body cl)
  | KHeading lv => k' = k /\ Forall (hline src lv) ls
  | KDefinition i fn lab lb => exists lb', k' = KDefinition i fn lab lb'
  | KListItem i ty lb => exists lb', k' = KListItem i ty lb'
  | KTable false b => exists c' b' pre post, k' = KTable c' b' /\ ls = pre ++ post /\ Forall (trow src) pre /\
                      match post with [] => c' = false | p :: _ => c' = true /\ caption_line src p end
  | _ => k' = k
  end.

Lemma continues_ok src k sp : line_ok src sp -> exists b k', continues k (slice src sp) = Ok (b, k') /\
  (b = true -> cont_rel src k k' [sp]) /\ (b = false -> cont_rel src k k' []).
Proof.
  intros Hl. set (l := slice src sp). destruct (identify_ok l) as (nx & nsp & Ei & Hi).
  destruct k; cbn [continues].
  - do 2 eexists. split; [reflexivity|]. split; [discriminate|]. cbn. auto.
  - do 2 eexists. split; [reflexivity|]. split; reflexivity.
  - rewrite Ei. cbn [bind]. do 2 eexists. split; [reflexivity|]. split; [|cbn; auto].
    intros Hb. cbn. split; [auto|]. constructor; [|constructor]. intros Hh. fold l in Hh.
    destruct (identify_heading l Hh) as (k2 & sp2 & [[E2 [lv ->]]|E2]).
    + rewrite Ei in E2. injection E2 as -> ->. apply Nat.eqb_eq in Hb. subst lv. destruct Hi as (_ & _ & _ & _ & _ & _ & Hs & Hc).
      fold l. rewrite <- Hs. symmetry. exact Hc.
    + rewrite Ei in E2. injection E2 as -> ->. discriminate.
  - destruct closing.
    + do 2 eexists. split; [reflexivity|]. split; [discriminate|]. intros _. cbn. do 2 eexists. split; [reflexivity|]. split; [auto|discriminate].
    + rewrite Ei. cbn [bind]. do 2 eexists. split; [reflexivity|]. split; [|discriminate]. intros _. cbn.
      assert (Hcl : forall ch, k = FenceCode ch -> fence_ok flen k nested -> closing_fence ch flen l -> exists i m fsp, nx = KFenced i m (FenceCode ch) [] false None /\ nsp = fsp /\ flen <= m).
      { intros ch -> (F1 & F2 & _) (a & m & b & E & Hm & Ha & Hb). destruct (closing_identify a m b ch Ha ltac:(lia) Hb F2) as (sp2 & E2). rewrite <- E, Ei in E2.
        apply okp in E2. destruct E2 as [E2 E3]. exists (length a), m, sp2. auto. }
      assert (Hs : forall n', (fence_ok flen k nested -> fence_ok flen k n') -> (forall ch, k = FenceCode ch -> fence_ok flen k nested -> ~ closing_fence ch flen l) ->
        exists c' n'', KFenced indent flen k spec false n' = KFenced indent flen k spec c' n'' /\ (false = true -> c' = true /\ [sp] = [] /\ n'' = nested) /\
          (false = false -> fence_ok flen k nested -> fence_ok flen k n'' /\ exists body cl, [sp] = body ++ cl /\ fence_lines src flen k c' body cl)).
      { intros n' Hn' Hno. exists false, n'. split; [reflexivity|]. split; [discriminate|]. intros _ Hf. split; [auto|]. exists [sp], []. split; [reflexivity|]. split; [reflexivity|].
        intros c Ec. constructor; [apply Hno; auto|constructor]. }
      destruct nx; try (apply Hs; [auto|]; intros ch Hk Hf H; destruct (Hcl ch Hk Hf H) as (? & ? & ? & Hx & _); discriminate Hx).
      destruct nested as [[c nl]|].
      * assert (Hno : forall ch, k = FenceCode ch -> fence_ok flen k (Some (c, nl)) -> ~ closing_fence ch flen l) by (intros ch -> (_ & _ & Hx); discriminate Hx).
        destruct (_ && _ && _); apply Hs; auto. intros Hf. destruct k; [exact Hf|destruct Hf as (_ & _ & Hx); discriminate].
      * destruct (fence_kind_eqb _ _) eqn:Ek.
        -- assert (k0 = k) as -> by (destruct k0, k; cbn in Ek; try discriminate; [auto|apply beq_eq in Ek; congruence]).
           destruct (Nat.leb flen flen0 && bytes_eqb spec0 []) eqn:Ecl.
           ++ apply andb_prop in Ecl. destruct Ecl as [C1 C2]. apply Nat.leb_le in C1. destruct spec0 as [|? ?]; [|discriminate C2]. apply fence_closing in Ei.
              exists true, None. split; [reflexivity|]. split; [discriminate|]. intros _ Hf. split; [auto|]. exists [], [sp]. split; [reflexivity|]. split; [|intros; constructor].
              exists sp. split; [auto|]. fold l. destruct Ei as (a & m & b & E & Hm & Hr). exists a, m, b. split; [auto|]. split; [lia|auto].
           ++ apply Hs; [auto|]. intros ch Hk Hf H. destruct (Hcl ch Hk Hf H) as (i2 & m2 & ? & Hx & _ & Hm2). injection Hx as _ -> _ -> _ _.
              cbn in Ecl. rewrite andb_true_r in Ecl. apply Nat.leb_gt in Ecl. lia.
        -- assert (Hno : forall ch, k = FenceCode ch -> fence_ok flen k None -> ~ closing_fence ch flen l).
           { intros ch Hk Hf H. destruct (Hcl ch Hk Hf H) as (i2 & m2 & ? & Hx & _ & Hm2). injection Hx as _ _ Hx _ _ _. subst k k0. cbn in Ek. rewrite beq_refl in Ek. discriminate. }
           destruct k; [destruct k0|]; apply Hs; auto.
  - destruct footnote.
    + rewrite Ei. cbn [bind]. do 2 eexists. split; [reflexivity|]. split; intros _; cbn; eauto.
    + do 2 eexists. split; [reflexivity|]. split; intros _; cbn; eauto.
  - rewrite Ei. cbn [bind]. do 2 eexists. split; [reflexivity|]. split; reflexivity.
  - rewrite Ei. cbn [bind]. do 2 eexists. split; [reflexivity|]. split; intros _; cbn; eauto.
  - destruct caption; [do 2 eexists; split; [reflexivity|]; split; reflexivity|].
    assert (Hno : exists c' b' pre post, KTable false blank = KTable c' b' /\ @nil span = pre ++ post /\ Forall (trow src) pre /\
                      match post with [] => c' = false | p :: _ => c' = true /\ caption_line src p end).
    { exists false, blank, [], []. repeat split; auto. }
    destruct (trim_m is_ws l) as [|x t] eqn:Et.
    + do 2 eexists. split; [reflexivity|]. split; [|discriminate]. intros _. exists false, true, [sp], []. repeat split; auto.
      constructor; [|constructor]. left. fold l. unfold is_blank_line. rewrite Et. reflexivity.
    + destruct (starts_with (x :: t) (B "^ ")) eqn:Ec.
      * do 2 eexists. split; [reflexivity|]. split; [|discriminate]. intros _. exists true, blank, [], [sp]. repeat split; auto.
        unfold caption_line. fold l. rewrite Et. exact Ec.
      * do 2 eexists. split; [reflexivity|]. split; [|intros _; exact Hno].
        intros Hb. apply andb_prop in Hb. destruct Hb as [_ Hb]. apply andb_prop in Hb. destruct Hb as [Hb Hb2]. apply andb_prop in Hb. destruct Hb as [Hb Hb1].
        exists false, blank, [sp], []. repeat split; auto. constructor; [|constructor]. right. fold l.
        split; [|split; rewrite Et; [exact Hb1|apply negb_true_iff; exact Hb2]].
        unfold trim_m in Et. destruct (trim_start_m is_ws l) as [|y r] eqn:Es; [discriminate|].
        cbn in Et. destruct (trim_end_m is_ws r); [destruct (is_ws y); [discriminate|]|]; injection Et as <- <-; exact Hb.
Qed.

Lemma cont_rel_trans src k k' k'' sp ls : cont_rel src k k' [sp] -> cont_rel src k' k'' ls -> cont_rel src k k'' (sp :: ls).
Proof.
  destruct k; cbn [cont_rel]; try (intros -> H; exact H).
  - intros [H _]; discriminate.
  - intros [-> H] [-> H2]. split; auto. inversion H; subst. constructor; auto.
  - intros (c' & n' & -> & H1 & H2) (c2 & n2 & -> & H3 & H4). exists c2, n2. split; [reflexivity|]. split.
    + intros Hc. destruct (H1 Hc) as (_ & Hx & _). discriminate Hx.
    + intros Hc Hf. destruct (H2 Hc Hf) as (Hf' & body & cl & E & Hl). destruct c'.
      * destruct (H3 eq_refl) as (-> & -> & ->). destruct Hl as [(e & -> & Hl1) Hl2]. destruct body as [|x body]; [|destruct body; discriminate]. cbn in E. injection E as <-.
        split; [|exists [], [sp]; split; [reflexivity|]; split; [exists sp; auto|auto]].
        exact Hf'.
      * destruct (H4 eq_refl Hf') as (Hf2 & body2 & cl2 & -> & Hl'). destruct Hl as [-> Hl]. rewrite app_nil_r in E. subst body.
        split; [exact Hf2|]. exists (sp :: body2), cl2. split; [reflexivity|]. destruct Hl' as [L1 L2]. split; [exact L1|]. intros c Ec. specialize (Hl c Ec). inversion Hl; subst. constructor; auto.
  - intros (lb' & ->) (lb2 & ->). eauto.
  - intros (lb' & ->) (lb2 & ->). eauto.
  - destruct caption; [intros -> H; exact H|]. intros (c' & b' & pre & post & -> & E & Hp & Hq).
    destruct c'.
    + intros ->. destruct post as [|p post]; [discriminate|]. destruct Hq as [_ Hq].
      destruct pre as [|x pre]; [|exfalso; destruct pre; discriminate]. cbn [app] in E. injection E as E1 E2. subst p post.
      exists true, b', [], (sp :: ls). repeat split; auto.
    + intros (c2 & b2 & pre2 & post2 & -> & -> & Hp2 & Hq2). destruct post as [|p post]; [|destruct Hq; discriminate].
      rewrite app_nil_r in E. subst pre. inversion Hp; subst. exists c2, b2, (sp :: pre2), post2. repeat split; auto.
Qed.

Lemma cont_rel_refl src k : cont_rel src k k [].
Proof.
  destruct k; cbn [cont_rel]; try reflexivity; try (eexists; reflexivity).
  - split; [reflexivity|constructor].
  - do 2 eexists. split; [reflexivity|]. split; [auto|]. intros -> Hf. split; [exact Hf|]. exists [], []. split; [reflexivity|]. split; [reflexivity|]. intros; constructor.
  - destruct caption; [reflexivity|]. exists false, blank, [], []. repeat split; auto.
Qed.
Lemma take_cont_ok src ls : Forall (line_ok src) ls -> forall k,
  exists n k', take_cont src k ls = Ok (n, k') /\ n <= length ls /\ cont_rel src k k' (firstn n ls).
Proof.
  induction 1 as [|sp ls Hl H IH]; intros k.
  - exists 0, k. cbn. split; [auto|]. split; [auto|]. apply cont_rel_refl.
  - cbn [take_cont]. rewrite span_ok_ssub by apply Hl. cbn [bind].
    destruct (continues_ok src k sp Hl) as (b & k' & -> & H1 & H2). cbn [bind]. destruct b.
    + destruct (IH k') as (n & k2 & -> & Hn & Hr). cbn [bind]. exists (S n), k2. split; [auto|]. split; [cbn; lia|].
      cbn [firstn]. eapply cont_rel_trans; eauto.
    + exists 0, k'. split; [auto|]. split; [lia|]. cbn [firstn]. auto.
Qed.

(** Everything known about the block starting at [line0]. *)
Lemma metered_ok src line0 rest : line_ok src line0 -> Forall (line_ok src) rest ->
  exists k0 sp0 n k, metered src line0 rest = Ok (k, sp0, 1 + n) /\ n <= length rest /\
    ident_ok (slice src line0) k0 sp0 /\ cont_rel src k0 k (firstn n rest) /\
    mark_ok k0 (firstn (se sp0 - ss sp0) (skipn (ss sp0) (slice src line0))) /\ identify (slice src line0) = Ok (k0, sp0).
Proof.
  intros H0 Hr. unfold metered. rewrite span_ok_ssub by apply H0. cbn [bind].
  destruct (identify_ok (slice src line0)) as (k0 & sp0 & Ei & Hi). pose proof (identify_mark _ _ _ Ei) as Hm. rewrite Ei. cbn [bind].
  destruct (take_cont_ok src rest Hr k0) as (n & k & -> & Hn & Hc). cbn [bind]. exists k0, sp0, n, k. repeat (split; [auto|]). auto.
Qed.

(** ** Heading continuation lines *)
Lemma count_while_S_ws l : count_while is_ws (skipn (count_while is_ws l) l) = 0.
Proof.
  pose proof (count_while_skipn is_ws l) as H. destruct (skipn _ l) as [|x r]; [auto|]. cbn. rewrite H. auto.
Qed.
Lemma heading_cont_ok src lv sp : wfb src -> line_ok src sp -> hline src lv sp ->
  exists y, heading_cont src lv sp = Ok y /\ line_ok src y /\ ss sp <= ss y /\ ss y <= se y /\ se y <= se sp.
Proof.
  intros Hw Hl Hh. unfold heading_cont. rewrite span_ok_bsub by apply Hl. cbn [bind].
  assert (Hle : ss sp <= se sp) by apply Hl.
  set (l := slice src sp) in *. set (a := count_while is_ws l) in *. set (l1 := skipn a l) in *.
  set (h := count_while (fun c => beq c "#") l1) in *. set (l2 := skipn h l1) in *. set (w := count_while is_ws l2) in *.
  destruct (Nat.ltb 0 w) eqn:Ew; [|exists sp; split; [auto|]; split; [auto|lia]]. apply Nat.ltb_lt in Ew.
  assert (Hh0 : 0 < h).
  { destruct (Nat.eq_dec h 0) as [Eh|]; [|lia]. exfalso. unfold w, l2 in Ew. rewrite Eh in Ew. cbn [skipn] in Ew.
    unfold l1, a in Ew. rewrite count_while_S_ws in Ew. lia. }
  assert (Hlike : heading_like l = true).
  { unfold heading_like. fold a l1 h l2 w. apply andb_true_intro. split; apply Nat.ltb_lt; lia. }
  specialize (Hh Hlike). assert (Hhl : h = lv) by exact Hh. rewrite <- Hhl, Nat.eqb_refl. cbn [assert bind].
  assert (La : a <= length l) by apply count_while_le.
  assert (L1 : length l1 = length l - a) by apply skipn_length.
  assert (Lh : h <= length l1) by apply count_while_le.
  assert (L2 : length l2 = length l1 - h) by apply skipn_length.
  assert (Lw : w <= length l2) by apply count_while_le.
  assert (Ll : length l = se sp - ss sp) by (apply span_ok_len; apply Hl).
  rewrite skipn_length. unfold sp_len.
  replace (se sp - ss sp - (length l2 - w)) with (a + h + w) by lia.
  eexists. split; [reflexivity|]. split; [|cbn; lia]. apply line_shift; auto; [lia|].
  destruct (count_while_lt is_ws l2 (w - 1)) as (x & Hx & Hxw); [fold w; lia|].
  unfold l2, l1 in Hx. rewrite !nth_error_skipn in Hx. replace (a + h + w) with (S (a + (h + (w - 1)))) by lia.
  apply (okpos_after l _ x); auto. apply ws_ascii; auto.
Qed.

(** ** Lines of a container *)
Lemma starts_c_inv s c : starts_c s c = true -> exists r, s = c :: r.
Proof. destruct s as [|x s]; cbn; [discriminate|]. intros H. apply beq_eq in H. subst. eauto. Qed.
Lemma trim_m_prefix l : exists u, trim_start_m is_ws l = trim_m is_ws l ++ u /\ forallb is_ws u = true.
Proof. unfold trim_m. destruct (trim_end_spec is_ws (trim_start_m is_ws l)) as (u & E & H & _). eauto. Qed.
Definition is_container_kind (k : bkind) : Prop :=
  match k with KBlockquote | KListItem _ _ _ | KDefinition _ _ _ _ | KFenced _ _ _ _ _ _ => True | _ => False end.

Lemma okpos_min l i m : okpos l i -> m <= length l -> (forall c, nth_error l m = Some c -> ascii7 c = true) ->
  i <= length l -> wfb l -> boundary l (Nat.min i m) = true.
Proof.
  intros Hi Hm Hc Hil Hw. destruct (Nat.le_gt_cases i m) as [H|H].
  - rewrite Nat.min_l by auto. destruct Hi as [->|[->|(c & H1 & H2 & H3)]]; [apply Hw|apply boundary_end|].
    replace i with (S (i - 1)) by lia. eapply wfb_after; eauto.
  - rewrite Nat.min_r by lia. destruct (nth_error l m) as [c|] eqn:E; [|apply nth_error_None in E; lia].
    eapply wfb_ascii_at; eauto.
Qed.
Lemma slice_boundary src sp i : span_ok src sp -> i <= se sp - ss sp -> boundary (slice src sp) i = true -> boundary src (ss sp + i) = true.
Proof.
  intros Hs Hi Hb. destruct (Nat.eq_dec i (se sp - ss sp)) as [->|Hne].
  - destruct Hs as (H1 & H2 & H3 & H4). replace (ss sp + (se sp - ss sp)) with (se sp) by lia. auto.
  - unfold boundary in *. rewrite slice_nth in Hb by lia. destruct (nth_error src (ss sp + i)) eqn:E; auto.
    apply nth_error_None in E. destruct Hs. lia.
Qed.
Lemma boundary_slice src sp i : span_ok src sp -> i <= se sp - ss sp -> boundary src (ss sp + i) = true -> boundary (slice src sp) i = true.
Proof.
  intros Hs Hi Hb. destruct (Nat.eq_dec i (se sp - ss sp)) as [->|Hne].
  - rewrite <- (span_ok_len src sp Hs). apply boundary_end.
  - unfold boundary in *. rewrite slice_nth by lia. destruct (nth_error src (ss sp + i)) eqn:E; auto.
    apply nth_error_None in E. destruct Hs as (? & ? & _). lia.
Qed.
Lemma wfb_slice src sp : wfb src -> span_ok src sp -> wfb (slice src sp).
Proof.
  intros Hw Hs. split.
  - apply boundary_slice; auto; [lia|]. rewrite Nat.add_0_r. apply Hs.
  - intros i c Hi Hc. assert (Hlt : i < se sp - ss sp) by (rewrite <- (span_ok_len src sp Hs); apply nth_error_Some; congruence).
    apply boundary_slice; [auto|lia|]. rewrite slice_nth in Hi by auto. replace (ss sp + S i) with (S (ss sp + i)) by lia. eapply wfb_after; eauto.
Qed.
Lemma line_cut src sp i : line_ok src sp -> i <= se sp - ss sp -> boundary (slice src sp) i = true -> line_ok src (Sp (ss sp + i) (se sp)).
Proof.
  intros (Hs & He & Ho) Hi Hb. pose proof (slice_boundary src sp i Hs Hi Hb) as Hb'. split.
  - destruct Hs as (H1 & H2 & H3 & H4). repeat split; cbn [ss se]; auto; lia.
  - split; [exact He|]. intros j Hj1 Hj2. cbn [ss se] in *. apply Ho; lia.
Qed.

Lemma cont_line_ok src k ol sp : wfb src -> line_ok src sp -> is_container_kind k ->
  exists y, cont_line src k ol sp = Ok y /\ line_ok src y /\ ss sp <= ss y /\ ss y <= se y /\ se y <= se sp.
Proof.
  intros Hw Hl Hk. unfold cont_line. rewrite span_ok_ssub by apply Hl. cbn [bind].
  assert (Hle : ss sp <= se sp) by apply Hl.
  assert (Hlen : length (slice src sp) = se sp - ss sp) by (apply span_ok_len; apply Hl).
  assert (Hwl : wfb (slice src sp)) by (apply wfb_slice; auto; apply Hl).
  set (l := slice src sp) in *.
  set (ws := match trim_m is_ws l with [] => 0 | _ :: _ => length l - length (trim_start_m is_ws l) end).
  assert (Hwscount : ws <= count_while is_ws l).
  { unfold ws. rewrite trim_start_len. pose proof (count_while_le is_ws l). destruct (trim_m is_ws l); lia. }
  pose proof (count_while_le is_ws l) as Hcl.
  set (len := count_while (fun c => negb (beq c NL)) l). assert (Hlen2 : len <= length l) by apply count_while_le.
  assert (Hdone : forall skip, okpos l skip -> skip <= length l ->
    exists y, Ok (Sp (ss sp + Nat.min skip len) (se sp)) = Ok y /\ line_ok src y /\ ss sp <= ss y /\ ss y <= se y /\ se y <= se sp).
  { intros skip Hs Hsl. eexists. split; [reflexivity|]. split; [|cbn; lia]. apply line_cut; auto; [lia|].
    apply okpos_min; auto. intros c Hc. apply count_while_nth in Hc. apply negb_false_iff in Hc. apply beq_eq in Hc. subst c. reflexivity. }
  assert (Hmin : forall n, okpos l (Nat.min ws n) /\ Nat.min ws n <= length l).
  { intros n. split; [|lia]. apply (okpos_le_count is_ws); [apply ws_ascii|lia]. }
  destruct k; try contradiction Hk; cbn [bind]; try (apply Hdone; apply Hmin).
  (* block quote *)
  destruct (trim_m_prefix l) as (u & Eu & Hu).
  assert (Hts : trim_start_m is_ws l = skipn (count_while is_ws l) l) by apply trim_start_skipn.
  assert (Hws : trim_m is_ws l <> [] -> ws = count_while is_ws l).
  { unfold ws. intros H. destruct (trim_m is_ws l); [congruence|]. rewrite trim_start_len. lia. }
  destruct (bytes_eqb (trim_m is_ws l) (B ">")) eqn:E1.
  { apply bytes_eqb_eq in E1. rewrite Hws by (rewrite E1; discriminate). rewrite E1, Hts in Eu.
    destruct (skipn_cons_nth _ _ _ _ Eu) as [Hn _]. apply Hdone.
    - rewrite Nat.add_1_r. eapply okpos_after; [exact Hn|reflexivity].
    - assert (count_while is_ws l < length l) by (apply nth_error_Some; congruence). lia. }
  destruct (starts_c (trim_m is_ws l) ">" && hd_is is_ws (skipn 1 (trim_m is_ws l))) eqn:E2.
  { apply andb_prop in E2. destruct E2 as [E2 E3]. apply starts_c_inv in E2. destruct E2 as [r Er]. rewrite Er in E3, Eu. cbn [skipn] in E3.
    apply hd_is_inv in E3. destruct E3 as (x & r' & -> & Hx). rewrite Hws by (rewrite Er; discriminate). rewrite Hts in Eu.
    destruct (skipn_cons_nth _ _ _ _ Eu) as [Hn Hs]. cbn [app] in Hs. symmetry in Hs. destruct (skipn_cons_nth _ _ _ _ Hs) as [Hn2 _].
    apply Hdone.
    - replace (count_while is_ws l + 2) with (S (S (count_while is_ws l))) by lia. eapply okpos_after; [exact Hn2|]. apply ws_ascii; auto.
    - assert (S (count_while is_ws l) < length l) by (apply nth_error_Some; congruence). lia. }
  apply Hdone; [left; auto|lia].
Qed.
