(** * PTree6: the lines of one block *)
From Verif Require Import Base Lex Attr Block Lib PSafe SpecAttr PAttr SpecBlock PBlock1 PBlock2 PMark PBlock3 PBlock4 PGram SpecView PView PTree1 PTree2 PTable PTree3 PTree4 PTree5 SpecOpen POpen.
Local Open Scope nat_scope.

(** [parse_block] in two halves: cut the lines, then emit events. *)
Definition prep (src : bytes) (line0 : span) (rest : list span) : res (bkind * span * span * nat * list span * nat) :=
  let! (k, sp0, lc) := metered src line0 rest in
  let ls := firstn lc (line0 :: rest) in
  let sp_start := Sp (ss sp0 + ss line0) (se sp0 + ss line0) in
  let! ls := table_trailing src k ls in
  let lc := length ls in
  let! end_line := unwrap (last_opt ls) "block.rs:321" in
  let sp_end := match k with
                | KFenced _ _ _ _ true _ => end_line
                | _ => Sp (se end_line) (se end_line)
                end in
  let! outer_len := usub (se sp_start) (ss line0) "block.rs:331" in
  let l0 := Sp (ss line0 + outer_len) (se line0) in
  let tls := tl ls in
  let! ls :=
    (match k with
     | KBlockquote =>
         if Nat.ltb (ss l0) (se l0) then
           let! c := get_at src (ss l0) "block.rs:338" in
           Ok ((if beq c TAB || beq c SP then Sp (ss l0 + 1) (se l0) else l0) :: tls)
         else Ok (l0 :: tls)
     | KHeading level => let! tls' := mapr (heading_cont src level) tls in Ok (l0 :: tls')
     | _ => Ok (l0 :: tls)
     end) in
  let! ls :=
    (match k with
     | KFenced _ _ _ _ closing _ =>
         let! n := usub (length ls) (if closing then 1 else 0) "block.rs:364" in
         if Nat.leb 1 n then Ok (skipn 1 (firstn n ls)) else Panic "block.rs:365"
     | _ => Ok ls
     end) in
  Ok (k, sp_start, sp_end, outer_len, ls, lc).
Definition emit (rec : tstate -> list span -> res tstate) (src : bytes) (s2 : tstate) (top : bool)
    (k : bkind) (sp_start sp_end : span) (outer_len : nat) (ls : list span) : res tstate :=
     match k with
     | KAtom a => Ok (t_push s2 (BAtom a) sp_start)
     | KParagraph => parse_leaf src s2 FParagraph k sp_start sp_end ls
     | KHeading level =>
         let! level' := to_u16 level "block.rs:428" in
         parse_leaf src s2 (FHeading level' top (to_u32 (ss sp_start))) k sp_start sp_end ls
     | KFenced _ _ (FenceCode _) spec _ _ => parse_leaf src s2 (FCodeBlock spec) k sp_start sp_end ls
     | KFenced _ _ FenceDiv spec _ _ =>
         parse_container rec src s2 (BDiv spec) k sp_start sp_end outer_len ls
     | KDefinition _ false label _ => parse_leaf src s2 (FLinkDefinition label) k sp_start sp_end ls
     | KDefinition _ true label _ =>
         parse_container rec src s2 (BFootnote label) k sp_start sp_end outer_len ls
     | KBlockquote => parse_container rec src s2 BBlockquote k sp_start sp_end outer_len ls
     | KListItem _ ty _ =>
         let! ik := (match ty with
                     | LTask _ => let! c := get_at src (ss sp_start + 3) "block.rs:455" in
                                  Ok (ITask (negb (beq c SP)))
                     | LDescription => Ok IDescription
                     | _ => Ok IList
                     end) in
         parse_container rec src s2 (BListItem ik) k sp_start sp_end outer_len ls
     | KTable _ _ => parse_table src s2 ls sp_start sp_end
     end.
Definition set_attr_after (k : bkind) (s3 : tstate) : tstate :=
  match k with
  | KAtom BAttributes => t_set_attr s3 (match t_attr s3 with Some a => Some a | None => Some (length (t_events s3) - 1) end)
  | _ => t_set_attr s3 None
  end.
Definition fin (rec : tstate -> list span -> res tstate) (src : bytes) (s : tstate) (top : bool)
    (r : bkind * span * span * nat * list span * nat) : res (nat * tstate) :=
  let '(k, sp_start, sp_end, outer_len, ls, lc) := r in
  let! s1 := update_lists s k (ss sp_start) in
  let! s2 := update_loose s1 k in
  let! s3 := emit rec src s2 top k sp_start sp_end outer_len ls in
  Ok (lc, set_attr_after k s3).
Lemma bind_assoc {A C D} (r : res A) (f : A -> res C) (g : C -> res D) : bind (bind r f) g = bind r (fun x => bind (f x) g).
Proof. destruct r; reflexivity. Qed.
Lemma parse_block_prep rec src s line0 rest top : parse_block rec src s line0 rest top = let! r := prep src line0 rest in fin rec src s top r.
Proof.
  unfold parse_block, prep. rewrite bind_assoc. destruct (metered src line0 rest) as [[[k sp0] lc]| |]; try reflexivity. cbn [bind].
  rewrite bind_assoc. destruct (table_trailing _ _ _) as [ls| |]; try reflexivity. cbn [bind].
  rewrite bind_assoc. destruct (unwrap _ _) as [e| |]; try reflexivity. cbn [bind].
  rewrite bind_assoc. destruct (usub _ _ _) as [ol| |]; try reflexivity. cbn [bind].
  rewrite bind_assoc. match goal with |- bind ?r _ = _ => destruct r as [ls1| |] end; try reflexivity. cbn [bind].
  rewrite bind_assoc. match goal with |- bind ?r _ = _ => destruct r as [ls2| |] end; reflexivity.
Qed.

(** ** What the first half returns *)
Definition kfact (src : bytes) (k : bkind) (sp : span) (ls : list span) : Prop :=
  match k with
  | KAtom a => atom_ok src a sp
  | KParagraph => True
  | KHeading lv => 1 <= lv /\ ss sp < se sp /\ exists a b, src = a ++ repeat "#"%char lv ++ b
  | KFenced _ _ _ _ _ _ | KDefinition _ _ _ _ | KBlockquote => ss sp < se sp
  | KListItem _ ty _ => lt_ok ty /\ ss sp < se sp /\ (exists l r, ls = l :: r) /\
      match ty with LTask _ => ss sp + 5 <= length src | LDescription => slice src sp = [":"%char] | _ => True end
  | KTable _ _ => se sp = ss sp /\ table_lines src ls
  end.
(** The texts of its markers; the lines of a code block are not fences that close it. *)
Definition ktext (src : bytes) (k : bkind) (sp sp_end : span) (ls : list span) : Prop :=
  mark_ok k (slice src sp) /\
  match k with
  | KFenced _ f fk _ _ _ => (point sp_end \/ closing_fence (fence_char fk) f (slice src sp_end)) /\
      (forall c, fk = FenceCode c -> Forall (fun l => ~ closing_fence c f (slice src l)) ls) /\ lined src sp sp_end
  | KAtom _ => True
  | KTable _ _ => lined src sp sp_end /\ opened src (rest_ok k) sp
  | KDefinition _ _ _ _ => point sp_end /\ lined src sp sp_end
  | _ => point sp_end /\ lined src sp sp_end /\ opened src (rest_ok k) sp
  end.
Lemma mark_rel src k0 k ls t : cont_rel src k0 k ls -> mark_ok k0 t -> mark_ok k t.
Proof.
  destruct k0; cbn [cont_rel]; try (intros -> H; exact H).
  - intros [_ ->] H. exact H.
  - intros [-> _] H. exact H.
  - intros (c' & n' & -> & _) H. exact H.
  - intros (lb & ->) H. exact H.
  - intros (lb & ->) H. exact H.
  - destruct caption; [intros -> H; exact H|]. intros (c' & b' & pre & post & -> & _) _. exact I.
Qed.
Definition kdec (k : bkind) : nat := if match k with KBlockquote | KListItem _ _ _ | KDefinition _ _ _ _ | KFenced _ _ _ _ _ _ => true | _ => false end then 1 else 0.

Lemma ident_span src line0 k sp : wfb src -> line_ok src line0 -> ident_ok (slice src line0) k sp ->
  let sp1 := Sp (ss sp + ss line0) (se sp + ss line0) in span_ok src sp1 /\ se sp <= se line0 - ss line0 /\ line_ok src (Sp (ss line0 + se sp) (se line0)).
Proof.
  intros Hw Hl (H1 & H2 & H3 & H4 & _). pose proof (span_ok_len src line0 (proj1 Hl)) as Hlen. rewrite Hlen in H2.
  pose proof (okpos_boundary src line0 (ss sp) Hw (proj1 Hl) ltac:(lia) H3). pose proof (okpos_boundary src line0 (se sp) Hw (proj1 Hl) ltac:(lia) H4).
  cbv zeta. split; [|split; [auto|apply line_shift; auto]]. destruct Hl as ((L1 & L2 & L3 & L4) & _).
  split; [cbn; lia|]. split; [cbn; lia|]. cbn [ss se]. rewrite (Nat.add_comm (ss sp)), (Nat.add_comm (se sp)). auto.
Qed.
Lemma slice_slice src sp a b : span_ok src sp -> a <= b -> b <= se sp - ss sp ->
  slice src (Sp (a + ss sp) (b + ss sp)) = firstn (b - a) (skipn a (slice src sp)).
Proof.
  intros (H1 & H2 & _) Hab Hb. unfold slice. cbn [ss se].
  rewrite skipn_firstn_comm, skipn_skipn, firstn_firstn. f_equal; [lia|]. f_equal. lia.
Qed.
Lemma count_repeat c l : firstn (count_while (fun x => beq x c) l) l = repeat c (count_while (fun x => beq x c) l).
Proof. induction l as [|x l IH]; [reflexivity|]. cbn. destruct (beq x c) eqn:E; [|reflexivity]. cbn. apply beq_eq in E. subst. rewrite IH. reflexivity. Qed.

Lemma ident_lt l k sp : ident_ok l k sp -> (forall a, k <> KAtom a) -> ss sp < length l.
Proof.
  intros (H1 & H2 & _ & _ & H) Hn. destruct k; try (destruct (Hn a eq_refl)); try lia.
  destruct H as (_ & _ & _ & _ & H3 & H4 & _). rewrite H4. rewrite trim_start_skipn in H3. pose proof (skipn_length (count_while is_ws l) l) as E.
  destruct (skipn (count_while is_ws l) l); [discriminate|]. cbn [length] in E. lia.
Qed.
Lemma kfact_ident src line0 k0 sp0 k tls ls : wfb src -> line_ok src line0 -> ident_ok (slice src line0) k0 sp0 -> cont_rel src k0 k tls ->
  mark_ok k0 (firstn (se sp0 - ss sp0) (skipn (ss sp0) (slice src line0))) ->
  let sp1 := Sp (ss sp0 + ss line0) (se sp0 + ss line0) in
  match k with KTable _ _ => table_lines src ls | KListItem _ _ _ => exists l r, ls = l :: r | _ => True end ->
  kfact src k sp1 ls.
Proof.
  intros Hw Hl Hid Hc Hmk sp1 Hls. destruct (ident_span _ _ _ _ Hw Hl Hid) as (S1 & S2 & S3). fold sp1 in S1.
  destruct Hid as (H1 & H2 & H3 & H4 & Hk). pose proof (span_ok_len src line0 (proj1 Hl)) as Hlen. rewrite Hlen in H2.
  destruct k0; cbn [cont_rel] in Hc.
  - destruct Hc as [_ ->]. split; [auto|]. split; [|split; [|split]]; try (unfold sp1; rewrite slice_slice; auto; [|apply Hl]; intros ->; exact Hmk).
    2:{ clear Hmk. assert (Hle : ss line0 <= se line0) by apply Hl.
        assert (Hpt : eol src (se sp1) -> a <> BThematicBreak -> exists e, line_ok src (Sp (se sp1) e) /\ blanks_only (slice src (Sp (se sp1) e)) /\ (a <> BThematicBreak -> e = se sp1)).
        { intros He _. exists (se sp1). split; [|split; [|auto]].
          - destruct S1 as (Q1 & Q2 & Q3 & Q4). split; [repeat split; cbn [ss se]; auto|]. split; [exact He|]. intros j J1 J2. cbn [ss se] in *. lia.
          - unfold slice. cbn [ss se]. rewrite Nat.sub_diag. constructor. }
        assert (Hend : se sp0 = length (slice src line0) -> eol src (se sp1)).
        { intros E. replace (se sp1) with (se line0) by (cbn [sp1 se]; lia). apply Hl. }
        destruct a.
        - apply Hpt; [|discriminate]. destruct Hk as [Hk|[K1 K2]]; [auto|]. rewrite slice_nth in K2 by lia. right. cbn [sp1 se]. split; [lia|]. replace (se sp0 + ss line0 - 1) with (ss line0 + (se sp0 - 1)) by lia. exact K2.
        - apply Hpt; [|discriminate]. apply Hend. apply Hk.
        - exists (se line0). split; [rewrite Nat.add_comm in S3; exact S3|]. split; [|congruence]. apply blanks_forallb.
          cbn [sp1 se]. rewrite <- Hk. f_equal. replace (Sp (se sp0 + ss line0) (se line0)) with (Sp (se sp0 + ss line0) (se line0 - ss line0 + ss line0)) by (f_equal; lia).
          rewrite slice_slice; [|apply Hl|lia|lia]. apply firstn_all2. rewrite skipn_length. lia. }
    intros ->. destruct Hk as [E1 E2]. unfold sp1. rewrite slice_slice; auto; [|apply Hl].
    rewrite <- E1 in Hlen. rewrite firstn_all2; [auto|]. rewrite skipn_length. lia.
  - subst k. exact I.
  - destruct Hc as [-> _]. destruct Hk as (K1 & K2 & K3 & K4). split; [auto|]. split; [cbn; lia|].
    exists (firstn (ss sp1) src), (skipn (se sp1) src).
    assert (E : slice src sp1 = repeat "#"%char level).
    { unfold sp1. rewrite slice_slice; [|apply Hl|auto|auto]. replace (se sp0 - ss sp0) with level by lia. rewrite K4 at 1 2. apply count_repeat. }
    rewrite <- E. unfold slice. rewrite <- (firstn_skipn (ss sp1) src) at 1. f_equal.
    rewrite <- (firstn_skipn (se sp1 - ss sp1) (skipn (ss sp1) src)) at 1. f_equal. rewrite skipn_skipn. f_equal. destruct S1. lia.
  - destruct Hc as (c' & n' & -> & _). cbn. lia.
  - destruct Hc as (lb & ->). cbn. lia.
  - subst k. cbn. lia.
  - destruct Hc as (lb & ->). destruct Hk as (K1 & K2 & K3 & K4 & K5). cbn [kfact]. split; [auto|]. split; [cbn; lia|]. split; [exact Hls|].
    destruct ty; auto.
    + destruct S1 as (A1 & A2 & _). cbn [ss se sp1] in *. lia.
    + destruct K5 as [K5 K6]. unfold sp1. rewrite slice_slice; [|apply Hl|auto|auto]. replace (se sp0 - ss sp0) with 1 by lia.
      rewrite (nth_skipn_cons _ _ _ K6). reflexivity.
  - destruct caption; [subst k; destruct Hk as (K1 & _); discriminate|]. destruct Hc as (c' & b' & pre & post & -> & _). destruct Hk as (_ & _ & K3 & _). cbn [kfact sp1 ss se]. split; [lia|exact Hls].
Qed.

Lemma table_trailing_ok src k ls : Forall (line_ok src) ls -> match ls with l :: _ => match k with KTable _ _ => is_blank_line (slice src l) = false | _ => True end | [] => False end ->
  exists n, table_trailing src k ls = Ok (firstn n ls) /\ 1 <= n <= length ls /\ match k with KTable false true => True | _ => n = length ls end.
Proof.
  intros Hl Hb. assert (Hgen : exists n, Ok ls = Ok (firstn n ls) /\ 1 <= n <= length ls /\ n = length ls).
  { exists (length ls). rewrite firstn_all. split; [auto|]. destruct ls; [contradiction|]. cbn. lia. }
  unfold table_trailing. destruct k; try exact Hgen.
  destruct caption; [exact Hgen|]. destruct blank; [|exact Hgen]. clear Hgen.
  assert (E : mapr (fun sp => ssub src sp "block.rs:311") ls = Ok (map (slice src) ls)).
  { clear Hb. induction Hl as [|l ls Hl Hls IH]; [reflexivity|]. cbn [mapr map]. rewrite span_ok_ssub by apply Hl. cbn [bind]. rewrite IH. reflexivity. }
  rewrite E. cbn [bind]. eexists. split; [reflexivity|]. split; [|auto]. destruct ls as [|l ls]; [contradiction|].
  cbn [map rev]. set (q := rev (map (slice src) ls)). assert (Hq : length q = length ls) by (unfold q; rewrite rev_length, map_length; auto).
  assert (Hc : count_while is_blank_line (q ++ [slice src l]) <= length q).
  { clear E. clearbody q. revert Hb. clear. induction q as [|x q IH]; cbn; intros Hb; [rewrite Hb; auto|]. destruct (is_blank_line x); [|lia]. apply IH in Hb. lia. }
  cbn [length]. lia.
Qed.
Lemma Forall_firstn {A} (P : A -> Prop) n l : Forall P l -> Forall P (firstn n l).
Proof. intros H. rewrite <- (firstn_skipn n l) in H. apply Forall_app in H. tauto. Qed.

Lemma trim_twice f s : trim_start_m f (trim_start_m f s) = trim_start_m f s.
Proof. induction s as [|c s IH]; [reflexivity|]. cbn. destruct (f c) eqn:E; [auto|]. cbn. rewrite E. reflexivity. Qed.
Lemma table_shift src line0 : wfb src -> line_ok src line0 -> starts_c (trim_start_m is_ws (slice src line0)) "|" = true -> row_end (slice src line0) ->
  trow src (Sp (ss line0 + count_while is_ws (slice src line0)) (se line0)).
Proof.
  intros Hw Hl H Hre. right. pose proof (count_while_le is_ws (slice src line0)) as Hle. rewrite (span_ok_len _ _ (proj1 Hl)) in Hle.
  assert (E : slice src (Sp (ss line0 + count_while is_ws (slice src line0)) (se line0)) = trim_start_m is_ws (slice src line0)).
  { rewrite trim_start_skipn. set (n := count_while is_ws (slice src line0)) in *.
    replace (Sp (ss line0 + n) (se line0)) with (Sp (n + ss line0) (se line0 - ss line0 + ss line0)) by (f_equal; destruct Hl as ((? & _) & _); lia).
    rewrite slice_slice; [|apply Hl|lia|lia]. apply firstn_all2. rewrite skipn_length, (span_ok_len _ _ (proj1 Hl)). lia. }
  rewrite E. split; [|unfold row_end, trim_m; rewrite trim_twice; exact Hre]. rewrite trim_start_skipn. destruct (trim_start_m is_ws (slice src line0)) as [|x r]; [discriminate|]. cbn in H. apply beq_eq in H. subst x. reflexivity.
Qed.

Definition pre_lines (src : bytes) (k : bkind) (l0 : span) (tls : list span) : res (list span) :=
  let! ls :=
    (match k with
     | KBlockquote =>
         if Nat.ltb (ss l0) (se l0) then
           let! c := get_at src (ss l0) "block.rs:338" in
           Ok ((if beq c TAB || beq c SP then Sp (ss l0 + 1) (se l0) else l0) :: tls)
         else Ok (l0 :: tls)
     | KHeading level => let! tls' := mapr (heading_cont src level) tls in Ok (l0 :: tls')
     | _ => Ok (l0 :: tls)
     end) in
    match k with
     | KFenced _ _ _ _ closing _ =>
         let! n := usub (length ls) (if closing then 1 else 0) "block.rs:364" in
         if Nat.leb 1 n then Ok (skipn 1 (firstn n ls)) else Panic "block.rs:365"
     | _ => Ok ls
     end.
Lemma pre_lines_ok src k l0 tls end_line lo : wfb src -> line_ok src l0 -> Forall (line_ok src) tls -> lo <= ss l0 ->
  chain (se l0) tls (se end_line) -> (tls = [] /\ se l0 = se end_line) \/ (exists tls', tls = tls' ++ [end_line]) ->
  match k with KFenced _ _ _ _ true _ => tls <> [] | KHeading lv => Forall (hline src lv) tls | _ => True end ->
  let sp_end := match k with KFenced _ _ _ _ true _ => end_line | _ => Sp (se end_line) (se end_line) end in
  exists ls, pre_lines src k l0 tls = Ok ls /\ lines_ok src lo ls (ss sp_end) /\ 
    size ls <= size (l0 :: tls) /\ match k with KFenced _ _ _ _ c _ => size ls <= size tls /\ (if c then forall b e, tls = b ++ [e] -> ls = b else ls = tls) | KTable _ _ => ls = l0 :: tls | KListItem _ _ _ | KDefinition _ _ _ _ => ls = l0 :: tls
      | KBlockquote => ls = Sp (quote_from src (ss l0) (se l0)) (se l0) :: tls | _ => True end.
Proof.
  intros Hw Hl0 Ht Hlo Hc Hlast Hk sp_end.
  assert (Hle0 : ss l0 <= se l0) by apply Hl0.
  assert (Hgen : lines_ok src lo (l0 :: tls) (se end_line)) by (split; [constructor; auto|cbn; auto]).
  assert (Hle : size tls <= size (l0 :: tls)) by (rewrite size_cons; lia).
  unfold pre_lines. destruct k; try (cbn [bind]; eexists; split; [reflexivity|]; split; [exact Hgen|]; split; [auto|auto]).
  - (* heading *)
    destruct (mapr_ok (fun x => line_ok src x /\ hline src level x) (fun x y => line_ok src y /\ ss x <= ss y /\ ss y <= se y /\ se y <= se x) (heading_cont src level) tls) as (ys & E & Hy).
    + rewrite Forall_forall in *. intros x Hx. auto.
    + intros x [Hx1 Hx2]. apply heading_cont_ok; auto.
    + apply Forall2_within in Hy. destruct Hy as [Hy Hwi]. rewrite E. cbn [bind]. eexists. split; [reflexivity|].
      assert (Hw2 : within (l0 :: ys) (l0 :: tls)) by (constructor; auto).
      split; [split; [constructor; auto|eapply within_chain; [eauto|apply Hgen]]|]. split; [apply within_size; auto|exact I].
  - (* fenced *)
    cbn [bind length]. destruct closing.
    + destruct Hlast as [[-> _]|(tls' & ->)]; [destruct (Hk eq_refl)|]. rewrite usub_yes by lia. cbn [bind].
      rewrite app_length. cbn [length]. replace (S (length tls' + 1) - 1) with (S (length tls')) by lia.
      cbn [Nat.leb firstn skipn]. rewrite firstn_app, Nat.sub_diag, firstn_all, app_nil_r.
      eexists. split; [reflexivity|]. apply Forall_app in Ht. destruct Ht as [Ht _]. apply chain_app in Hc. destruct Hc as (m & Hc1 & Hc2). cbn in Hc2.
      split; [split; [auto|eapply chain_weaken; [| |exact Hc1]; unfold sp_end; lia]|]. rewrite size_cons, size_app. split; [lia|]. split; [lia|]. intros b e1 Eb. apply app_inj_tail in Eb. apply Eb.
    + rewrite usub_yes by lia. cbn [bind]. rewrite Nat.sub_0_r. cbn [Nat.leb firstn skipn]. rewrite firstn_all.
      eexists. split; [reflexivity|]. split; [split; [auto|]|auto]. unfold sp_end; cbn [ss]. eapply chain_weaken; [|apply le_n|exact Hc]. lia.
  - (* blockquote *)
    destruct (Nat.ltb_spec (ss l0) (se l0)) as [Hlt|Hge]; cbn [bind].
    2:{ eexists. split; [reflexivity|]. split; [exact Hgen|]. split; [auto|]. unfold quote_from. rewrite (slice_none src (ss l0) (se l0)) by lia. rewrite sp_eta. reflexivity. }
    destruct (get_at_some src (ss l0) "block.rs:338") as (c & Ec & ->); [destruct Hl0 as ((_ & ? & _) & _); lia|]. cbn [bind].
    assert (Eq : quote_from src (ss l0) (se l0) = if beq c TAB || beq c SP then ss l0 + 1 else ss l0).
    { unfold quote_from, slice. cbn [ss se]. rewrite (nth_skipn_cons _ _ _ Ec). destruct (se l0 - ss l0) eqn:Ez; [lia|]. reflexivity. }
    rewrite Eq. clear Eq. destruct (beq c TAB || beq c SP) eqn:Eb; eexists; (split; [reflexivity|]); [|split; [exact Hgen|]; split; [auto|rewrite sp_eta; reflexivity]].
    assert (Hl1 : line_ok src (Sp (ss l0 + 1) (se l0))).
    { apply line_shift; auto; [lia|]. apply (okpos_after _ 0 c); [rewrite slice_nth by lia; rewrite Nat.add_0_r; auto|].
      apply orb_prop in Eb. destruct Eb as [Eb|Eb]; (eapply beq_ascii; [|exact Eb]; reflexivity). }
    assert (Hw2 : within (Sp (ss l0 + 1) (se l0) :: tls) (l0 :: tls)).
    { constructor; cbn [ss se]; try lia. eapply within_refl; eauto. }
    split; [split; [constructor; auto|eapply within_chain; [eauto|apply Hgen]]|]. split; [apply within_size; auto|reflexivity].
Qed.

Lemma prep_ok src line0 rest lo hi : wfb src -> lines_ok src lo (line0 :: rest) hi ->
  exists k sp_start sp_end ol ls n, prep src line0 rest = Ok (k, sp_start, sp_end, ol, ls, n) /\
    1 <= n <= length (line0 :: rest) /\ kfact src k sp_start ls /\ span_ok src sp_start /\ lo <= ss sp_start /\
    lines_ok src (se sp_start) ls (ss sp_end) /\ span_ok src sp_end /\ lines_ok src (se sp_end) (skipn n (line0 :: rest)) hi /\
    size ls + kdec k <= size (line0 :: rest) /\ ktext src k sp_start sp_end ls /\
    forall v, viewed src v (line0 :: rest) -> kview src v k (se sp_start) (ss sp_end) ol ls.
Proof.
  intros Hw [Hl Hc]. inversion Hl as [|? ? Hl0 Hr]; subst. 
  destruct (metered_ok src line0 rest Hl0 Hr) as (k0 & sp0 & n & k & Em & Hn & Hid & Hrel & Hmk & Hident).
  unfold prep. rewrite Em. cbn [bind]. cbn [Nat.add firstn].
  destruct (ident_span _ _ _ _ Hw Hl0 Hid) as (S1 & S2 & S3). set (sp1 := Sp (ss sp0 + ss line0) (se sp0 + ss line0)) in *.
  assert (Hfok : match k0 with KFenced _ f fk _ _ nst => fence_ok f fk nst | _ => True end).
  { destruct k0; try exact I. destruct Hid as (_ & _ & _ & _ & _ & -> & _). destruct Hmk as (M1 & _ & M2). split; [exact M1|]. destruct k0; [exact I|]. destruct M2 as [M2 _]. auto. }
  set (ls0 := line0 :: firstn n rest).
  assert (Hls0 : Forall (line_ok src) ls0) by (constructor; auto; apply Forall_firstn; auto).
  assert (Hkt : match k with KTable cap bl => is_blank_line (slice src line0) = false /\ se sp0 = count_while is_ws (slice src line0) /\ starts_c (trim_start_m is_ws (slice src line0)) "|" = true /\ row_end (slice src line0) /\
     exists pre post, firstn n rest = pre ++ post /\ Forall (trow src) pre /\ match post with [] => cap = false | p :: _ => cap = true /\ caption_line src p end | _ => True end).
  { destruct Hid as (_ & _ & _ & _ & Hk). destruct k0; cbn [cont_rel] in Hrel; try (subst k; exact I).
    - destruct Hrel as [_ ->]. exact I.
    - destruct Hrel as [-> _]. exact I.
    - destruct Hrel as (? & ? & -> & _). exact I.
    - destruct Hrel as (? & ->). exact I.
    - destruct Hrel as (? & ->). exact I.
    - destruct Hk as (K1 & K2 & K3 & K4 & K5 & K6 & K7). subst caption. destruct Hrel as (c' & b' & pre & post & -> & H1 & H2 & H3).
      split; [auto|]. split; [congruence|]. split; [auto|]. split; [auto|]. exists pre, post. auto. }
  destruct (table_trailing_ok src k ls0 Hls0) as (n2 & E2 & Hn2 & Hk2).
  { cbn [ls0]. destruct k; auto. apply Hkt. }
  rewrite E2. cbn [bind].
  assert (Hlen0 : length ls0 = S n) by (cbn [ls0 length]; rewrite firstn_length; lia).
  destruct n2 as [|n2]; [lia|]. assert (Hn2' : n2 <= n) by lia.
  assert (Hf2 : firstn (S n2) ls0 = line0 :: firstn n2 rest).
  { cbn [ls0 firstn]. rewrite firstn_firstn. f_equal. f_equal. lia. }
  rewrite Hf2. set (tls := firstn n2 rest). cbn [tl length].
  assert (Hltls : length tls = n2) by (unfold tls; rewrite firstn_length; lia).
  rewrite last_opt_cons. cbn [unwrap bind]. set (e := last tls line0).
  assert (He : (tls = [] /\ e = line0) \/ exists tls', tls = tls' ++ [e]).
  { unfold e. destruct (rev_case tls) as [->|(l' & x & ->)]; [left; auto|right]. exists l'. rewrite last_last. reflexivity. }
  rewrite usub_yes by (cbn [sp1 se]; lia). cbn [bind].
  replace (se sp1 - ss line0) with (se sp0) by (cbn [sp1 se]; lia).
  set (l0 := Sp (ss line0 + se sp0) (se line0)) in *.
  assert (Hcc : lo <= ss line0 /\ chain (se line0) tls (se e) /\ lines_ok src (se e) (skipn (S n2) (line0 :: rest)) hi /\ line_ok src e).
  { cbn [skipn]. cbn [chain] in Hc. destruct Hc as (C1 & C2 & C3). split; [auto|].
    assert (Hft : Forall (line_ok src) tls) by (apply Forall_firstn; auto).
    assert (Hfs : Forall (line_ok src) (skipn n2 rest)) by (rewrite <- (firstn_skipn n2 rest) in Hr; apply Forall_app in Hr; tauto).
    rewrite <- (firstn_skipn n2 rest) in C3. fold tls in C3. apply chain_app in C3. destruct C3 as (m & D1 & D2).
    destruct He as [[Et Ee]|(tls' & Et)].
    - rewrite Ee, Et in *. cbn in D1. cbn [chain]. split; [auto|]. split; [split; [auto|eapply chain_weaken; [exact D1|apply le_n|auto]]|auto].
    - rewrite Et in D1, Hft. rewrite Et. apply Forall_app in Hft. destruct Hft as [_ Hfe]. apply Forall_inv in Hfe. apply chain_app in D1. destruct D1 as (m1 & D1 & D3). cbn in D3.
      split; [apply chain_app; exists m1; split; [auto|cbn; lia]|]. split; [split; [auto|eapply chain_weaken; [|apply le_n|exact D2]; lia]|auto]. }
  destruct Hcc as (C1 & C2 & C3 & C4).
  destruct (pre_lines_ok src k l0 tls e (se sp1) Hw S3) as (ls & E3 & H1 & H2 & H3).
  - apply Forall_firstn. auto.
  - cbn [sp1 l0 ss se]. lia.
  - exact C2.
  - destruct He as [[Q1 Q2]|He]; [left; split; [exact Q1|rewrite Q2; reflexivity]|right; auto].
  - destruct k; auto.
    + destruct k0; cbn [cont_rel] in Hrel; try discriminate Hrel; try (destruct Hrel as (? & Hx); discriminate Hx).
      * destruct Hrel as [Hrel Hh]. injection Hrel as <-. assert (En : n2 = n) by (cbv iota in Hk2; lia). unfold tls. rewrite En. exact Hh.
      * destruct Hrel as (? & ? & Hx & _). discriminate Hx.
      * destruct caption; [discriminate|]. destruct Hrel as (? & ? & ? & ? & Hx & _). discriminate Hx.
    + destruct closing; [|exact I]. destruct k0; cbn [cont_rel] in Hrel; try discriminate Hrel; try (destruct Hrel as (? & Hx); discriminate Hx).
      * destruct Hrel as [Hrel _]. discriminate.
      * destruct Hrel as (c' & n' & Hx & Hcl). injection Hx as <- <- <- <- <- <-. destruct Hid as (_ & _ & _ & _ & Hk & _). subst closing.
        destruct Hcl as [_ Hcl]. destruct (Hcl eq_refl Hfok) as (_ & body & cl & Hb & (e1 & -> & _) & _). assert (En : n2 = n) by (cbv iota in Hk2; lia). unfold tls. rewrite En, Hb. destruct body; discriminate.
      * destruct caption; [discriminate|]. destruct Hrel as (? & ? & ? & ? & Hx & _). discriminate Hx.
  - assert (E4 : forall (F : list span -> res (bkind * span * span * nat * list span * nat)), (let! ls :=
    (match k with
     | KBlockquote =>
         if Nat.ltb (ss l0) (se l0) then
           let! c := get_at src (ss l0) "block.rs:338" in
           Ok ((if beq c TAB || beq c SP then Sp (ss l0 + 1) (se l0) else l0) :: tls)
         else Ok (l0 :: tls)
     | KHeading level => let! tls' := mapr (heading_cont src level) tls in Ok (l0 :: tls')
     | _ => Ok (l0 :: tls)
     end) in
    let! ls := match k with
     | KFenced _ _ _ _ closing _ =>
         let! n := usub (length ls) (if closing then 1 else 0) "block.rs:364" in
         if Nat.leb 1 n then Ok (skipn 1 (firstn n ls)) else Panic "block.rs:365"
     | _ => Ok ls
     end in F ls) = F ls).
    { intros F. rewrite <- bind_assoc. unfold pre_lines in E3. rewrite E3. reflexivity. }
    rewrite E4. clear E4.
    assert (Hkf : kfact src k sp1 ls).
    { apply (kfact_ident src line0 k0 sp0 k (firstn n rest) ls); auto. destruct k; auto; [exists l0, tls; exact H3|].
      destruct Hkt as (K1 & K2 & K3 & K7 & pre & post & K4 & K5 & K6). rewrite H3.
      assert (Hpre : trow src l0) by (unfold l0; rewrite K2; apply table_shift; auto).
      destruct (Nat.eq_dec n2 n) as [En|Hne].
      * exists (l0 :: pre), post. unfold tls. rewrite En, K4. split; [reflexivity|]. split; [constructor; auto|]. destruct post; [auto|apply K6].
      * destruct caption; [cbv iota in Hk2; lia|]. destruct post as [|p post]; [|destruct K6; discriminate]. rewrite app_nil_r in K4.
        exists (l0 :: tls), []. rewrite app_nil_r. split; [auto|]. split; [constructor; auto|auto]. unfold tls. replace (firstn n2 rest) with (firstn n2 (firstn n rest)) by (rewrite firstn_firstn; f_equal; lia).
        rewrite K4. apply Forall_firstn. auto. }
    do 6 eexists. split; [reflexivity|]. split; [cbn [length]; lia|]. split; [exact Hkf|split; [exact S1|split; [cbn [sp1 ss]; lia|split; [exact H1|split; [|split; [|split; [|split; [split|]]]]]]]].
    + assert (Hpe : span_ok src (Sp (se e) (se e))) by (destruct C4 as ((Q1 & Q2 & Q3 & Q4) & _); repeat split; cbn [ss se]; auto).
      destruct k; try exact Hpe. destruct closing; [apply C4|exact Hpe].
    + replace (se (match k with KFenced _ _ _ _ true _ => e | _ => Sp (se e) (se e) end)) with (se e) by (destruct k; auto; destruct closing; auto). rewrite Hltls. exact C3.
    + assert (Hsz : size tls <= size rest) by apply size_firstn. rewrite size_cons in *. unfold sp_len in *. cbn [l0 ss se] in H2.
      assert (ss line0 <= se line0) by apply Hl0. 
      destruct k; cbn [kdec kfact sp1 ss se] in *; lia.
    + unfold sp1. rewrite slice_slice; [|apply Hl0|apply Hid|exact S2]. eapply mark_rel; eauto.
    + assert (Hln : (forall a, k <> KAtom a) -> eol src (se e) /\ ss sp1 < se e).
      { intros Hna. split; [apply C4|]. assert (Hlt : ss sp0 < length (slice src line0)).
        { apply (ident_lt _ k0); auto. intros a ->. destruct Hrel as [_ ->]. exact (Hna a eq_refl). }
        rewrite (span_ok_len _ _ (proj1 Hl0)) in Hlt. apply chain_le in C2. cbn [sp1 ss]. lia. }
      assert (HL : forall sp', (forall a, k <> KAtom a) -> se sp' = se e -> lined src sp1 sp') by (intros sp' Hna E; unfold lined; rewrite E; auto).
      clear Hln. assert (Ho : opened src (rest_ok k) sp1).
      { exists (se line0). split; [replace (se sp1) with (ss line0 + se sp0) by (cbn [sp1 se]; lia); exact S3|].
        replace (slice src sp1) with (firstn (se sp0 - ss sp0) (skipn (ss sp0) (slice src line0))) by (symmetry; unfold sp1; apply slice_slice; [apply Hl0|apply Hid|exact S2]).
        replace (slice src (Sp (se sp1) (se line0))) with (skipn (se sp0) (slice src line0)).
        - eapply rest_rel; [exact Hrel|]. apply identify_rest. exact Hident.
        - unfold slice. cbn [sp1 ss se]. rewrite skipn_firstn_comm, skipn_skipn. f_equal; [lia|f_equal; lia]. }
      destruct k; try exact I; try (split; [reflexivity|split; [apply HL; [discriminate|reflexivity]|exact Ho]]); try (split; [reflexivity|apply HL; [discriminate|reflexivity]]); try (split; [apply HL; [discriminate|reflexivity]|exact Ho]).
      destruct k0; cbn [cont_rel] in Hrel; try discriminate Hrel; try (destruct Hrel as (? & Hx); discriminate Hx); try (destruct Hrel as (Hx & _); discriminate Hx).
      * destruct Hrel as (c' & n' & Hx & Hcl). injection Hx as <- <- <- <- <- <-. destruct Hid as (_ & _ & _ & _ & Hk & _). subst closing0.
        destruct Hcl as [_ Hcl]. destruct (Hcl eq_refl Hfok) as (_ & body & cl & Hb & Hc1 & Hc2). assert (En : n2 = n) by (cbv iota in Hk2; lia).
        assert (Et : tls = body ++ cl) by (unfold tls; rewrite En; exact Hb). cbn in H3. destruct H3 as [H3 H4]. destruct closing.
        -- destruct Hc1 as (e1 & -> & Hc1). unfold e. rewrite Et, last_last. split; [right; exact Hc1|]. split; [rewrite (H4 body e1 Et); exact Hc2|]. apply HL; [discriminate|unfold e; rewrite Et, last_last; reflexivity].
        -- subst cl. rewrite app_nil_r in Et. split; [left; reflexivity|]. split; [rewrite H4, Et; exact Hc2|]. apply HL; [discriminate|reflexivity].
      * destruct caption; [discriminate|]. destruct Hrel as (? & ? & ? & ? & Hx & _). discriminate Hx.
    + intros v Hv. cbn [sp1 se]. destruct k; try exact I.
      * destruct k0; cbn [cont_rel] in Hrel; try discriminate Hrel; try (destruct Hrel as (? & Hx); discriminate Hx); try (destruct Hrel as (Hx & _); discriminate Hx).
        -- destruct Hrel as (c' & n' & Hx & Hcl). injection Hx as <- <- <- <- <- <-. destruct Hid as (_ & _ & _ & _ & Hk & _ & Hse & _). subst closing0.
           destruct Hcl as [_ Hcl]. destruct (Hcl eq_refl Hfok) as (_ & body & cl & Hb & Hc1 & Hc2). assert (En : n2 = n) by (cbv iota in Hk2; lia).
           assert (Et : tls = body ++ cl) by (unfold tls; rewrite En; exact Hb). cbn in H3. destruct H3 as [H3 H4].
           pose proof (kview_fenced src v indent flen k spec closing nested line0 rest n2 (se sp0 + ss line0) (se sp0) ls Hv) as Q. cbv zeta in Q. fold tls e in Q.
           replace (ss (if closing then e else Sp (se e) (se e))) with (if closing then ss e else se e) by (destruct closing; reflexivity). apply Q.
           ++ rewrite Hse, (span_ok_len _ _ (proj1 Hl0)). assert (ss line0 <= se line0) by apply Hl0. lia.
           ++ exact (identify_fence_indent _ _ _ _ _ _ _ _ Hident).
           ++ destruct closing; [|auto]. destruct Hc1 as (e1 & -> & Hc1). assert (Ee : e = e1) by (unfold e; rewrite Et, last_last; reflexivity). rewrite Ee. rewrite (H4 body e1 Et). split; [exact Et|].
              destruct Hc1 as (a1 & m1 & b1 & Ec1 & Hm1 & _). assert (Hle1 : ss e1 <= se e1) by (rewrite <- Ee; apply C4). destruct (Nat.eq_dec (ss e1) (se e1)) as [Eq|]; [|lia].
              exfalso. unfold slice in Ec1. rewrite Eq, Nat.sub_diag in Ec1. cbn [firstn] in Ec1. destruct Hfok as [Hf3 _]. destruct a1; [|discriminate]. destruct m1; [lia|discriminate].
        -- destruct caption; [discriminate|]. destruct Hrel as (? & ? & ? & ? & Hx & _). discriminate Hx.
      * apply (kview_item src v _ line0 rest n2); auto; try exact I; cbn [kfact sp1 ss se] in Hkf; try lia. rewrite H3. unfold l0. f_equal. f_equal. lia.
      * apply (kview_item src v _ line0 rest n2); auto; try exact I; cbn [kfact sp1 ss se] in Hkf; try lia. rewrite H3. unfold l0. cbn [ss se]. rewrite (Nat.add_comm (ss line0)). reflexivity.
      * apply (kview_item src v _ line0 rest n2); auto; try exact I; cbn [kfact sp1 ss se] in Hkf; try lia. rewrite H3. unfold l0. f_equal. f_equal. lia.
Qed.
(** ** What the line after a block is *)
Definition follows (k k2 : bkind) : Prop :=
  match k with
  | KParagraph => k2 = KAtom BBlankline
  | KHeading lv => k2 <> KParagraph /\ k2 <> KHeading lv
  | KBlockquote => k2 <> KParagraph /\ k2 <> KBlockquote
  | KTable _ _ => match k2 with KTable _ _ => False | _ => True end
  | _ => True
  end.
Definition next_is (src : bytes) (P : bkind -> Prop) (ls : list span) : Prop :=
  match ls with [] => True | l :: _ => forall k2 sp2, identify (slice src l) = Ok (k2, sp2) -> P k2 end.
Lemma forallb_skipn {A} (f : A -> bool) n l : forallb f l = true -> forallb f (skipn n l) = true.
Proof. intros H. rewrite <- (firstn_skipn n l), forallb_app in H. apply andb_prop in H. apply H. Qed.
Lemma blank_ident l k sp : is_blank_line l = true -> identify l = Ok (k, sp) -> k = KAtom BBlankline.
Proof.
  intros H E. apply blank_iff in H. unfold identify in E. destruct (trim_start_m ws_not_nl l) as [|c r] eqn:Et.
  - apply okp in E. apply E.
  - rewrite trim_start_skipn in Et. assert (Hc : c = NL).
    { assert (Hs : forallb is_ws (c :: r) = true) by (rewrite <- Et; apply forallb_skipn; exact H). cbn in Hs. apply andb_prop in Hs. destruct Hs as [Hs _].
      assert (Hn : ws_not_nl c = false) by (pose proof (count_while_skipn ws_not_nl l) as Q; rewrite Et in Q; exact Q). unfold ws_not_nl in Hn. rewrite Hs in Hn. cbn in Hn.
      destruct (beq c NL) eqn:Ec; [apply beq_eq in Ec; exact Ec|discriminate Hn]. }
    subst c. cbn in E. apply okp in E. apply E.
Qed.
Lemma ident_row l k b sp : identify l = Ok (KTable k b, sp) -> starts_c (trim_m is_ws l) "|" = true /\ row_end l.
Proof.
  intros E. destruct (identify_ok l) as (k2 & sp2 & E2 & H). rewrite E in E2. apply okp in E2. destruct E2 as [-> ->]. destruct H as (_ & _ & _ & _ & _ & _ & _ & Hb & Hs & _ & Hr).
  split; [|exact Hr]. destruct (trim_m_prefix l) as (u & Eu & _). unfold is_blank_line in Hb. destruct (trim_m is_ws l) as [|c r]; [discriminate Hb|]. rewrite Eu in Hs. exact Hs.
Qed.
Lemma stop_next k l k1 k2 sp2 : continues k l = Ok (false, k1) -> identify l = Ok (k2, sp2) -> k1 <> KTable false true -> follows k1 k2.
Proof.
  intros H E Hn. destruct k; cbn [continues] in H.
  - apply okp in H. destruct H as [_ ->]. exact I.
  - apply okp in H. destruct H as [H ->]. cbn. eapply blank_ident; [|exact E]. destruct (is_blank_line l); [auto|discriminate H].
  - rewrite E in H. cbn [bind] in H. apply okp in H. destruct H as [H ->]. cbn. split; intros ->; [discriminate H|]. rewrite Nat.eqb_refl in H. discriminate H.
  - destruct closing; [apply okp in H; destruct H as [_ ->]; exact I|]. rewrite E in H. cbn [bind] in H. apply okp in H. destruct H as [H _]. discriminate H.
  - destruct footnote; [rewrite E in H; cbn [bind] in H|]; apply okp in H; destruct H as [_ ->]; exact I.
  - rewrite E in H. cbn [bind] in H. apply okp in H. destruct H as [H ->]. cbn. split; intros ->; discriminate H.
  - rewrite E in H. cbn [bind] in H. apply okp in H. destruct H as [_ ->]. exact I.
  - destruct caption.
    + apply okp in H. destruct H as [H ->]. assert (Hb : is_blank_line l = true) by (destruct (is_blank_line l); [reflexivity|discriminate H]). cbn. rewrite (blank_ident _ _ _ Hb E). exact I.
    + destruct (trim_m is_ws l) as [|c r] eqn:Et; [apply okp in H; destruct H as [H _]; discriminate H|]. destruct (starts_with (c :: r) (B "^ ")); [apply okp in H; destruct H as [H _]; discriminate H|].
      apply okp in H. destruct H as [H ->]. destruct blank; [congruence|]. cbn. destruct k2; try exact I. apply ident_row in E. rewrite Et in E. destruct E as [E1 [E2 E3]]. rewrite Et in E2, E3.
      rewrite E1, E2, E3 in H. discriminate H.
Qed.
Lemma take_next src : forall ls k n k', Forall (line_ok src) ls -> take_cont src k ls = Ok (n, k') -> k' <> KTable false true -> next_is src (follows k') (skipn n ls).
Proof.
  induction ls as [|l ls IH]; intros k n k' Hl H Hk; cbn [take_cont] in H.
  - apply okp in H. destruct H as [-> ->]. exact I.
  - inversion Hl; subst. rewrite span_ok_ssub in H by (match goal with X : line_ok _ _ |- _ => apply X end). cbn [bind] in H. apply bind_ok in H. destruct H as ([b k1] & E & H). cbn iota beta in H. destruct b.
    + apply bind_ok in H. destruct H as ([n1 k2] & E2 & H). cbn iota beta in H. apply okp in H. destruct H as [-> ->]. cbn [skipn]. eapply IH; eauto.
    + apply okp in H. destruct H as [-> ->]. cbn [skipn next_is]. intros k2 sp2 Ek. eapply stop_next; eauto.
Qed.
Lemma take_blank src : forall ls b n, Forall (line_ok src) ls -> take_cont src (KTable false b) ls = Ok (n, KTable false true) ->
  (n = 0 /\ b = true) \/ exists m l, n = S m /\ nth_error ls m = Some l /\ is_blank_line (slice src l) = true.
Proof.
  induction ls as [|l ls IH]; intros b n Hl H.
  - apply okp in H. destruct H as [-> H]. injection H as ->. auto.
  - cbn [take_cont] in H. inversion Hl as [|? ? Hl1 Hl2]; subst. rewrite span_ok_ssub in H by apply Hl1. cbn [bind continues] in H.
    destruct (trim_m is_ws (slice src l)) as [|c r] eqn:Et.
    + cbn [bind] in H. apply bind_ok in H. destruct H as ([n1 k2] & E2 & H). cbn iota beta in H. apply okp in H. destruct H as [-> <-].
      right. apply IH in E2; [|auto]. destruct E2 as [[-> _]|(m & l1 & -> & E1 & E3)].
      * exists 0, l. split; [auto|]. split; [auto|]. unfold is_blank_line. rewrite Et. reflexivity.
      * exists (S m), l1. auto.
    + destruct (starts_with (c :: r) (B "^ ")).
      * cbn [bind] in H. apply bind_ok in H. destruct H as ([n1 k2] & E2 & H). cbn iota beta in H. apply okp in H. destruct H as [-> <-].
        destruct (take_cont_ok src ls Hl2 (KTable true b)) as (n2 & k3 & E3 & _ & Hr). rewrite E2 in E3. apply okp in E3. destruct E3 as [-> ->]. cbn in Hr. discriminate Hr.
      * destruct (negb b && _)%bool eqn:Eb; cbn [bind] in H.
        -- apply bind_ok in H. destruct H as ([n1 k2] & E2 & H). cbn iota beta in H. apply okp in H. destruct H as [-> <-]. apply andb_prop in Eb. destruct Eb as [Eb _].
           apply IH in E2; [|auto]. destruct E2 as [[-> ->]|(m & l1 & -> & E1 & E3)]; [discriminate Eb|]. right. exists (S m), l1. auto.
        -- apply okp in H. destruct H as [-> E]. injection E as <-. auto.
Qed.
Lemma trailing_next src ls rest ls' : Forall (line_ok src) ls -> table_trailing src (KTable false true) ls = Ok ls' ->
  (exists x l, ls = x ++ [l] /\ is_blank_line (slice src l) = true) ->
  exists l r, skipn (length ls') (ls ++ rest) = l :: r /\ is_blank_line (slice src l) = true.
Proof.
  intros Hl H (x & l & El & Hb). cbn [table_trailing] in H. assert (E : mapr (fun sp => ssub src sp "block.rs:311") ls = Ok (map (slice src) ls)).
  { clear - Hl. induction Hl as [|l ls Hl Hls IH]; [reflexivity|]. cbn [mapr map]. rewrite span_ok_ssub by apply Hl. cbn [bind]. rewrite IH. reflexivity. }
  rewrite E in H. cbn [bind] in H. injection H as <-. set (c := count_while is_blank_line (rev (map (slice src) ls))).
  assert (Hc : 1 <= c <= length ls).
  { unfold c. split; [|pose proof (count_while_le is_blank_line (rev (map (slice src) ls))) as Q; rewrite rev_length, map_length in Q; exact Q].
    rewrite El, map_app, rev_app_distr. cbn [map rev app]. cbn [count_while]. rewrite Hb. lia. }
  rewrite firstn_length. replace (Nat.min (length ls - c) (length ls)) with (length ls - c) by lia. rewrite skipn_app. replace (length ls - c - length ls) with 0 by lia. cbn [skipn].
  assert (Hall : forallb is_blank_line (map (slice src) (skipn (length ls - c) ls)) = true).
  { rewrite <- skipn_map. replace (skipn (length ls - c) (map (slice src) ls)) with (rev (firstn c (rev (map (slice src) ls)))).
    - apply forallb_forall. intros y Hy. apply in_rev in Hy. pose proof (count_while_firstn is_blank_line (rev (map (slice src) ls))) as Hf. rewrite forallb_forall in Hf. apply Hf. exact Hy.
    - rewrite firstn_rev, rev_involutive, map_length. reflexivity. }
  destruct (skipn (length ls - c) ls) as [|l1 r1] eqn:Es.
  - exfalso. assert (Q : length (skipn (length ls - c) ls) = 0) by (rewrite Es; reflexivity). rewrite skipn_length in Q. lia.
  - cbn [map forallb] in Hall. apply andb_prop in Hall. destruct Hall as [Hall _]. exists l1, (r1 ++ rest). auto.
Qed.
Lemma firstn_snoc {A} (l : list A) : forall m x, nth_error l m = Some x -> firstn (S m) l = firstn m l ++ [x].
Proof. induction l as [|y l IH]; intros [|m] x H; try discriminate H; [cbn in H; injection H as ->; reflexivity|]. change (y :: firstn (S m) l = (y :: firstn m l) ++ [x]). rewrite (IH _ _ H). reflexivity. Qed.
Lemma prep_next src line0 rest k a b ol ls n : Forall (line_ok src) (line0 :: rest) -> prep src line0 rest = Ok (k, a, b, ol, ls, n) ->
  next_is src (follows k) (skipn n (line0 :: rest)).
Proof.
  intros Hl H. inversion Hl as [|? ? Hl0 Hlr]; subst. unfold prep in H. apply bind_ok in H. destruct H as ([[k1 sp0] lc] & Em & H). cbn iota beta in H.
  unfold metered in Em. rewrite span_ok_ssub in Em by apply Hl0. cbn [bind] in Em. apply bind_ok in Em. destruct Em as ([k0 sp] & Ei & Em). cbn iota beta in Em.
  apply bind_ok in Em. destruct Em as ([m k'] & Et & Em). cbn iota beta in Em. assert (X : lc = 1 + m /\ k1 = k' /\ sp0 = sp) by (injection Em as <- <- <-; auto). clear Em. destruct X as (-> & -> & ->).
  apply bind_ok in H. destruct H as (ls1 & Etr & H). apply bind_ok in H. destruct H as (el & _ & H). apply bind_ok in H. destruct H as (olx & _ & H).
  apply bind_ok in H. destruct H as (ls2 & _ & H). apply bind_ok in H. destruct H as (ls3 & _ & H).
  assert (X : k = k' /\ n = length ls1) by (injection H as <- _ _ _ _ <-; auto). clear H. destruct X as (-> & ->).
  destruct (take_cont_ok src rest Hlr k0) as (m2 & k2 & Et2 & Hm & Hrel). rewrite Et in Et2. apply okp in Et2. destruct Et2 as [-> ->].
  assert (Hlen : length (firstn (1 + m) (line0 :: rest)) = 1 + m) by (rewrite firstn_length; cbn [length]; lia).
  assert (Hk : k' = KTable false true \/ k' <> KTable false true) by (destruct k' as [| | | | | | |[] []]; auto; right; discriminate).
  destruct Hk as [->|Hk].
  - assert (Hb : exists b0, k0 = KTable false b0).
    { destruct k0; cbn [cont_rel] in Hrel; try discriminate Hrel; try (destruct Hrel as [_ Hrel]; discriminate Hrel); try (destruct Hrel as [Hrel _]; discriminate Hrel);
      try (destruct Hrel as (? & Hrel); discriminate Hrel); try (destruct Hrel as (? & ? & Hrel & _); discriminate Hrel). destruct caption; [discriminate Hrel|eauto]. }
    destruct Hb as (b0 & ->). pose proof Ei as Ei2. destruct (identify_ok (slice src line0)) as (k3 & sp3 & E3 & H3). rewrite Ei in E3. apply okp in E3. destruct E3 as [-> ->].
    destruct H3 as (_ & _ & _ & _ & _ & -> & _). clear Ei2. destruct (take_blank _ _ _ _ Hlr Et) as [[_ H]|(m1 & l & -> & En & Hbl)]; [discriminate H|].
    destruct (trailing_next src _ (skipn (1 + S m1) (line0 :: rest)) ls1 (Forall_firstn _ (1 + S m1) _ Hl) Etr) as (l1 & r & E & Hb1).
    { exists (line0 :: firstn m1 rest), l. split; [|exact Hbl]. change (line0 :: firstn (S m1) rest = line0 :: (firstn m1 rest ++ [l])). apply f_equal. apply firstn_snoc. exact En. }
    rewrite firstn_skipn in E. rewrite E. intros k2 sp2 Ek. rewrite (blank_ident _ _ _ Hb1 Ek). exact I.
  - assert (Els : ls1 = firstn (1 + m) (line0 :: rest)).
    { unfold table_trailing in Etr. destruct k' as [| | | | | | |[] []]; try (injection Etr as <-; reflexivity). congruence. }
    rewrite Els, Hlen. cbn [Nat.add skipn]. eapply take_next; eauto.
Qed.
