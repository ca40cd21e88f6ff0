(** * PCov1: what becomes of the lines a block takes *)
From Verif Require Import Base Lex Attr Block Lib PSafe SpecAttr PAttr SpecBlock PBlock1 PBlock2 PLex PBlock3 PMark PBlock4 PTab0 PTable PTree4 PTree6 Doc SpecCover PCov0.
Local Open Scope nat_scope.

Definition inn (i : nat) (sp : span) : Prop := ss sp <= i /\ i < se sp.
Definition inl (i : nat) (ls : list span) : Prop := exists l, List.In l ls /\ inn i l.
Lemma inl_app i a b : inl i (a ++ b) <-> inl i a \/ inl i b.
Proof.
  unfold inl. split.
  - intros (l & H & Hi). apply in_app_or in H. destruct H; [left|right]; eauto.
  - intros [(l & H & Hi)|(l & H & Hi)]; exists l; (split; [apply in_or_app; auto|auto]).
Qed.
Lemma inl_cons i a b : inl i (a :: b) <-> inn i a \/ inl i b.
Proof.
  unfold inl. split.
  - intros (l & [->|H] & Hi); [left|right]; eauto.
  - intros [Hi|(l & H & Hi)]; [exists a|exists l]; (split; [cbn; auto|auto]).
Qed.
Lemma inl_nil i : inl i [] -> False.
Proof. intros (l & [] & _). Qed.

(** Lines changed one by one. *)
Lemma inl_map (src : bytes) (f : span -> res span) (P : nat -> Prop) ls ys i : mapr f ls = Ok ys ->
  (forall l y, List.In l ls -> f l = Ok y -> ss l <= ss y /\ se y = se l /\ forall j, ss l <= j -> j < ss y -> P j) ->
  inl i ls -> P i \/ inl i ys.
Proof.
  intros E H (l & Hl & Hi). apply mapr_Forall2 in E. revert H Hl. induction E as [|a b ls ys E1 E IH]; intros H Hl; [contradiction|].
  destruct Hl as [->|Hl].
  - destruct (H l b (or_introl eq_refl) E1) as (H1 & H2 & H3). destruct (Nat.lt_ge_cases i (ss b)) as [X|X]; [left; apply H3; [apply Hi|auto]|].
    right. exists b. split; [left; auto|]. split; [auto|]. rewrite H2. apply Hi.
  - destruct (IH ltac:(intros; apply H; [right; auto|auto]) Hl) as [?|(y & Hy & Hi')]; [auto|]. right. exists y. split; [right; auto|auto].
Qed.
Lemma Forall_map_clean src (f : span -> res span) ls ys : mapr f ls = Ok ys -> Forall (fun l => clean src (ss l)) ls ->
  (forall l y, List.In l ls -> f l = Ok y -> ss l <= ss y /\ gap src quote_char (ss l) (ss y)) -> Forall (fun l => clean src (ss l)) ys.
Proof.
  intros E. apply mapr_Forall2 in E. induction E as [|a b ls ys E1 E IH]; intros Hc H; constructor.
  - destruct (H a b (or_introl eq_refl) E1). eapply clean_gap; [exact (Forall_inv Hc)| |]; auto.
  - apply IH; [exact (Forall_inv_tail Hc)|]. intros. apply H; [right; auto|auto].
Qed.

(** ** The lines of a table *)
Definition tlines (src : bytes) (ls : list span) : Prop := exists rows blanks post, ls = rows ++ blanks ++ post /\ rows <> [] /\
  Forall (fun r => trow src r /\ is_blank_line (slice src r) = false) rows /\ Forall (fun r => is_blank_line (slice src r) = true) blanks /\
  match post with [] => True | p :: _ => caption_line src p end.
Lemma trim_m_blank l : trim_m is_ws l = [] -> is_blank_line l = true.
Proof. unfold is_blank_line. intros ->. reflexivity. Qed.
Lemma blank_trim_m l : is_blank_line l = true -> trim_m is_ws l = [].
Proof. unfold is_blank_line. destruct (trim_m is_ws l); [auto|discriminate]. Qed.
Lemma take_cont_table src ls : Forall (line_ok src) ls -> forall b n k, take_cont src (KTable false b) ls = Ok (n, k) ->
  exists rows blanks post, firstn n ls = rows ++ blanks ++ post /\
  Forall (fun r => trow src r /\ is_blank_line (slice src r) = false) rows /\ Forall (fun r => is_blank_line (slice src r) = true) blanks /\
  match post with [] => True | p :: _ => caption_line src p end /\ (b = true -> rows = []) /\ (post = [] \/ exists b', k = KTable true b').
Proof.
  induction 1 as [|sp ls Hl H IH]; intros b n k E; cbn [take_cont] in E.
  { apply okp in E. destruct E as [-> _]. exists [], [], []. repeat split; auto. }
  rewrite span_ok_ssub in E by apply Hl. cbn [bind] in E. pose proof (continues_ok src (KTable false b) sp Hl) as (bb & k' & Ec & R1 & _).
  rewrite Ec in E. cbn [bind] in E. cbn [continues] in Ec. destruct (trim_m is_ws (slice src sp)) as [|c r] eqn:Et.
  - apply okp in Ec. destruct Ec as [-> ->]. apply bind_ok in E. destruct E as ([n' k''] & E1 & E). apply okp in E. destruct E as [-> ->].
    destruct (IH _ _ _ E1) as (rows & blanks & post & H1 & H2 & H3 & H4 & H5 & H6). exists [], (sp :: blanks), post. rewrite (H5 eq_refl) in H1. cbn [firstn app]. rewrite H1. cbn [app].
    split; [auto|]. split; [auto|]. split; [constructor; [apply trim_m_blank; auto|auto]|]. auto.
  - destruct (starts_with (c :: r) (B "^ ")) eqn:Es.
    + apply okp in Ec. destruct Ec as [-> ->]. apply bind_ok in E. destruct E as ([n' k''] & E1 & E). apply okp in E. destruct E as [-> ->].
      exists [], [], (sp :: firstn n' ls). split; [reflexivity|]. split; [auto|]. split; [auto|]. split; [unfold caption_line; rewrite Et; exact Es|]. split; [auto|]. right.
      destruct (take_cont_ok src ls H (KTable true b)) as (n2 & k2 & E2 & _ & R2). rewrite E2 in E1. apply okp in E1. destruct E1 as [_ ->]. cbn [cont_rel] in R2. exists b. exact R2.
    + apply okp in Ec. destruct Ec as [Eb ->]. destruct bb.
      * symmetry in Eb. apply andb_prop in Eb. destruct Eb as [Eb _]. destruct b; [discriminate|].
        apply bind_ok in E. destruct E as ([n' k''] & E1 & E). apply okp in E. destruct E as [-> ->].
        destruct (IH _ _ _ E1) as (rows & blanks & post & H1 & H2 & H3 & H4 & H5 & H6). exists (sp :: rows), blanks, post. cbn [firstn]. rewrite H1.
        split; [reflexivity|]. split; [|split; [auto|split; [auto|split; [discriminate|auto]]]]. constructor; [|auto].
        assert (Hb : is_blank_line (slice src sp) = false). { destruct (is_blank_line (slice src sp)) eqn:Q; [|auto]. apply blank_trim_m in Q. congruence. }
        split; [|auto]. destruct (R1 eq_refl) as (c' & b' & pre & post' & _ & Hp & Hr & Hp').
        destruct pre as [|p pre]; [|cbn in Hp; injection Hp as <- _; exact (Forall_inv Hr)]. cbn in Hp. subst post'. destruct Hp' as [_ Hp']. unfold caption_line in Hp'. rewrite Et in Hp'. congruence.
      * apply okp in E. destruct E as [-> _]. exists [], [], []. repeat split; auto.
Qed.
Lemma tlines_firstn src l0 n ls rows blanks : trow src l0 -> is_blank_line (slice src l0) = false -> ls = rows ++ blanks ->
  Forall (fun r => trow src r /\ is_blank_line (slice src r) = false) rows -> Forall (fun r => is_blank_line (slice src r) = true) blanks -> tlines src (l0 :: firstn n ls).
Proof.
  intros H1 H2 -> Hr Hb. rewrite firstn_app. exists (l0 :: firstn n rows), (firstn (n - length rows) blanks), []. rewrite app_nil_r. split; [reflexivity|]. split; [discriminate|].
  split; [constructor; [auto|apply Forall_firstn; auto]|]. split; [apply Forall_firstn; auto|exact I].
Qed.

(** ** The first half of [parse_block] *)
Lemma line_one src sp : line_ok src sp -> forall i, S i < length (slice src sp) -> nth_error (slice src sp) i <> Some NL.
Proof.
  intros (Hs & _ & H) i Hi. rewrite (span_ok_len src sp Hs) in Hi. rewrite slice_nth by lia. apply H; lia.
Qed.
Lemma trim_skip_slice src sp n : span_ok src sp -> n <= length (slice src sp) -> slice src (Sp (ss sp + n) (se sp)) = skipn n (slice src sp).
Proof. intros Hs _. unfold slice. cbn [ss se]. rewrite skipn_firstn_comm, Lib.skipn_skipn. f_equal. lia. Qed.
Lemma shift_nonblank src sp : line_ok src sp -> is_blank_line (slice src sp) = false ->
  is_blank_line (slice src (Sp (ss sp + count_while is_ws (slice src sp)) (se sp))) = false.
Proof.
  intros Hl H. match goal with |- ?b = false => destruct b eqn:E end; [|auto]. exfalso. apply blank_iff in E. assert (X : is_blank_line (slice src sp) = true); [|congruence].
  apply blank_iff. rewrite <- (firstn_skipn (count_while is_ws (slice src sp)) (slice src sp)), forallb_app, count_while_firstn. cbn [andb].
  rewrite trim_skip_slice in E by (try apply Hl; apply count_while_le). exact E.
Qed.
Definition is_para (k : bkind) : Prop := match k with KParagraph => True | _ => False end.
Definition prep_out (src : bytes) (taken : list span) (k : bkind) (sp_start sp_end : span) (ls : list span) : Prop :=
  (forall i, inl i taken -> passed_block src i \/ inn i sp_start \/ match k with KAtom _ => False | _ => inn i sp_end \/ inl i ls end) /\
  match k with KHeading _ | KAtom _ => True | KFenced _ _ _ _ _ _ => Forall (fun l => clean src (ss l)) ls | _ => Forall (fun l => clean src (ss l)) (tl ls) end /\
  (is_para k -> se sp_start = ss sp_start) /\
  match k with KTable _ _ => tlines src ls | _ => True end.
Lemma prep_cov src line0 rest lo hi k sp_start sp_end ol ls n : wfb src -> lines_ok src lo (line0 :: rest) hi -> Forall (fun l => clean src (ss l)) rest ->
  prep src line0 rest = Ok (k, sp_start, sp_end, ol, ls, n) -> prep_out src (firstn n (line0 :: rest)) k sp_start sp_end ls.
Proof.
  intros Hw [Hl _] Hcl E. pose proof (Forall_inv Hl) as Hl0. pose proof (Forall_inv_tail Hl) as Hr. unfold prep in E.
  apply bind_ok in E. destruct E as ([[k1 sp0] lc] & Em & E).
  unfold metered in Em. rewrite span_ok_ssub in Em by apply Hl0. cbn [bind] in Em.
  destruct (identify_ok (slice src line0)) as (k0 & sp0' & Ei & Hid). rewrite Ei in Em. cbn [bind] in Em.
  destruct (take_cont_ok src rest Hr k0) as (m & k1' & Et & Hm & Hrel). rewrite Et in Em. cbn [bind] in Em.
  assert (k1' = k1 /\ sp0' = sp0 /\ lc = 1 + m) as (-> & -> & ->) by (injection Em; auto). clear Em.
  destruct (identify_around _ _ _ Ei (line_one src line0 Hl0)) as [Hbef Haft].
  pose proof (span_ok_len src line0 (proj1 Hl0)) as Hlen0. assert (Hle0 : ss line0 <= se line0) by apply Hl0.
  assert (Hsp : ss sp0 <= se sp0 /\ se sp0 <= se line0 - ss line0) by (destruct Hid as (A1 & A2 & _); lia).
  cbv zeta in E. set (spa := Sp (ss sp0 + ss line0) (se sp0 + ss line0)) in *. cbn [Nat.add firstn] in E.
  set (ls0 := line0 :: firstn m rest) in *.
  assert (Hb0 : forall i, inn i line0 -> i < ss spa -> passed_block src i).
  { intros i [I1 I2] I3. left. apply (gap_firstn src is_ws line0 (ss sp0)); [apply Hl0|lia|auto|auto|]. cbn [spa ss] in I3. lia. }
  assert (Haf0 : match k1 with KAtom _ | KFenced _ _ _ _ _ _ => forall i, inn i line0 -> se spa <= i -> passed_block src i | _ => True end).
  { assert (X : forallb is_ws (skipn (se sp0) (slice src line0)) = true -> forall i, inn i line0 -> se spa <= i -> passed_block src i).
    { intros Q i [I1 I2] I3. left. apply (gap_skipn src is_ws line0 (se sp0)); [apply Hl0|auto| |auto]. cbn [spa se] in I3. lia. }
    destruct k0; cbn [cont_rel] in Hrel; try (subst k1; exact I); try (destruct Hrel as (? & ->); exact I).
    - destruct Hrel as [_ ->]. auto.
    - destruct Hrel as [-> _]. exact I.
    - destruct Hrel as (? & ? & -> & _). auto.
    - destruct caption; [subst k1; exact I|]. destruct Hrel as (? & ? & ? & ? & -> & _). exact I. }
  assert (Htab : match k1 with KTable _ _ => forall n2, 1 <= n2 -> (match k1 with KTable false true => True | _ => n2 = length ls0 end) -> tlines src (firstn n2 (Sp (ss line0 + se sp0) (se line0) :: firstn m rest)) | _ => True end).
  { destruct Hid as (_ & _ & _ & _ & Hk). destruct k0; cbn [cont_rel] in Hrel; try (subst k1; exact I); try (destruct Hrel as (? & ->); exact I).
    - destruct Hrel as [-> _]. exact I.
    - destruct Hrel as (? & ? & -> & _). exact I.
    - destruct Hk as (K1 & K2 & K3 & K4 & K5 & K6 & K7). subst caption. destruct (take_cont_table src rest Hr _ _ _ Et) as (rows & blanks & post & H1 & H2 & H3 & H4 & _ & H5).
      assert (Ht0 : trow src (Sp (ss line0 + se sp0) (se line0))) by (rewrite K3, K6; apply table_shift; auto).
      assert (Hb1 : is_blank_line (slice src (Sp (ss line0 + se sp0) (se line0))) = false) by (rewrite K3, K6; apply shift_nonblank; auto). destruct Hrel as (c' & b' & _ & _ & -> & _). intros n2 Hn2 Hk2.
      destruct c'.
      + rewrite Hk2. unfold ls0. change (length (line0 :: firstn m rest)) with (length (Sp (ss line0 + se sp0) (se line0) :: firstn m rest)). rewrite firstn_all. exists (Sp (ss line0 + se sp0) (se line0) :: rows), blanks, post. rewrite H1. split; [reflexivity|]. split; [discriminate|]. split; [constructor; auto|]. auto.
      + destruct H5 as [->|(b'' & Hx)]; [|discriminate Hx]. rewrite app_nil_r in H1. destruct n2 as [|n2]; [lia|]. cbn [firstn]. eapply tlines_firstn; eauto. }
  assert (Hat : match k1 with KAtom _ => firstn m rest = [] | _ => True end).
  { destruct k0; cbn [cont_rel] in Hrel; try (subst k1; exact I); try (destruct Hrel as (? & ->); exact I).
    - destruct Hrel as [Hx ->]. auto.
    - destruct Hrel as [-> _]. exact I.
    - destruct Hrel as (? & ? & -> & _). exact I.
    - destruct caption; [subst k1; exact I|]. destruct Hrel as (? & ? & ? & ? & -> & _). exact I. }
  assert (Hpa : is_para k1 -> se spa = ss spa).
  { intros Hx. destruct k1; try contradiction. destruct Hid as (_ & _ & _ & _ & Hk). destruct k0; cbn [cont_rel] in Hrel; try discriminate Hrel; try (destruct Hrel as (? & Hy); discriminate Hy).
    - cbn [spa ss se]. lia.
    - destruct Hrel as [Hy _]. discriminate.
    - destruct Hrel as (? & ? & Hy & _). discriminate.
    - destruct caption; [discriminate|]. destruct Hrel as (? & ? & ? & ? & Hy & _). discriminate. }
  assert (Hnb : match k1 with KTable _ _ => is_blank_line (slice src line0) = false | _ => True end).
  { destruct Hid as (_ & _ & _ & _ & Hk). destruct k0; cbn [cont_rel] in Hrel; try (subst k1; exact I); try (destruct Hrel as (? & ->); exact I).
    - destruct Hrel as [-> _]. exact I.
    - destruct Hrel as (? & ? & -> & _). exact I.
    - destruct k1; auto. apply Hk. }
  clear Hid Hrel Et Ei Haft Hbef k0.
  assert (Hls0 : Forall (line_ok src) ls0) by (constructor; auto; apply Forall_firstn; auto).
  destruct (table_trailing_ok src k1 ls0 Hls0) as (n2 & E2 & Hn2 & Hk2); [unfold ls0; destruct k1; auto|].
  rewrite E2 in E. cbn [bind] in E.
  assert (Hlen1 : length ls0 = S m) by (cbn [ls0 length]; rewrite firstn_length; lia).
  destruct n2 as [|n2]; [lia|]. assert (Hf2 : firstn (S n2) ls0 = line0 :: firstn n2 rest).
  { cbn [ls0 firstn]. rewrite firstn_firstn. f_equal. f_equal. lia. }
  assert (Htl : match k1 with KTable _ _ => tlines src (Sp (ss line0 + se sp0) (se line0) :: firstn n2 rest) | _ => True end).
  { destruct k1; auto. assert (Hq := Htab (S n2) ltac:(lia) Hk2). cbn [firstn] in Hq. rewrite firstn_firstn, Nat.min_l in Hq by lia. exact Hq. }
  assert (Hat2 : match k1 with KAtom _ => firstn n2 rest = [] | _ => True end).
  { destruct k1; auto. assert (n2 = m) as -> by lia. auto. }
  clear Htab Hat. rewrite Hf2 in E. set (tls := firstn n2 rest) in *. cbn [tl length] in E.
  rewrite last_opt_cons in E. cbn [unwrap bind] in E. set (e := last tls line0) in *.
  rewrite usub_yes in E by (cbn [spa se]; lia). cbn [bind] in E.
  set (l0 := Sp (ss line0 + (se spa - ss line0)) (se line0)) in *.
  assert (Hl0s : ss l0 = se spa) by (cbn [l0 spa ss se]; lia).
  assert (Hctl : Forall (fun l => clean src (ss l)) tls) by (apply Forall_firstn; auto).
  assert (Hltl : Forall (line_ok src) tls) by (apply Forall_firstn; auto).
  apply bind_ok in E. destruct E as (ls1 & E3 & E). apply bind_ok in E. destruct E as (ls2 & E4 & E).
  assert (k1 = k /\ spa = sp_start /\ ls2 = ls /\ S (length tls) = n /\
          match k1 with KFenced _ _ _ _ true _ => sp_end = e | _ => sp_end = Sp (se e) (se e) end) as (<- & <- & <- & <- & Hse).
  { injection E. intros. subst. repeat split; auto. destruct k; auto. destruct closing; auto. }
  clear E.
  assert (Hn : firstn (S (length tls)) (line0 :: rest) = line0 :: tls).
  { cbn [firstn]. f_equal. unfold tls. rewrite firstn_length. rewrite Nat.min_l; [auto|]. clear - Hn2 Hlen1 Hm. lia. }
  rewrite Hn. assert (Hpos : forall i, inn i line0 -> passed_block src i \/ inn i spa \/ inn i l0).
  { intros i Hi. destruct (Nat.lt_ge_cases i (ss spa)) as [X|X]; [left; apply Hb0; auto|]. destruct (Nat.lt_ge_cases i (se spa)) as [Y|Y]; [right; left; split; auto|].
    right; right. split; [lia|]. cbn [l0 se]. apply Hi. }
  assert (Hgen : ls2 = l0 :: tls -> (match k1 with KAtom _ | KFenced _ _ _ _ _ _ => False | _ => True end) -> prep_out src (line0 :: tls) k1 spa sp_end ls2 \/ match k1 with KTable _ _ => True | _ => False end).
  { intros -> Hk. destruct k1; try contradiction; try (right; exact I); left; (split; [|split; [cbn [tl]; auto|split; [auto|exact I]]]); intros i Hi; rewrite inl_cons in Hi; rewrite inl_cons;
      (destruct Hi as [Hi|Hi]; [destruct (Hpos i Hi) as [?|[?|?]]; auto|auto]). }
  destruct k1.
  - (* atom *) apply okp1 in E4. subst ls2. split; [|split; [exact I|split; [auto|exact I]]]. intros i Hi. rewrite Hat2, inl_cons in Hi. destruct Hi as [Hi|Hi]; [|destruct (inl_nil _ Hi)].
    destruct (Nat.lt_ge_cases i (se spa)) as [Y|Y]; [|left; apply Haf0; auto]. destruct (Hpos i Hi) as [?|[?|[? ?]]]; auto. lia.
  - apply okp1 in E3. apply okp1 in E4. subst ls1 ls2. destruct (Hgen eq_refl I) as [?|[]]; auto.
  - (* heading *) apply bind_ok in E3. destruct E3 as (tls' & E3 & E5). apply okp1 in E5, E4. subst ls1 ls2. split; [|split; [exact I|split; [auto|exact I]]]. intros i Hi. rewrite inl_cons in Hi. rewrite inl_cons.
    destruct Hi as [Hi|Hi]; [destruct (Hpos i Hi) as [?|[?|?]]; auto|].
    destruct (inl_map src _ (margin src) _ _ i E3) with (2 := Hi) as [?|?]; [|left; right; left; auto|auto].
    intros l y Hy Ey. rewrite Forall_forall in Hctl, Hltl. destruct (heading_cont_gap src level l y (proj1 (Hltl l Hy)) Ey) as (G1 & G2 & G3 & G4).
    split; [auto|]. split; [auto|]. intros j J1 J2. eapply clean_margin; [exact (Hctl l Hy)|exact G4|auto|auto].
  - (* fenced *) apply okp1 in E3. subst ls1. cbn [length] in E4. apply bind_ok in E4. destruct E4 as (q & Eq & E4). apply usub_ok in Eq. destruct Eq as [Eq1 Eq2].
    destruct (Nat.leb 1 q) eqn:Lq; [|discriminate]. apply okp1 in E4. apply Nat.leb_le in Lq. destruct q as [|q]; [lia|]. cbn [firstn skipn] in E4. subst ls2.
    split; [|split; [apply Forall_firstn; auto|split; [auto|exact I]]]. intros i Hi. rewrite inl_cons in Hi. destruct Hi as [Hi|Hi].
    + destruct (Nat.lt_ge_cases i (se spa)) as [Y|Y]; [|left; apply Haf0; auto]. destruct (Hpos i Hi) as [?|[?|[? ?]]]; auto. lia.
    + right; right. destruct closing.
      * subst sp_end. destruct (rev_case tls) as [Hx|(t' & x & Hx)]; [rewrite Hx in Hi; destruct (inl_nil _ Hi)|].
        unfold e. rewrite Hx, last_last. rewrite Hx in Hi. apply inl_app in Hi. destruct Hi as [Hi|Hi]; [right|left].
        -- assert (q = length t') as -> by (rewrite Hx, app_length in Eq2; cbn in Eq2; lia). rewrite firstn_app, firstn_all, Nat.sub_diag. apply inl_app. auto.
        -- apply inl_cons in Hi. destruct Hi as [Hi|Hi]; [auto|destruct (inl_nil _ Hi)].
      * right. assert (q = length tls) as -> by lia. rewrite firstn_all. auto.
  - (* definition *) apply okp1 in E3. apply okp1 in E4. subst ls1 ls2. destruct (Hgen eq_refl I) as [?|[]]; auto.
  - (* quote *) apply okp1 in E4. subst ls2. assert (Hx : exists f, ls1 = f :: tls /\ forall i, inn i l0 -> passed_block src i \/ inn i f).
    { destruct (Nat.ltb (ss l0) (se l0)); [|apply okp1 in E3; exists l0; auto]. apply bind_ok in E3. destruct E3 as (c & Ec & E3). apply okp1 in E3. apply get_at_ok in Ec.
      eexists. split; [exact E3|]. intros i Hi. destruct (beq c TAB || beq c SP)%bool eqn:Eb; [|auto]. destruct (Nat.eq_dec i (ss l0)) as [->|Hne].
      - left. left. exists c. split; [auto|]. apply orb_prop in Eb. destruct Eb as [Eb|Eb]; apply beq_eq in Eb; subst c; reflexivity.
      - right. destruct Hi. split; cbn [ss se]; lia. }
    destruct Hx as (f & -> & Hf). split; [|split; [auto|split; [auto|exact I]]]. intros i Hi. rewrite inl_cons in Hi. rewrite inl_cons. destruct Hi as [Hi|Hi]; [|auto].
    destruct (Hpos i Hi) as [?|[?|Hi']]; auto. destruct (Hf i Hi'); auto.
  - apply okp1 in E3. apply okp1 in E4. subst ls1 ls2. destruct (Hgen eq_refl I) as [?|[]]; auto.
  - (* table *) apply okp1 in E3. apply okp1 in E4. subst ls1 ls2. split; [|split; [auto|split; [auto|]]].
    + intros i Hi. rewrite inl_cons in Hi. rewrite inl_cons. destruct Hi as [Hi|Hi]; [destruct (Hpos i Hi) as [?|[?|?]]; auto|auto].
    + replace l0 with (Sp (ss line0 + se sp0) (se line0)); [exact Htl|]. unfold l0. f_equal. cbn [spa se]. lia.
Qed.
