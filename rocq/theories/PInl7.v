(** * PInl7: inside verbatim text *)
From Verif Require Import Base Lex Attr Block Inline Doc SpecLex Lib SpecAttr SpecSrc PAttr PAttr3 PAttr4 PSafe PBlock2 PLex PBlock3 PBlock4 PInl1 PInl2 PInl3 PInl4 PInl5 PInl6.
Local Open Scope nat_scope.

Lemma peek_openeq_inv t : peek_is_open t BraceEqual = true -> exists n, t = Some (Tok (LOpen BraceEqual) n).
Proof. destruct t as [[k n]|]; [|discriminate]. destruct k as [| | | | |d|d|y|q]; try discriminate. destruct d; try discriminate. eauto. Qed.

Lemma raw_format_ok src P hi i : wfb src -> LexI src P hi i ->
  exists o i', ahead_raw_format i = Ok (o, i') /\ same_in i i' /\ ss (i_span i') = ss (i_span i) /\
  match o with
  | None => LexI src P hi i' /\ i_span i' = i_span i
  | Some sp => LexI src P hi (in_set_span i' (Sp (ss (i_span i')) (se sp + 1))) /\ se (i_span i) < ss sp /\ span_ok src sp /\
      span_ok src (Sp (se (i_span i)) (se sp + 1)) /\ slice src (Sp (se (i_span i)) (se sp + 1)) = B "{=" ++ slice src sp ++ B "}" /\
      slice src sp <> [] /\ Forall (fun c => is_ws c = false /\ c <> "{"%char /\ c <> "}"%char) (slice src sp)
  end.
Proof.
  intros Hw HL. unfold ahead_raw_format. destruct (in_peek_ok src P hi _ Hw HL) as (t & i1 & -> & HL1 & Hsame & Hsp & Hn & Ht & Hr).
  assert (Hnone : exists o i', Ok (None, i1) = Ok (o, i') /\ same_in i i' /\ ss (i_span i') = ss (i_span i) /\
    match o with
    | None => LexI src P hi i' /\ i_span i' = i_span i
    | Some sp => LexI src P hi (in_set_span i' (Sp (ss (i_span i')) (se sp + 1))) /\ se (i_span i) < ss sp /\ span_ok src sp /\
        span_ok src (Sp (se (i_span i)) (se sp + 1)) /\ slice src (Sp (se (i_span i)) (se sp + 1)) = B "{=" ++ slice src sp ++ B "}" /\
      slice src sp <> [] /\ Forall (fun c => is_ws c = false /\ c <> "{"%char /\ c <> "}"%char) (slice src sp)
    end).
  { do 2 eexists. split; [reflexivity|]. split; [auto|]. split; [rewrite Hsp; auto|]. auto. }
  destruct (peek_is_open t BraceEqual) eqn:Et; [|auto]. rewrite (lex_ahead_ok _ (li_wf HL1)). cbn [bind].
  destruct (scan_until _ (skipn 2 (lx_rest (i_lex i1)))) as [len stop] eqn:Es. destruct (Nat.ltb 0 len && stopped_at stop "}")%bool eqn:Ec; [|auto].
  apply andb_true_iff in Ec. destruct Ec as [Ec1 Ec2]. apply Nat.ltb_lt in Ec1. destruct (scan_until_ok _ _ _ _ _ Es Ec2) as [Hlen Hnth]. pose proof (scan_until_free _ _ _ _ Es) as Hfree. clear Es.
  apply peek_openeq_inv in Et. destruct Et as [n ->]. destruct Ht as (T1 & T2 & T3 & T4). cbn [tk tlen kind_text open_text] in *. destruct T4 as [T4 _].
  pose proof (f_equal (@length _) T4) as T5. rewrite firstn_length, Nat.min_l in T5 by auto. change (length (B "{=")) with 2 in T5. subst n.
  assert (Heat : in_eat i1 = Ok (Some (Tok (LOpen BraceEqual) 2), in_set_span (in_set_lex i1 (lex_set_next (i_lex i1) None)) (Sp (ss (i_span i1)) (se (i_span i1) + 2)))).
  { unfold in_eat, lex_next. rewrite Hn. reflexivity. }
  destruct (in_eat_ok src P hi i1 Hw HL1) as (o & i2 & E2 & HL2 & Hsame2 & Ho). rewrite Heat in E2. injection E2 as <- <-. rewrite Heat. cbn [bind assert].
  destruct Ho as (O1 & O2 & O3 & O4 & O5 & O6). cbn [tk tlen] in *. specialize (O6 ltac:(discriminate)).
  set (i2 := in_set_span _ _) in *.
  assert (Er : lx_rest (i_lex i2) = skipn 2 (lx_rest (i_lex i1))).
  { rewrite (li_rest HL2), (li_rest HL1). rewrite O1. cbn [se]. rewrite skipn_slice by lia. destruct Hsame2 as [-> _]. reflexivity. }
  rewrite (lex_skip_ok (i_lex i2) (len + 1) O6 (li_wf HL2)) by (rewrite Er; lia). cbn [bind].
  do 2 eexists. split; [reflexivity|]. split; [destruct Hsame as (X1 & X2 & X3), Hsame2 as (Y1 & Y2 & Y3); repeat split; cbn in *; congruence|].
  split; [cbn; rewrite Hsp; reflexivity|].
  rewrite <- Er in Hnth, Hfree. destruct (rest_boundary src P hi i2 len "}"%char Hw HL2 Hnth eq_refl) as (B1 & B2 & B3 & B4).
  rewrite O1 in *. cbn [se ss] in *. rewrite Hsp in *.
  split; [|split; [lia|]].
  - pose proof (LexI_jump src P hi i2 (len + 1) (ss (i_span i)) HL2) as J. rewrite O1 in J. cbn [se ss] in J. rewrite Nat.add_assoc in J.
    cbn [in_set_lex i_span]. rewrite O1. cbn [ss]. apply J; [lia|auto].
  - pose proof (li_span HL2) as S0. rewrite O1 in S0. cbn in S0.
    assert (S3 : span_ok src (Sp (se (i_span i) + 2) (se (i_span i) + 2 + len))) by (apply (span_sub _ _ (se (i_line i2))); auto; lia).
    split; [exact S3|]. assert (S4 : span_ok src (Sp (se (i_span i) + 2) (se (i_span i) + 2 + len + 1))) by (apply (span_sub _ _ (se (i_line i2))); auto; lia).
    split; [eapply span_join; [exact O4|]; exact S4|].
    assert (Hf : slice src (Sp (se (i_span i) + 2) (se (i_span i) + 2 + len)) = firstn len (lx_rest (i_lex i2))).
    { rewrite (li_rest HL2). rewrite O1. cbn [se]. symmetry. rewrite firstn_slice by (destruct HL2 as [_ _ _ _ _ _ _ _]; lia). reflexivity. }
    split; [|rewrite Hf; split; [intros X; apply (f_equal (@length _)) in X; rewrite firstn_length, Nat.min_l in X by (clear - Hlen Er; rewrite Er; lia); cbn in X; lia|];
      eapply Forall_impl; [|exact Hfree]; cbv beta; intros c Hc; apply orb_false_iff in Hc; destruct Hc as [Hc ->]; apply orb_false_iff in Hc; destruct Hc as [H1 H2];
      split; [reflexivity|]; split; intros ->; discriminate].
    cbn [kind_text open_text] in O5. destruct O5 as [O5 _]. rewrite <- O5.
    cbn [se]. rewrite <- (slice_app src (se (i_span i)) (se (i_span i) + 2)) by lia. f_equal. rewrite (Nat.add_1_r (_ + len)). apply slice_snoc; [lia|exact B2].
Qed.

Lemma bal_firstn src nc al a E b n : strs E -> bal src nc al a E b -> bal src nc al a (firstn n E) b /\ strs (firstn n E).
Proof.
  intros Hs (m & H1 & H2). split.
  - rewrite <- (firstn_skipn n E) in H2. apply runs_split in H2. destruct H2 as (s' & H2 & H3).
    destruct (runs_strs src nc al a [] (firstn n E) s') as (m' & ->); auto. { apply Forall_firstn || (unfold strs in *; rewrite <- (firstn_skipn n E) in Hs; apply Forall_app in Hs; apply Hs). }
    apply runs_lo in H3. cbn in H3. exists m'. split; [lia|auto].
  - unfold strs in *. rewrite <- (firstn_skipn n E) in Hs. apply Forall_app in Hs. apply Hs.
Qed.
Lemma wsum_firstn n E : wsum (firstn n E) <= wsum E.
Proof. rewrite <- (firstn_skipn n E) at 2. rewrite wsum_app. lia. Qed.

(** A token read inside verbatim text. *)
Record VMid (src : bytes) (P : list span) (lo hi W q : nat) (s : istate) (v : vstate) : Prop := mkVMid {
  vm_lex : LexI src P hi (s_in s);
  vm_verb : s_verb s = Some v;
  vm_attr : s_attr s = None;
  vm_evs : exists A a ph ty sp Z, s_events s = A ++ IE IPlaceholder (Sp ph ph) :: IE (IEnter ty) sp :: Z /\
    vs_opener v = S (length A) /\ zip src (s_cow s) (s_attrs s) (lstart s) lo (s_openers s) A a /\ a <= ph /\
    span_ok src (Sp ph ph) /\ ph <= ss sp /\ span_ok src sp /\ plain_verb ty = true /\ vfence (s_cow s) ty (slice src sp) (vs_len v) /\ strs Z /\
    bal src (s_cow s) (s_attrs s) (se sp) Z q /\
    (forall k skip, vs_last v = Some (k, skip) -> length A + 2 <= skip <= length (s_events s));
  vm_wt : wsum (s_events s) + 1 + 4 * (length src - q) <= W;
  vm_pos : s_span s = Sp q (pos s);
  vm_len : q < pos s;
  vm_span : span_ok src (Sp q (pos s))
}.

Lemma verb_str src P lo hi W q s v : VMid src P lo hi W q s v -> Vrb src P lo hi W (push s IStr) v.
Proof.
  intros [V1 V2 V3 (A & a & ph & ty & sp & Z & Ev & I1 & I2 & I3 & I4 & I5 & I6 & I7 & Iop & I8 & I9 & I10) V5 V6 V7 V8]. constructor; auto.
  - exists A, a, ph, ty, sp, (Z ++ [IE IStr (Sp q (pos s))]). unfold push, push_sp. rewrite V6.
    change (pos (s_set_events _ _)) with (pos s). cbn [s_events s_set_events s_cow s_attrs s_openers]. rewrite Ev.
    split; [rewrite <- app_assoc; reflexivity|]. do 8 (split; [auto|]). split; [apply Forall_app; split; [auto|constructor; [reflexivity|constructor]]|].
    split; [eapply bal_app; [exact I9|apply bal_str; cbn; auto]|]. intros k skip E. specialize (I10 k skip E). rewrite Ev in I10.
    rewrite !app_length in *. cbn in *. lia.
  - unfold push, push_sp. rewrite V6. cbn [s_events s_set_events]. change (pos (s_set_events _ _)) with (pos s). rewrite wsum_app.
    cbn [wsum iwt ik isp]. unfold sp_len. cbn [ss se]. destruct V8 as (X1 & X2 & _). cbn in X1, X2. lia.
Qed.
Lemma verb_skip src P lo hi W q s v : VMid src P lo hi W q s v -> Vrb src P lo hi W s v.
Proof.
  intros [V1 V2 V3 (A & a & ph & ty & sp & Z & Ev & I1 & I2 & I3 & I4 & I5 & I6 & I7 & Iop & I8 & I9 & I10) V5 V6 V7 V8]. constructor; auto.
  - exists A, a, ph, ty, sp, Z. do 10 (split; [auto|]). split; [eapply bal_weaken; [exact I9|auto|lia]|auto].
  - lia.
Qed.

Lemma verb_opens nc ty f t : is_verb_cont ty = true -> opens_with (pub nc ty) t -> opens_with (RawInline f) t.
Proof.
  destruct ty; try discriminate; intros _ H; cbn in *.
  - exists [], t. auto.
  - exact H.
  - destruct H as (r & -> & H). exists (B "$"), r. auto.
  - destruct H as (r & -> & H). exists (B "$$"), r. auto.
Qed.
Lemma repeat_ticks n : 1 <= n -> ticks (repeat "`"%char n).
Proof. intros H. split; [destruct n; [lia|discriminate]|]. apply Forall_forall. intros c Hc. exact (repeat_spec _ _ _ Hc). Qed.
Lemma vfence_by nc ty o n r : vfence nc ty o n -> hd_error r <> Some "`"%char -> fenced_by o (repeat "`"%char n ++ r).
Proof. intros (_ & H1 & d & Hd & ->) Hr. exists d, n. split; [exact H1|]. split; [reflexivity|]. split; [exact Hd|]. right. exists r. auto. Qed.
Lemma verb_closes src nc ty o n t : plain_verb ty = true -> vfence nc ty o n -> icloser src nc ty (vopen ty o ++ t) (repeat "`"%char n) /\ iattr ty = true.
Proof.
  intros Hp Hv. assert (Hf : ilabel src nc ty (vopen ty o ++ t) (repeat "`"%char n)).
  { pose proof (vfence_by _ _ _ _ [] Hv) as Hb. rewrite app_nil_r in Hb.
    destruct ty; try discriminate Hp; cbn [ilabel vopen is_verb_cont]; exists o, t; (split; [rewrite <- app_assoc; reflexivity|apply Hb; discriminate]). }
  destruct Hv as (_ & Hn & _). split; [|destruct ty; try discriminate Hp; reflexivity]. split; [|exact Hf].
  destruct ty; try discriminate Hp; right; apply repeat_ticks; exact Hn.
Qed.
Lemma verb_in src P lo hi W q first s v : wfb src -> VMid src P lo hi W q s v ->
  (tk first = LSeq Backtick -> slice src (Sp q (pos s)) = repeat "`"%char (tlen first)) ->
  exists r, parse_verbatim src s first = Ok r /\ fst r <> None /\ Post src P lo hi W q first s r.
Proof.
  intros Hw HV Hti. pose proof HV as [V1 V2 V3 (A & a & ph & ty & sp & Z & Ev & I1 & I2 & I3 & I4 & I5 & I6 & I7 & Iop & I8 & I9 & I10) V5 V6 V7 V8].
  unfold parse_verbatim. rewrite V2. destruct (Nat.eqb (vs_len v) (tlen first) && _)%bool eqn:Ec.
  - destruct (raw_format_ok src P hi _ Hw V1) as (rf & i' & -> & Hsame & Hss & Hrf). cbn [bind].
    (* the state after the optional raw format *)
    match goal with |- context [bind ?X _] => set (st0 := X) end.
    assert (Hs : exists ty' i2 (Hty : is_verb_cont ty' = true), opens_with (pub (s_cow s) ty') (slice src sp) /\
       (rf = None -> ty' = ty /\ i_span i2 = Sp q (pos s)) /\
       (slice src (Sp q (pos s)) = repeat "`"%char (vs_len v) -> (forall t, icloser src (s_cow s) ty' (vopen ty' (slice src sp) ++ t) (slice src (i_span i2))) /\ (rf = None -> iattr ty' = true)) /\ st0 = Ok (s_set_events (s_set_in s i2) (A ++ IE IPlaceholder (Sp ph ph) :: IE (IEnter ty') sp :: Z)) /\
       LexI src P hi i2 /\ same_in (s_in s) i2 /\ ss (i_span i2) = q /\ pos s <= se (i_span i2) /\ span_ok src (Sp q (se (i_span i2)))).
    { unfold st0. assert (Hq0 : se (i_span (s_in s)) = pos s) by reflexivity. assert (Hq1 : ss (i_span (s_in s)) = q) by (change (ss (s_span s) = q); rewrite V6; reflexivity).
      destruct rf as [sp0|].
      - destruct Hrf as (R1 & R2 & R3 & R4 & R5 & R6). rewrite span_ok_ssub by auto. cbn [bind]. change (s_events (s_set_in s i')) with (s_events s). rewrite Ev.
        change (A ++ IE IPlaceholder (Sp ph ph) :: IE (IEnter ty) sp :: Z) with (A ++ [IE IPlaceholder (Sp ph ph)] ++ IE (IEnter ty) sp :: Z).
        rewrite app_assoc, set_kind_mid by (rewrite app_length; cbn; lia). cbn [bind]. rewrite <- app_assoc.
        assert (Hxe : slice src (Sp (ss (i_span i')) (se sp0 + 1)) = slice src (Sp q (pos s)) ++ B "{=" ++ slice src sp0 ++ B "}").
        { rewrite Hss, Hq1, <- R5, Hq0. symmetry. apply slice_app; [lia|destruct R4 as (X & _); cbn in X; rewrite Hq0 in X; exact X]. }
        exists (CRawFormat (slice src sp0)), (in_set_span i' (Sp (ss (i_span i')) (se sp0 + 1))), eq_refl. split; [apply (verb_opens _ _ _ _ (plain_is_verb _ I7) (proj1 Iop))|]. split; [discriminate|].
        split; [intros Ht; split; [intros t|discriminate]; cbn [in_set_span i_span s_in s_set_in s_span s_set_events ss se]; split; [|cbn [ilabel]; exists (slice src sp), t; split; [cbn [vopen is_verb_cont]; rewrite <- app_assoc; reflexivity|]; rewrite Hxe, Ht; apply (vfence_by _ _ _ _ _ Iop); discriminate]; cbn [pub closer]; split; [|exact R6]; exists (slice src (Sp q (pos s))); split; [rewrite Ht; apply repeat_ticks, Iop|]; exact Hxe|].
        split; [reflexivity|]. split; [exact R1|]. split; [exact Hsame|]. cbn [in_set_span i_span ss se s_span s_set_events s_set_in s_in].
        split; [change (ss (i_span i') = q); rewrite Hss; exact Hq1|]. destruct R3 as (X & _). rewrite Hq0 in R4. split; [rewrite Hq0 in R2; lia|]. eapply span_join; [exact V8|]. exact R4.
      - destruct Hrf as [R1 R2]. exists ty, i', (plain_is_verb _ I7). split; [exact (proj1 Iop)|]. split; [intros _; split; [reflexivity|]; rewrite R2, <- Hq1, <- Hq0; symmetry; apply span_eta|].
        split; [intros Ht; rewrite R2, <- (span_eta (i_span (s_in s))), Hq1, Hq0, Ht; split; [intros t; apply (verb_closes src (s_cow s) ty _ _ t I7 Iop)|intros _; apply (verb_closes src (s_cow s) ty _ _ [] I7 Iop)]|].
        split; [rewrite <- Ev; destruct s; reflexivity|]. split; [auto|]. split; [auto|]. rewrite R2. split; [auto|]. rewrite Hq0. auto. }
    destruct Hs as (ty' & i2 & Hty & Hop' & Hrn & Hcl' & Es & L2 & Hsame2 & Hq & Hp2 & Hsp2). rewrite Es. cbn [bind]. clear Es st0.
    assert (Eas : forall X, A ++ IE IPlaceholder (Sp ph ph) :: IE (IEnter ty') sp :: X = (A ++ [IE IPlaceholder (Sp ph ph)]) ++ IE (IEnter ty') sp :: X)
      by (intros; rewrite <- app_assoc; reflexivity).
    replace (get_at _ _ _) with (Ok (IE (IEnter ty') sp)).
    2: { symmetry. cbn [s_events s_set_events]. rewrite (Eas Z). apply get_mid. rewrite app_length; cbn; lia. }
    cbn [bind ik]. rewrite Hty. cbn [assert bind].
    match goal with |- context [bind ?X _] => set (cl := X) end.
    assert (Hcl : exists n, cl = Ok (s_set_events (s_set_in s i2) (A ++ IE IPlaceholder (Sp ph ph) :: IE (IEnter ty') sp :: firstn n Z))).
    { assert (Hid : exists n, Ok (s_set_events (s_set_in s i2) (A ++ IE IPlaceholder (Sp ph ph) :: IE (IEnter ty') sp :: Z)) = Ok (s_set_events (s_set_in s i2) (A ++ IE IPlaceholder (Sp ph ph) :: IE (IEnter ty') sp :: firstn n Z)))
        by (exists (length Z); rewrite firstn_all; reflexivity).
      unfold cl. destruct (vs_last v) as [[k skip]|] eqn:El; [|auto]. destruct k as [| | | | |d|d|y|[| |]]; auto.
      specialize (I10 _ _ eq_refl). rewrite Ev in I10.
      assert (X : length (A ++ IE IPlaceholder (Sp ph ph) :: IE (IEnter ty') sp :: Z) = length (A ++ IE IPlaceholder (Sp ph ph) :: IE (IEnter ty) sp :: Z)) by (rewrite !app_length; reflexivity).
      change (s_events (s_set_events (s_set_in s i2) ?x)) with x. replace (Nat.leb skip _) with true by (symmetry; apply Nat.leb_le; rewrite X; lia). cbn [assert bind].
      exists (skip - (length A + 2)).
      replace (firstn skip (A ++ IE IPlaceholder (Sp ph ph) :: IE (IEnter ty') sp :: Z)) with (A ++ IE IPlaceholder (Sp ph ph) :: IE (IEnter ty') sp :: firstn (skip - (length A + 2)) Z); [reflexivity|].
      rewrite firstn_app. rewrite (@firstn_all2 _ skip A) by lia. f_equal.
      replace (skip - length A) with (S (S (skip - (length A + 2)))) by lia. reflexivity. }
    destruct Hcl as (n & Ecl). rewrite Ecl. cbn [bind]. clear Ecl cl.
    destruct (bal_firstn _ _ _ _ _ _ n I8 I9) as [Hb Hst].
    set (s3 := s_set_verb _ None).
    assert (Hs3 : s_span s3 = i_span i2) by reflexivity.
    assert (Ev3 : s_events s3 = A ++ IE IPlaceholder (Sp ph ph) :: IE (IEnter ty') sp :: firstn n Z ++ [IE (IExit ty') (i_span i2)]).
    { unfold s3. cbn [s_set_verb s_set_lex s_set_in s_events push push_sp s_set_events]. rewrite <- app_assoc. reflexivity. }
    assert (Hcx : forall nc, cidx ty' nc) by (destruct ty'; cbn; auto; discriminate).
    assert (Hsi2 : span_ok src (i_span i2)) by (rewrite <- (span_eta (i_span i2)), Hq; exact Hsp2).
    assert (Hls : lstart s3 = lstart s) by (apply lstart_same; destruct Hsame2 as [X _]; exact X).
    assert (Htk : slice src (Sp q (pos s)) = repeat "`"%char (vs_len v)) by (pose proof Ec as Ec0; apply andb_true_iff in Ec0; destruct Ec0 as [Ec0 _]; apply Nat.eqb_eq in Ec0; rewrite Ec0; apply Hti; apply andb_true_iff in Ec; destruct Ec as [_ Ec]; destruct (tk first) as [| | | | |?|?|?|[| |]]; try discriminate Ec; reflexivity).
    assert (Hel : rf = None -> elem_at src (s_cow s3) (s_attrs s3) (lstart s3) lo (s_openers s3) (s_events s3) (pos s3) (ElemContainer (length A))).
    { intros Erf. rewrite Hls. exists A, a, ph, (IEnter ty'), sp, (firstn n Z), q, (IExit ty'), (i_span i2). split; [exact Ev3|]. split; [auto|].
      split; [exact I2|]. do 4 (split; [auto|]). split; [exact Hb|]. split; [lia|]. split; [auto|]. split; [reflexivity|]. right. exists ty'. do 4 (split; [auto|]).
      split; [exact Hop'|]. destruct (Hcl' Htk) as [X1 X2]. split; [apply X1|]. split; [auto|]. intros ->. discriminate Hty. }
    assert (Rd : Rdy src P lo hi W s3).
    { constructor; auto.
      - apply LexI_verb. exact L2.
      - unfold evz. rewrite Hls, Ev3. eapply zip_app; [exact I2|]. apply (bal_app _ _ _ _ [_] ph); [apply bal_ph; cbn; auto|].
        eapply (bal_tcont src _ _ ph [] ty' sp (firstn n Z) q (i_span i2) _ []); eauto; try lia.
        apply iends_none; [apply (Hcl' Htk)|intros ->; discriminate Hty|apply Hsi2|destruct ty'; try discriminate Hty; exact I].
      - rewrite Ev3. apply (lastok_cons2 src A (IE IPlaceholder (Sp ph ph)) (IE (IEnter ty') sp :: firstn n Z)). discriminate.
      - rewrite Ev3. rewrite Ev in V5. rewrite !wsum_app in *. cbn [wsum iwt ik] in *. rewrite wsum_app. cbn [wsum iwt ik].
        pose proof (wsum_firstn n Z). change (pos s3) with (se (i_span i2)). lia. }
    assert (Hpos : q < pos s3) by (change (pos s3) with (se (i_span i2)); lia).
    assert (Hah : length (i_ahead (s_in s3)) <= length (i_ahead (s_in s))) by (destruct Hsame2 as (_ & X & _); change (i_ahead (s_in s3)) with (i_ahead i2); rewrite X; auto).
    destruct rf.
    + eexists. split; [reflexivity|]. split; [discriminate|]. split; [apply ext_same; reflexivity|]. split; [exact Hah|]. split; [left; exact Rd|exact Hpos].
    + destruct (ahead_cont src P lo hi W s3 _ Hw Rd (Hel eq_refl)) as (r & Er & Hr).
      destruct (s_peek s3) as [t s4] eqn:Ep. rewrite I1.
      assert (Eu : usub (S (length A)) 1 "inline.rs:341" = Ok (length A)) by (rewrite usub_yes by lia; f_equal; lia).
      rewrite Eu. cbn [bind]. rewrite Er. exists r. split; [reflexivity|]. unfold Fin in Hr. destruct r as [o s5]. destruct Hr as (X1 & X2 & X3).
      split; [destruct o as [[]|]; cbn; try discriminate; contradiction|]. split; [eapply ext_trans; [|exact X1]; apply ext_same; reflexivity|]. split; [lia|].
      destruct o as [[]|]; try contradiction; [|exact X3]. destruct X3. split; [left; auto|lia].
  - rewrite (span_ok_bsub src (s_span s)) by (rewrite V6; exact V8). cbn [bind].
    destruct (forallb is_ws _).
    + destruct (vs_nonws v) eqn:En.
      * cbn [negb andb]. eexists. split; [reflexivity|]. split; [discriminate|]. split; [apply ext_same; reflexivity|]. split; [cbn; auto|].
        split; [right; eexists; eapply verb_str; eauto|exact V7].
      * cbn [negb andb]. unfold s_peek. destruct (in_peek_ok src P hi _ Hw V1) as (t & i1 & -> & HL1 & Hsame & Hsp & Hn & Ht & Hr).
        assert (HV' : VMid src P lo hi W q (s_set_in s i1) v).
        { assert (Hp : pos (s_set_in s i1) = pos s) by (unfold pos, s_span; cbn; rewrite Hsp; reflexivity). constructor; auto.
          - exists A, a, ph, ty, sp, Z. rewrite (lstart_same s (s_set_in s i1)) by apply Hsame. auto 20.
          - rewrite Hp. rewrite <- V6. unfold s_span. cbn. exact Hsp.
          - rewrite Hp. auto.
          - rewrite Hp. auto. }
        assert (Hp : pos (s_set_in s i1) = pos s) by (unfold pos, s_span; cbn; rewrite Hsp; reflexivity).
        destruct Hsame as (_ & Hah & _).
        destruct (match t with Some _ => _ | None => false end).
        -- eexists. split; [reflexivity|]. split; [discriminate|]. split; [apply ext_same; reflexivity|]. split; [cbn; rewrite Hah; auto|].
           split; [right; eexists; eapply verb_skip; eauto|lia].
        -- eexists. split; [reflexivity|]. split; [discriminate|]. split; [apply ext_same; reflexivity|]. split; [cbn; rewrite Hah; auto|].
           split; [right; eexists; eapply verb_str; eauto|]. change (pos (push (s_set_in s i1) IStr)) with (pos (s_set_in s i1)). lia.
    + eexists. split; [reflexivity|]. split; [discriminate|]. split; [apply ext_same; reflexivity|]. split; [cbn; auto|].
      split; [|exact V7]. right. eexists. set (v' := VS _ _ _ _).
      assert (HX : Vrb src P lo hi W (push s IStr) v) by (eapply verb_str; eauto).
      destruct HX as [X1 X2 X3 (A' & a' & ph' & ty2 & sp' & Z' & Y1 & Y2 & Y3 & Y4 & Y5 & Y6 & Y7 & Y8 & Yop & Y9 & Y10 & Y11) X5].
      constructor; [exact X1 | reflexivity | exact X3 | | exact X5].
      exists A', a', ph', ty2, sp', Z'. split; [exact Y1|]. split; [exact Y2|]. do 8 (split; [auto|]). split; [exact Y10|].
      intros k skip E. unfold v' in E. cbn in E. injection E as <- <-.
      assert (EA : length A' = length A) by lia. rewrite EA. unfold push, push_sp. cbn [s_events s_set_events s_set_verb].
      rewrite app_length. cbn [length]. rewrite Ev, app_length. cbn [length]. lia.
Qed.
