(** * PCov10: everything the block parser reports is in the events of the document *)
From Verif Require Import Base Lex Attr Block Inline Doc SpecLex Lib SpecAttr SpecSrc PAttr PAttr3 PAttr4 PSafe PBlock2 PLex PBlock3 PBlock4 PInl1 PInl2 PInl3 PInl4 PInl5 PInl6 PInl7 PropsPunct PInl8 PInl9 PInl10 PInl11 PInl12 PMark SpecBlock SpecCover PCov5 PCov6 PCov7 PCov8 PCov9 PGram PDoc1 PDoc2 PDoc3 PDoc4 PDoc5 SpecSrc SpecMark.
From Verif Require PCov1 PCov2 PCov4 PTable PTree3 PTree8.
Local Open Scope nat_scope.
Notation bcov := PCov2.bcov.

Lemma inline_next_cov src P hi i W est s o s' : wfb src -> Run src P hi W est s -> vws src s -> inline_next src s = Ok (o, s') ->
  (acc s i -> passed src i \/ outs o i \/ acc s' i) /\ vws src s'.
Proof. intros Hw HR Hv H. unfold inline_next in H. eapply next_cov; eauto. unfold fill_fuel. lia. Qed.

(** ** Feeding *)
Lemma feed_cov src s x last s' i : i_feed_line src s x last = Ok s' -> lex_wf (i_lex (s_in s)) -> (lx_rest (i_lex (s_in s)) = [] -> se (i_line (s_in s)) <= pos s) ->
  inn i x \/ acc s i -> acc s' i.
Proof.
  intros H Hwf Hr Hi. unfold i_feed_line, in_feed_line in H. apply bind_ok in H. destruct H as (j & H & E). apply PTable.okp1 in E. subst s'.
  apply bind_ok in H. destruct H as (_ & _ & H). change (i_lex (in_set_complete (s_in s) last)) with (i_lex (s_in s)) in H. rewrite (lex_ahead_ok _ Hwf) in H. cbn [bind] in H.
  destruct (lx_rest (i_lex (s_in s))) as [|c r] eqn:Er.
  - specialize (Hr eq_refl). unfold acc, acq in Hi. change (i_ahead (in_set_complete (s_in s) last)) with (i_ahead (s_in s)) in H. destruct (i_ahead (s_in s)) as [|nx rs] eqn:Ea.
    + destruct (set_line_same _ _ _ _ H) as (L1 & L2 & L3). change (i_ahead (in_set_complete (s_in s) last)) with (i_ahead (s_in s)) in L2. rewrite Ea in L2.
      eapply line_cov; [exact L1|exact L2|exact L3|]. destruct Hi as [Hi|[(y & [] & _)|[Hi|Hi]]]; [left; exists x; cbn; auto|lia|auto].
    + destruct (set_line_same _ _ _ _ H) as (L1 & L2 & L3). cbn [i_ahead in_set_ahead] in L2.
      eapply line_cov; [exact L1|exact L2|exact L3|]. destruct Hi as [Hi|[Hi|[Hi|Hi]]]; [| |lia|auto]; left.
      * exists x. split; [right; apply in_or_app; right; left; reflexivity|exact Hi].
      * change (nx :: rs ++ [x]) with ((nx :: rs) ++ [x]). apply PCov1.inl_app. auto.
  - apply PTable.okp1 in H. subst j. destruct Hi as [Hi|[Hi|[Hi|Hi]]].
    + left. cbn [s_set_in s_in in_set_ahead in_set_complete i_ahead]. apply PCov1.inl_app. right. exists x. cbn. auto.
    + left. cbn [s_set_in s_in in_set_ahead in_set_complete i_ahead]. apply PCov1.inl_app. auto.
    + right. left. exact Hi.
    + right. right. exact Hi.
Qed.
Lemma feed_vws src s x last s' : i_feed_line src s x last = Ok s' -> vws src s -> vws src s'.
Proof. unfold i_feed_line. intros H Hv. apply bind_ok in H. destruct H as (j & _ & E). apply PTable.okp1 in E. subst s'. intros v k skip. apply (Hv v k skip). Qed.
Lemma Emt_none src hi W est s i : Emt src [] hi W est s -> s_events s = [] -> ~ acc s i.
Proof.
  intros HE He. pose proof (Emt_Idle _ _ _ _ _ _ HE He) as [_ _ _ _ I5 I6]. pose proof (LexI_len _ _ _ _ (em_lex _ _ _ _ _ _ HE)) as HL. rewrite I5 in HL. cbn in HL.
  unfold acc, acq. rewrite I6, He. change (se (i_span (s_in s))) with (pos s) in HL. intros [(y & [] & _)|[H|H]]; [lia|exact (ecov_nil _ H)].
Qed.

Lemma T_fun src pp : (forall p O, T src pp p O -> forall O', T src pp p O' -> O' = O) /\ (forall p O, Tb src pp p O -> forall O', Tb src pp p O' -> O' = O).
Proof.
  apply T_mut.
  - intros p r p1 O E H IH O' H'. inversion H' as [p0 r' p1' O1 E' H1|p0 p1' O1 E' H1]; subst; rewrite E in E'; [|discriminate]. injection E' as <- <-. f_equal. auto.
  - intros p p1 O E H IH O' H'. inversion H' as [p0 r' p1' O1 E' H1|p0 p1' O1 E' H1]; subst; rewrite E in E'; [discriminate|]. injection E' as <-. auto.
  - intros p e sp p1 O E H IH O' H'. inversion H' as [p0 e' sp' p1' O1 E' H1|p0 p1' O1 E' H1|p0 p1' O1 E' H1|p0 E' H1]; subst; rewrite E in E'; try discriminate. injection E' as <- <- <-. f_equal. auto.
  - intros p p1 O E H IH O' H'. inversion H' as [p0 e' sp' p1' O1 E' H1|p0 p1' O1 E' H1|p0 p1' O1 E' H1|p0 E' H1]; subst; rewrite E in E'; try discriminate. injection E' as <-. auto.
  - intros p p1 O E H IH O' H'. inversion H' as [p0 e' sp' p1' O1 E' H1|p0 p1' O1 E' H1|p0 p1' O1 E' H1|p0 E' H1]; subst; rewrite E in E'; try discriminate. injection E' as <-. auto.
  - intros p E Hb O' H'. inversion H' as [p0 e' sp' p1' O1 E' H1|p0 p1' O1 E' H1|p0 p1' O1 E' H1|p0 E' H1]; subst; [rewrite E in E'; discriminate..|reflexivity].
Qed.

Section PC.
Variables (src : bytes) (pp : prepass).
Hypothesis Hw : wfb src.
Hypothesis Hdw : defs_written src pp.

Lemma event_span s e a r : inline_event src pp s e a = Ok r -> snd r = isp e.
Proof.
  unfold inline_event. destruct (ik e); intros H; try discriminate;
    repeat (let x := fresh "x" in apply bind_ok in H; destruct H as (x & _ & H); try destruct x); try (apply PTable.okp1 in H; subst r; reflexivity).
Qed.
Definition outp (o : option (event * span)) (i : nat) : Prop := exists r, o = Some r /\ inn i (snd r).
Lemma pinl_cov p P hi W est o p' i : Run src P hi W est (p_inl p) -> vws src (p_inl p) -> p_inline src pp p = Ok (o, p') ->
  (acc (p_inl p) i -> passed src i \/ outp o i \/ acc (p_inl p') i) /\ vws src (p_inl p').
Proof.
  intros HR Hv H. unfold p_inline in H. destruct (inline_next_ok _ _ _ _ _ _ Hw HR) as ([o1 s1] & E1 & _ & _ & X2). rewrite E1 in H. cbn [bind] in H.
  destruct (inline_next_cov _ _ _ i _ _ _ _ _ Hw HR Hv E1) as [C1 C2]. destruct o1 as [e|].
  2: { destruct (okp _ _ _ _ H) as [-> ->]. cbn [p_inl p_set_inl]. split; [|exact C2]. intros Ha. destruct (C1 Ha) as [C|[(z & X & _)|C]]; [auto|discriminate|auto]. }
  assert (Hdef : (let! r := inline_event src pp s1 e [] in Ok (Some r, p_set_inl p s1)) = Ok (o, p') ->
    (acc (p_inl p) i -> passed src i \/ outp o i \/ acc (p_inl p') i) /\ vws src (p_inl p')).
  { intros E. apply bind_ok in E. destruct E as (r & Er & E). destruct (okp _ _ _ _ E) as [-> ->]. cbn [p_inl p_set_inl]. split; [|exact C2].
    intros Ha. destruct (C1 Ha) as [C|[(z & X & _ & Y)|C]]; [auto| |auto]. injection X as <-. right. left. exists r. split; [reflexivity|]. rewrite (event_span _ _ _ _ Er). exact Y. }
  destruct (ik e) eqn:Ek; try (apply Hdef; exact H). clear Hdef.
  destruct X2 as (lo1 & est1 & W1 & A1 & A2 & A3 & A4). apply bind_ok in H. destruct H as ([o2 s2] & E2 & H).
  destruct (inline_next_cov _ _ _ i _ _ _ _ _ Hw A4 C2 E2) as [D1 D2].
  apply bind_ok in H. destruct H as (a & _ & H). destruct o2 as [e2|]; [|discriminate]. apply bind_ok in H. destruct H as (r & Er & H). destruct (okp _ _ _ _ H) as [-> ->].
  cbn [p_inl p_set_inl]. split; [|exact D2]. intros Ha. destruct (C1 Ha) as [C|[(z & X & Y & _)|C]]; [auto|injection X as <-; rewrite Ek in Y; discriminate|].
  destruct (D1 C) as [D|[(z & X & _ & Y)|D]]; [auto| |auto]. injection X as <-. right. left. exists r. split; [reflexivity|]. rewrite (event_span _ _ _ _ Er). exact Y.
Qed.

Lemma covered_cons r O i : covered (r :: O) i <-> inn i (snd r) \/ covered O i.
Proof.
  unfold covered. split.
  - intros (e & sp & [->|H] & X); [left; exact X|right; eauto].
  - intros [X|(e & sp & H & X)]; [destruct r as [e sp]; exists e, sp; cbn; auto|exists e, sp; cbn; auto].
Qed.
Lemma covered_app A O i : covered (A ++ O) i <-> covered A i \/ covered O i.
Proof.
  unfold covered. split.
  - intros (e & sp & H & X). apply in_app_or in H. destruct H; [left|right]; eauto.
  - intros [(e & sp & H & X)|(e & sp & H & X)]; exists e, sp; (split; [apply in_or_app; auto|exact X]).
Qed.
Lemma inl_cons i x l : inl i (x :: l) <-> inn i x \/ inl i l.
Proof. unfold PCov1.inl. cbn. split; [intros (y & [->|H] & X); eauto|intros [H|(y & H & X)]; eauto]. Qed.

(** A leaf's lines from some point on. *)
Lemma leaf_trace_cov hi rest ba hr : (forall e r, rest = e :: r -> is_binline e = false) ->
  forall P W est st s, Run src P hi W est s -> e_pnd est = PNone -> srel pp s (e_stk est) st -> vws src s ->
  exists O s', (forall O', Tb src pp (PS rest ba hr false s') O' -> T src pp (PS (inl_evs P ++ rest) ba hr false s) (O ++ O')) /\
    Idle s' /\ forall i, acc s i \/ inl i P -> passed src i \/ covered O i.
Proof.
  intros Hrest. induction P as [|x P IHP].
  - intros W. induction W as [W IH] using lt_wf_ind. intros est st s HR Hp Hs Hv.
    destruct (p_inline_ok src pp (PS rest ba hr false s) [] hi W est st Hw Hdw HR Hp Hs) as (o & s' & E & HO). destruct HO as [X1 X2].
    assert (HC := fun i => pinl_cov (PS rest ba hr false s) [] hi W est _ _ i HR Hv E). cbn [p_inl p_set_inl] in HC. pose proof (proj2 (HC 0)) as Hv'.
    destruct o as [r|].
    + destruct X2 as (est' & st' & W' & A1 & A2 & A3 & A4 & A5). destruct (IH W' A4 est' st' s' A5 A2 A3 Hv') as (O & s2 & B1 & B2 & B3).
      exists (r :: O), s2. split; [|split; [auto|]].
      * intros O' HT. cbn [app inl_evs map]. eapply t_inl; [exact E|]. apply (B1 O' HT).
      * intros i [Ha|(y & [] & _)]. destruct (proj1 (HC i) Ha) as [C|[(z & X & Y)|C]]; [auto| |].
        -- injection X as <-. right. apply covered_cons. auto.
        -- destruct (B3 i (or_introl C)); [auto|right; apply covered_cons; auto].
    + destruct X2 as (lo & A1 & A2 & [[A3 _]|(_ & A3 & A4)]); [congruence|].
      exists [], s'. split; [|split; [eapply Emt_Idle; eauto|]].
      * intros O' HT. cbn [app]. eapply t_blk; [exact E|]. exact HT.
      * intros i [Ha|(y & [] & _)]. destruct (proj1 (HC i) Ha) as [C|[(z & X & Y)|C]]; [auto|discriminate|]. destruct (Emt_none _ _ _ _ _ _ A3 A4 C).
  - intros W. induction W as [W IH] using lt_wf_ind. intros est st s HR Hp Hs Hv.
    destruct (p_inline_ok src pp (PS (inl_evs (x :: P) ++ rest) ba hr false s) (x :: P) hi W est st Hw Hdw HR Hp Hs) as (o & s' & E & HO). destruct HO as [X1 X2].
    assert (HC := fun i => pinl_cov (PS (inl_evs (x :: P) ++ rest) ba hr false s) (x :: P) hi W est _ _ i HR Hv E). cbn [p_inl p_set_inl] in HC. pose proof (proj2 (HC 0)) as Hv'.
    destruct o as [r|].
    + destruct X2 as (est' & st' & W' & A1 & A2 & A3 & A4 & A5). destruct (IH W' A4 est' st' s' A5 A2 A3 Hv') as (O & s2 & B1 & B2 & B3).
      exists (r :: O), s2. split; [|split; [auto|]].
      * intros O' HT. cbn [app inl_evs map]. eapply t_inl; [exact E|]. apply (B1 O' HT).
      * intros i [Ha|Ha].
        -- destruct (proj1 (HC i) Ha) as [C|[(z & X & Y)|C]]; [auto| |].
           ++ injection X as <-. right. apply covered_cons. auto.
           ++ destruct (B3 i (or_introl C)); [auto|right; apply covered_cons; auto].
        -- destruct (B3 i (or_intror Ha)); [auto|right; apply covered_cons; auto].
    + destruct X2 as (lo & A1 & A2 & [A3|(A3 & _)]); [|discriminate]. destruct est as [l stk pd]. cbn in *. subst stk. inversion Hs; subst.
      destruct (wait_feed _ _ _ _ _ _ _ Hw A3) as (s2 & F1 & F2 & F3).
      destruct (IHP W (ES lo [] PNone) [] s2) as (O & s3 & B1 & B2 & B3); auto.
      { left. exists lo. auto. }
      { constructor. }
      { eapply feed_vws; eauto. }
      assert (HL : LexI src (x :: P) hi (s_in s')) by (destruct A3 as [_ [([H|[v H]] & _)|[st0 H]]]; apply H).
      exists O, s3. split; [|split; [auto|]].
      * intros O' HT. eapply t_blk; [exact E|]. eapply t_fed; [|apply (B1 O' HT)].
        unfold block_step. cbn [p_blocks p_verb p_inl p_set_inl inl_evs map app]. fold (inl_evs P). rewrite is_nil_flag by auto. rewrite F1. reflexivity.
      * intros i Hi.
        assert (Hx : passed src i \/ inn i x \/ acc s' i \/ inl i P).
        { destruct Hi as [Hi|Hi]; [|apply inl_cons in Hi; tauto]. destruct (proj1 (HC i) Hi) as [C|[(z & X & Y)|C]]; [auto|discriminate|auto]. }
        assert (Hf : inn i x \/ acc s' i -> acc s2 i).
        { intros Z. eapply feed_cov; [exact F1|apply (li_wf HL)| |exact Z]. intros Er. pose proof (LexI_len _ _ _ _ HL) as HL'. rewrite Er in HL'. cbn in HL'. change (se (i_span (s_in s'))) with (pos s') in HL'. lia. }
        destruct Hx as [Hx|Hx]; [auto|]. apply B3. tauto.
Qed.

(** All lines of a leaf. *)
Lemma leaf_lines_cov hi rest ba hr lo P s : (forall e r, rest = e :: r -> is_binline e = false) -> Fresh s -> fed src lo P hi ->
  exists O s', (forall O', Tb src pp (PS rest ba hr false s') O' -> T src pp (PS (inl_evs P ++ rest) ba hr false s) (O ++ O')) /\
    Idle s' /\ forall i, inl i P -> passed src i \/ covered O i.
Proof.
  intros Hrest HF HP. destruct (Idle_next src s (fr_idle _ HF)) as (s1 & E1 & E2 & E3). specialize (E3 HF).
  assert (Ei : forall bl, p_inline src pp (PS bl ba hr false s) = Ok (None, PS bl ba hr false s1)).
  { intros. unfold p_inline. cbn [p_inl]. rewrite E1. reflexivity. }
  destruct P as [|x P].
  - exists [], s1. split; [|split; [auto|intros i (y & [] & _)]].
    intros O' HT. cbn [app inl_evs map]. eapply t_blk; [apply Ei|exact HT].
  - destruct (fresh_feed _ _ _ _ _ _ E3 HP) as (s2 & F1 & F2 & F3 & F4).
    destruct (leaf_trace_cov hi rest ba hr Hrest P (4 * length src) (ES lo [] PNone) [] s2) as (O & s3 & B1 & B2 & B3); auto.
    { left. exists lo. auto. }
    { constructor. }
    { eapply feed_vws; [exact F1|]. apply vws_none. apply (fr_idle _ E3). }
    exists O, s3. split; [|split; [auto|]].
    + intros O' HT. eapply t_blk; [apply Ei|]. eapply t_fed; [|apply (B1 O' HT)].
      unfold block_step. cbn [p_blocks p_verb p_inl p_set_inl inl_evs map app]. fold (inl_evs P). rewrite is_nil_flag by auto. rewrite F1. reflexivity.
    + intros i Hi. apply B3. apply inl_cons in Hi. destruct Hi as [Hi|Hi]; [left|auto].
      clear B1 B2 B3 F2 F3 F4. unfold i_feed_line, in_feed_line in F1. destruct E3 as [[I1 I2 I3 I4 I5 I6] G1 G2].
      apply bind_ok in F1. destruct F1 as (j & F1 & E). apply PTable.okp1 in E. subst s2. apply bind_ok in F1. destruct F1 as (_ & _ & F1).
      change (i_lex (in_set_complete (s_in s1) (is_nil P))) with (i_lex (s_in s1)) in F1. rewrite (lex_ahead_ok _ I4), I5 in F1. cbn [bind] in F1.
      change (i_ahead (in_set_complete (s_in s1) (is_nil P))) with (i_ahead (s_in s1)) in F1. rewrite I6 in F1.
      destruct (set_line_same _ _ _ _ F1) as (L1 & L2 & L3). change (i_ahead (in_set_complete (s_in s1) (is_nil P))) with (i_ahead (s_in s1)) in L2.
      eapply line_cov; [exact L1|exact L2|exact L3|]. left. exists x. cbn. auto.
Qed.
Lemma verb_lines_cov rest b hr : forall P s, Idle s -> Forall (span_ok src) P ->
  exists O s', (forall O', Tb src pp (PS rest b hr true s') O' -> Tb src pp (PS (inl_evs P ++ rest) b hr true s) (O ++ O')) /\
    Idle s' /\ forall i, inl i P -> covered O i.
Proof.
  induction P as [|x P IH]; intros s Hi HP.
  - exists [], s. cbn in *. split; [auto|]. split; [auto|]. intros i (y & [] & _).
  - inversion HP as [|? ? Hx HP']; subst.
    destruct (sp_empty x) eqn:Ee.
    + destruct (IH s Hi HP') as (O & s' & B1 & B2 & B3). exists O, s'. split; [|split; [auto|]].
      * intros O' HT. eapply t_loop; [|apply (B1 O' HT)]. unfold block_step. cbn [p_blocks inl_evs map app p_verb]. rewrite Ee. reflexivity.
      * intros i Hin. apply inl_cons in Hin. destruct Hin as [[H1 H2]|Hin]; [|auto]. unfold sp_empty in Ee. apply negb_true_iff, Nat.ltb_ge in Ee. lia.
    + destruct (idle_T src pp s Hi) as (s1 & I1 & _ & I2). destruct (IH s1 I1 HP') as (O & s' & B1 & B2 & B3).
      exists ((Str (slice src x), x) :: O), s'. split; [|split; [auto|]].
      * intros O' HT. cbn [app]. eapply t_emit; [|apply I2, (B1 O' HT)]. unfold block_step. cbn [p_blocks inl_evs map app p_verb]. rewrite Ee, span_ok_ssub by auto. reflexivity.
      * intros i Hin. apply covered_cons. apply inl_cons in Hin. destruct Hin; auto.
Qed.
Lemma leaf_tr_cov lf sp il sp' rest b hr s : Idle s -> lf_eols src lf il -> inls src (se sp) il (ss sp') ->
  exists O s', (forall O', Tb src pp (PS rest None hr false s') O' ->
      Tb src pp (PS (BE (BEnter (NLeaf lf)) sp :: inl_evs il ++ BE (BExit (NLeaf lf)) sp' :: rest) b hr false s)
         ((Start (leafc pp hr lf) (batt b), spn b sp) :: O ++ (End_ (leafc pp hr lf), sp') :: O')) /\
    Idle s' /\ forall i, inl i il -> passed src i \/ covered O i.
Proof.
  intros Hi He [Hil Hch]. destruct (reset_ok _ Hi) as (s1 & E1 & F1).
  assert (Hsp : Forall (span_ok src) il) by (eapply Forall_impl; [|exact Hil]; intros ? []; auto).
  assert (Hx : exists O s2, (forall O', Tb src pp (PS (BE (BExit (NLeaf lf)) sp' :: rest) None hr (leafv lf) s2) O' ->
    T src pp (PS (inl_evs il ++ BE (BExit (NLeaf lf)) sp' :: rest) None hr (leafv lf) s1) (O ++ O')) /\ Idle s2 /\ forall i, inl i il -> passed src i \/ covered O i).
  { destruct (leafv lf) eqn:Ev.
    - destruct (idle_T src pp s1 (fr_idle _ F1)) as (s2 & I1 & _ & I2).
      destruct (verb_lines_cov (BE (BExit (NLeaf lf)) sp' :: rest) None hr il s2 I1 Hsp) as (O & s3 & B1 & B2 & B3).
      exists O, s3. split; [intros; apply I2; auto|]. auto.
    - destruct (leaf_lines_cov (ss sp') (BE (BExit (NLeaf lf)) sp' :: rest) None hr (se sp) il s1) as (O & s2 & B1 & B2 & B3).
      { intros e r Er. injection Er as <- <-. reflexivity. } { auto. }
      { split; [auto|]. split; [auto|]. apply eols_x. destruct lf; try discriminate Ev; exact He. }
      exists O, s2. auto. }
  destruct Hx as (O & s2 & X1 & X2 & X3). destruct (reset_ok _ X2) as (s3 & E3 & F3). destruct (idle_T src pp s3 (fr_idle _ F3)) as (s4 & I1 & _ & I2).
  exists O, s4. split; [|auto]. intros O' HT.
  eapply t_emit.
  - unfold block_step. cbn [p_blocks]. change (p_set_blocks (PS ?a ?b ?c ?d ?e) ?x) with (PS x b c d e). rewrite (node_leaf _ _ _ _ _ _ s1 _ true) by auto. cbn [bind].
    cbn [p_battr]. instantiate (1 := PS (inl_evs il ++ BE (BExit (NLeaf lf)) sp' :: rest) None hr (leafv lf) s1). destruct b as [[a asp]|]; reflexivity.
  - apply X1. eapply t_emit.
    + unfold block_step. cbn [p_blocks]. change (p_set_blocks (PS ?a ?b ?c ?d ?e) ?x) with (PS x b c d e). rewrite (node_leaf _ _ _ _ _ _ s3 _ false) by auto. cbn [bind p_battr]. reflexivity.
    + apply I2. exact HT.
Qed.

(** ** The whole document *)
Definition inb (b : pend) (i : nat) : Prop := match b with Some (_, asp) => inn i asp | None => False end.
Lemma spn_cov b x lo nxt sp i : bok src x b lo nxt -> lo <= ss sp -> ss sp <= se sp -> inn i sp \/ inb b i -> inn i (spn b sp).
Proof.
  intros H H1 H2 Hi. destruct b as [[a asp]|]; cbn in *; [|tauto]. destruct H as ((A1 & A2 & _) & B1 & _). destruct Hi as [[X Y]|[X Y]]; split; cbn [ss se]; lia.
Qed.
Lemma bcov_cons k sp r i : bcov (BE k sp :: r) i <-> (k <> BStale /\ inn i sp) \/ bcov r i.
Proof.
  split.
  - intros (e & [<-|H] & Hc & Hi); [left; auto|right; exists e; auto].
  - intros [[Hc Hi]|(e & H & Hc & Hi)]; [exists (BE k sp); split; [left; auto|auto]|exists e; split; [right; auto|auto]].
Qed.
Lemma bcov_app A B i : bcov (A ++ B) i <-> bcov A i \/ bcov B i.
Proof.
  split.
  - intros (e & H & Hc & Hi). apply in_app_or in H. destruct H; [left|right]; exists e; auto.
  - intros [(e & H & Hc & Hi)|(e & H & Hc & Hi)]; exists e; (split; [apply in_or_app; auto|auto]).
Qed.
Lemma bcov_inl l i : bcov (inl_evs l) i <-> inl i l.
Proof.
  induction l as [|x l IH]; cbn [inl_evs map]; [split; [intros (e & [] & _)|intros (e & [] & _)]|]. fold (inl_evs l). rewrite bcov_cons, inl_cons, IH. split; [tauto|]. intros [H|H]; [left; split; [discriminate|auto]|auto].
Qed.
Lemma bcov_stale st i : ~ bcov (stale_evs st) i.
Proof. destruct st as [[a b]|]; cbn; intros (e & H & Hc & _); cbn in H; [destruct H as [<-|[<-|[]]]; apply Hc; reflexivity|destruct H]. Qed.
Lemma bcov_blank l i : bcov (blank_evs l) i -> covered (blanks l) i.
Proof.
  induction l as [|x l IH]; cbn [blank_evs blanks map]; [intros (e & [] & _)|]. fold (blank_evs l) (blanks l). rewrite bcov_cons, covered_cons. cbn [snd]. tauto.
Qed.
Lemma battr_cov b i : inb b i -> covered (battr_ev b) i.
Proof. destruct b as [[a asp]|]; cbn; [intros H; exists (Attributes a), asp; cbn; auto|tauto]. Qed.

Definition Tc evs rest y hi b hr s : Prop :=
  exists O b' hr' s', (forall O', Tb src pp (PS rest b' hr' false s') O' -> Tb src pp (PS (evs ++ rest) b hr false s) (O ++ O')) /\
    Idle s' /\ bok src y b' hi rest /\ forall i, bcov evs i \/ inb b i -> passed src i \/ covered O i \/ inb b' i.
Lemma main_cov v x lo evs y hi : sq src v x lo evs y hi -> forall rest b hr s, Idle s -> bok src x b lo (evs ++ rest) -> Tc evs rest y hi b hr s.
Proof.
  induction 1 as [v x lo hi Hle|v x lo a sp r y hi Hin Hlo Hok Hsq IH|v x lo lf sp il sp' x' r y hi Hin Heo Hlo Hsp Hil Hsp' Hsq IH Htx
    |v tb als due als' lo sp r y hi Hlo Hsp Hrow Hdue Hnn Hsq IH|v als lo sp il sp' r y hi Hlo Hsp Heo Hil Hsp' Hsq IH|v x lo c sp ic inner m q sp' x' r y hi Hin Hlo Hsp Hsq1 IH1 Hend Hq Hsp' Hsq IH Htx
    |v lo st sp il sp1 bl sp2 inner m q sp3 r y hi Hst Hlo Hlt Hsp Heo Hil Hsp1 Hbl Hch Hsp2 Hsq1 IH1 Hq Hsp3 Hsq IH Htx Htp Htb]; intros rest b hr s Hi Hb; unfold Tc.
  - exists [], b, hr, s. cbn [app]. split; [auto|]. split; [auto|]. split; [|intros i [(e & [] & _)|H]; auto].
    destruct b as [[a asp]|]; [|exact I]. destruct Hb as (H1 & H2 & H3). cbn. split; [exact H1|]. split; [lia|exact H3].
  - destruct Hok as (Hsp & Hat & Hbl & Hbr). pose proof (proj1 Hsp) as Hss. destruct a.
    + (* Blankline *)
      assert (b = None) as -> by (destruct b as [[a asp]|]; [destruct Hb as (_ & _ & _ & Hb & _); discriminate|auto]).
      destruct (idle_T src pp s Hi) as (s1 & I1 & _ & I2). destruct (IH rest None hr s1 I1 I) as (O & b' & hr' & s' & T1 & T2 & T3 & T4).
      exists ((Blankline, sp) :: O), b', hr', s'. split; [|split; [auto|split; [auto|]]].
      * intros O' HT. cbn [app]. eapply t_emit; [reflexivity|]. apply I2. apply T1. exact HT.
      * intros i Hc. rewrite bcov_cons in Hc. rewrite covered_cons. cbn [snd inb] in *. specialize (T4 i). tauto.
    + (* Attributes *)
      specialize (Hat eq_refl).
      assert (Hwi : SpecMark.within src (ss (spn b sp)) (se (spn b sp)) (batt b ++ attrs_at src sp)).
      { destruct (spn_begun _ _ _ _ _ _ Hb Hlo Hsp) as (_ & _ & W & _). eapply within_app; [exact W|]. replace (se (spn b sp)) with (se sp) by (destruct b as [[? ?]|]; reflexivity). apply aspan_within; [exact Hw|split; auto]. }
      set (a0 := batt b ++ attrs_at src sp) in *. 
      assert (Hcv : forall i, inn i sp \/ inb b i -> inn i (spn b sp)) by (intros i Z; exact (spn_cov b x lo _ sp i Hb Hlo Hss Z)).
      assert (Hst : sets_text (slice src (spn b sp))) by (eapply spn_sets; eauto).
      set (asp := spn b sp) in *.
      destruct (spn_ok _ _ _ _ _ _ Hb Hlo Hsp) as (S1 & S2 & S3).
      assert (Hx : PGram.flow x \/ exists l m, x = XTop l m) by (destruct Hin as [Hin|[_ Hin]]; auto).
      assert (Est : block_step src pp (PS (BE (BAtom BAttributes) sp :: r ++ rest) b hr false s) =
        Ok (if next_is_blank (r ++ rest) then SEmit (Attributes a0) asp (PS (r ++ rest) None hr false s) else SLoop (PS (r ++ rest) (Some (a0, asp)) hr false s))).
      { unfold block_step. cbn [p_blocks p_battr]. destruct b as [[a1 asp1]|]; rewrite span_ok_ssub by auto; cbn [bind]; rewrite attrs_parse_text by auto; cbn [bind]; try reflexivity.
        unfold asp, spn. destruct (next_is_blank _); [destruct sp; reflexivity|]. destruct sp; reflexivity. }
      destruct (next_is_blank (r ++ rest)) eqn:En.
      * destruct (idle_T src pp s Hi) as (s1 & I1 & _ & I2). destruct (IH rest None hr s1 I1 I) as (O & b' & hr' & s' & T1 & T2 & T3 & T4).
        exists ((Attributes a0, asp) :: O), b', hr', s'. split; [|split; [auto|split; [auto|]]].
        -- intros O' HT. cbn [app]. eapply t_emit; [exact Est|]. apply I2. apply T1. exact HT.
        -- intros i Hc. rewrite bcov_cons in Hc. rewrite covered_cons. cbn [snd]. specialize (T4 i). specialize (Hcv i). cbn [inb] in T4. tauto.
      * assert (Hb' : bok src x (Some (a0, asp)) (se sp) (r ++ rest)) by (split; [auto|]; split; [unfold asp; lia|]; split; [auto|]; split; [auto|]; split; [exact Hwi|exact Hst]).
        destruct (IH rest (Some (a0, asp)) hr s Hi Hb') as (O & b' & hr' & s' & T1 & T2 & T3 & T4).
        exists O, b', hr', s'. split; [|split; [auto|split; [auto|]]].
        -- intros O' HT. cbn [app]. eapply t_loop; [exact Est|]. apply T1. exact HT.
        -- intros i Hc. rewrite bcov_cons in Hc. specialize (T4 i). specialize (Hcv i). cbn [inb] in T4. tauto.
    + (* ThematicBreak *)
      destruct (idle_T src pp s Hi) as (s1 & I1 & _ & I2). destruct (IH rest None hr s1 I1 I) as (O & b' & hr' & s' & T1 & T2 & T3 & T4).
      exists ((ThematicBreak (batt b), spn b sp) :: O), b', hr', s'. split; [|split; [auto|split; [auto|]]].
      * intros O' HT. cbn [app]. eapply t_emit; [|apply I2; apply T1; exact HT]. unfold block_step. cbn [p_blocks p_battr]. destruct b as [[a asp]|]; reflexivity.
      * intros i Hc. rewrite bcov_cons in Hc. rewrite covered_cons. cbn [snd]. specialize (T4 i). pose proof (spn_cov b x lo _ sp i Hb Hlo Hss). cbn [inb] in T4. tauto.
  - (* leaf *)
    pose proof (proj1 Hsp) as Hss. rewrite <- app_comm_cons, <- app_assoc. cbn [app].
    destruct (leaf_tr_cov lf sp il sp' (r ++ rest) b hr s Hi Heo Hil) as (O1 & s1 & A1 & A2 & A3).
    destruct (IH rest None hr s1 A2 I) as (O & b' & hr' & s' & T1 & T2 & T3 & T4).
    exists ((Start (leafc pp hr lf) (batt b), spn b sp) :: O1 ++ (End_ (leafc pp hr lf), sp') :: O), b', hr', s'. split; [|split; [auto|split; [auto|]]].
    + intros O' HT. cbn [app]. rewrite <- app_assoc. cbn [app]. apply A1. apply T1. exact HT.
    + intros i Hc. rewrite bcov_cons, bcov_app, bcov_inl, bcov_cons in Hc. rewrite covered_cons, covered_app, covered_cons. cbn [snd]. specialize (T4 i). specialize (A3 i).
      pose proof (spn_cov b x lo _ sp i Hb Hlo Hss). cbn [inb] in T4. tauto.
  - (* separator row *)
    assert (b = None) as -> by (eapply bnone; [exact Hb|intros [|[]]; discriminate|discriminate]).
    destruct (IH rest None hr s Hi I) as (O & b' & hr' & s' & T1 & T2 & T3 & T4).
    exists O, b', hr', s'. auto.
  - (* caption *)
    pose proof (proj1 Hsp) as Hss. rewrite <- app_comm_cons, <- app_assoc. cbn [app].
    assert (b = None) as -> by (eapply bnone; [exact Hb|intros [|[]]; discriminate|discriminate]).
    destruct (leaf_tr_cov FCaption sp il sp' (r ++ rest) None hr s Hi Heo Hil) as (O1 & s1 & A1 & A2 & A3).
    destruct (IH rest None hr s1 A2 I) as (O & b' & hr' & s' & T1 & T2 & T3 & T4).
    exists ((Start Caption [], sp) :: O1 ++ (End_ Caption, sp') :: O), b', hr', s'. split; [|split; [auto|split; [auto|]]].
    + intros O' HT. cbn [app]. rewrite <- app_assoc. cbn [app]. apply A1. apply T1. exact HT.
    + intros i Hc. rewrite bcov_cons, bcov_app, bcov_inl, bcov_cons in Hc. rewrite covered_cons, covered_app, covered_cons. cbn [snd]. specialize (T4 i). specialize (A3 i). cbn [inb] in *. tauto.
  - (* container *)
    pose proof (proj1 Hsp) as Hss. rewrite <- app_comm_cons, <- app_assoc. cbn [app].
    destruct (cont_gcont src pp _ _ _ _ _ hr _ _ _ Hin Hb) as [Hg Hc].
    destruct (cont_start src pp c sp (inner ++ BE (BExit (NCont c)) sp' :: r ++ rest) b hr s Hi Hc) as (s1 & A1 & A2).
    destruct (IH1 (BE (BExit (NCont c)) sp' :: r ++ rest) None (rowh c hr) s1 A1 I) as (O1 & b1 & hr1 & s2 & B1 & B2 & B3 & B4).
    destruct (cont_end src pp c sp' (r ++ rest) b1 hr1 s2 B2 Hc) as (s3 & C1 & C2).
    destruct (IH rest None hr1 s3 C1 I) as (O & b' & hr' & s' & T1 & T2 & T3 & T4).
    exists ((Start (contc pp c) (batt b), spn b sp) :: (O1 ++ battr_ev b1) ++ (End_ (contc pp c), sp') :: O), b', hr', s'. split; [|split; [auto|split; [auto|]]].
    + intros O' HT. cbn [app]. rewrite <- !app_assoc. cbn [app]. apply A2. apply B1. apply C2. apply T1. exact HT.
    + intros i Hcv. rewrite bcov_cons, bcov_app, bcov_cons in Hcv. rewrite covered_cons, covered_app, covered_app, covered_cons. cbn [snd]. specialize (T4 i). specialize (B4 i).
      pose proof (spn_cov b x lo _ sp i Hb Hlo Hss). pose proof (battr_cov b1 i). cbn [inb] in *. tauto.
  - (* description *)
    rewrite <- !app_assoc. cbn [app]. rewrite <- !app_assoc. cbn [app]. rewrite <- !app_assoc. cbn [app]. rewrite <- !app_assoc. cbn [app].
    assert (b = None) as -> by (eapply bnone; [exact Hb|intros [|[]]; discriminate|discriminate]).
    set (it := BListItem IDescription). assert (Hc : cok it) by exact I.
    set (R1 := BE (BEnter (NCont it)) sp2 :: inner ++ BE (BExit (NCont it)) sp3 :: r ++ rest).
    destruct (leaf_tr_cov FDescriptionTerm sp il sp1 (blank_evs bl ++ R1) None hr s Hi Heo Hil) as (O0 & s0 & Z1 & Z2 & Z3).
    destruct (blank_tr src pp R1 hr bl s0 Z2) as (s01 & Y1 & Y2).
    destruct (cont_start src pp it sp2 (inner ++ BE (BExit (NCont it)) sp3 :: r ++ rest) None hr s01 Y1 Hc) as (s1 & A1 & A2).
    destruct (IH1 (BE (BExit (NCont it)) sp3 :: r ++ rest) None (rowh it hr) s1 A1 I) as (O1 & b1 & hr1 & s2 & B1 & B2 & B3 & B4).
    destruct (cont_end src pp it sp3 (r ++ rest) b1 hr1 s2 B2 Hc) as (s3 & C1 & C2).
    destruct (IH rest None hr1 s3 C1 I) as (O & b' & hr' & s' & T1 & T2 & T3 & T4).
    exists ((Start DescriptionTerm [], sp) :: O0 ++ (End_ DescriptionTerm, sp1) :: blanks bl ++ (Start DescriptionDetails [], sp2) :: (O1 ++ battr_ev b1) ++ (End_ DescriptionDetails, sp3) :: O), b', hr', s'.
    split; [|split; [auto|split; [auto|]]].
    + intros O' HT. apply stale_tr. cbn [app]. rewrite <- app_assoc. cbn [app]. rewrite <- app_assoc. cbn [app]. rewrite <- !app_assoc. cbn [app]. apply Z1. apply Y2. apply A2. apply B1. apply C2. apply T1. exact HT.
    + intros i Hcv.
      repeat (rewrite bcov_cons in Hcv || rewrite bcov_app in Hcv || rewrite bcov_inl in Hcv).
      repeat (rewrite covered_cons || rewrite covered_app). cbn [snd].
      pose proof (bcov_stale st i). pose proof (bcov_blank bl i). specialize (T4 i). specialize (B4 i). specialize (Z3 i). pose proof (battr_cov b1 i). cbn [inb] in *. tauto.
Qed.
End PC.

Theorem doc_cov src evs i : wfb src -> parse_spans src = Ok evs -> i < length src -> covered evs i \/ passed src i.
Proof.
  intros Hw HP Hi. pose proof (PTree8.block_parse_ok src Hw) as HB. destruct (block_parse src) as [blocks|m|] eqn:Eb; cbn [safe] in HB.
  2: { unfold parse_spans, p_new in HP. rewrite Eb in HP. discriminate. } 2: { contradiction. }
  destruct HB as [HB _].
  pose proof (sq_Fl _ _ _ _ _ _ _ HB [] (fl_nil src)) as HF. rewrite app_nil_r in HF.
  destruct (pre_new_ok src blocks Hw HF) as (s & D & H & heads & E1 & I1 & P1 & P2). set (pp := PP (rev D) heads (sort_heads heads)) in *.
  destruct (idle_T src pp s I1) as (s1 & I2 & _ & I3).
  assert (Hdw : defs_written src pp).
  { intros l u a Hin. pose proof (Pre_written _ _ _ _ _ Hw P1 (Fl_attr_spans _ _ HF) (Forall_nil _)) as HD. rewrite Forall_forall in HD.
    unfold pp in Hin. cbn [pp_defs] in Hin. apply in_rev in Hin. exact (HD _ Hin). }
  destruct (main_tr src pp Hw Hdw _ _ _ _ _ _ HB [] None false s1 I2 I) as (O0 & b0 & hr0 & s0 & Q1 & Q2 & Q3 & Q4 & Q5 & [Q6 Qi] & L & Q7 & Q8).
  assert (Eb0 : b0 = None) by (eapply bnone; [exact Q3|intros [|[]]; discriminate|discriminate]). subst b0.
  destruct (main_cov src pp Hw Hdw _ _ _ _ _ _ HB [] None false s1 I2 I) as (O & b' & hr' & s' & T1 & T2 & T3 & T4).
  assert (Eb' : b' = None) by (eapply bnone; [exact T3|intros [|[]]; discriminate|discriminate]). subst b'.
  assert (TO : T src pp (PS blocks None false false s) O0).
  { apply I3. rewrite <- (app_nil_r O0). rewrite <- (app_nil_r blocks). apply Q1. apply t_end; reflexivity. }
  assert (TC : T src pp (PS blocks None false false s) O).
  { apply I3. rewrite <- (app_nil_r O). rewrite <- (app_nil_r blocks). apply T1. apply t_end; reflexivity. }
  pose proof (proj1 (T_fun src pp) _ _ TO _ TC) as ->.
  assert (E : parse_spans src = Ok O0).
  { unfold parse_spans, p_new. rewrite Eb. cbn [bind]. rewrite E1. cbn [bind]. apply T_all; [exact TO|].
    unfold all_fuel. cbn [p_blocks]. set (K := 4 * S (length src)) in *. assert (4 <= K) by (unfold K; lia). clearbody K. nia. }
  rewrite E in HP. apply PTable.okp1 in HP. subst evs.
  destruct (PCov4.block_parse_cov src blocks i Hw Eb Hi) as [C|C]; [right; left; exact C|].
  destruct (T4 i (or_introl C)) as [X|[X|[]]]; auto.
Qed.
