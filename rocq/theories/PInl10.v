(** * PInl10: one step of the inline parser, and its buffering loop *)
From Verif Require Import Base Lex Attr Block Inline Doc SpecLex Lib SpecAttr SpecSrc PAttr PAttr3 PAttr4 PSafe PBlock2 PLex PBlock3 PBlock4 PInl1 PInl2 PInl3 PInl4 PInl5 PInl6 PInl7 PInl8 PInl9.
Local Open Scope nat_scope.

(** Ready to parse on. *)
Definition Act src P lo hi W s : Prop := Buf src P lo hi W s \/ exists st, Wat src P lo hi W s st true.
(** Nothing left of the fed lines, or an attribute set that needs more lines. *)
Definition Wait src P lo hi W s : Prop :=
  P <> [] /\ ((Buf src P lo hi W s /\ lx_rest (i_lex (s_in s)) = [] /\ i_ahead (s_in s) = []) \/ exists st, Wat src P lo hi W s st false).
Definition Done src P lo hi W s : Prop :=
  P = [] /\ Buf src P lo hi W s /\ lx_rest (i_lex (s_in s)) = [] /\ i_ahead (s_in s) = [] /\ s_span s = Sp (pos s) (pos s).

Lemma Mid_event src P lo hi W q first s (m : res (option flow * istate)) :
  wfb src -> (exists r, m = Ok r /\ Post src P lo hi W q first s r) ->
  (tk first = LOpen Bracket -> m = Ok (None, s) /\ slice src (Sp q (pos s)) = B "[") ->
  exists f s', (let! (o, s) :=
        or_else (or_else (or_else (or_else (or_else
          m
          (fun s => parse_autolink src s first))
          (fun s => parse_symbol src s first))
          (fun s => parse_footnote_reference src s first))
          (fun s => iparse_container src s first))
          (fun s => parse_atom s first) in
      Ok (match o with
          | Some f => (f, s)
          | None => (FContinue, push s IStr)
          end)) = Ok (f, s') /\ ext s s' /\ length (i_ahead (s_in s')) <= length (i_ahead (s_in s)) /\
  match f with
  | FContinue => Buf src P lo hi W s' /\ q < pos s'
  | FMore => exists st, Wat src P lo hi W s' st false
  | _ => False
  end.
Proof.
  intros Hw Hm Hbk.
  match goal with |- context [or_else ?x (fun s => parse_atom s first)] => assert (HP : exists r, x = Ok r /\ Post src P lo hi W q first s r) end.
  { apply Post_else; [|intros; apply container_ok; auto].
    assert (Hd : tk first = LOpen Bracket \/ tk first <> LOpen Bracket) by (destruct (tk first) as [| | | | |[]|d|y|sq]; auto; right; discriminate).
    destruct Hd as [Hd|Hd].
    { destruct (Hbk Hd) as [-> Hsl]. destruct Hm as ([o9 s9] & E0 & _ & _ & HM). injection E0 as <- <-. cbn [or_else bind].
      unfold parse_autolink, parse_symbol. rewrite Hd. cbn [or_else bind]. apply footnote_ok; auto. }
    apply Post_else; [|intros; apply footnote_ok; auto; intros; contradiction].
    apply Post_else; [|intros; apply symbol_ok; auto]. apply Post_else; [exact Hm|intros; apply autolink_ok; auto]. }
  destruct HP as ([o s1] & -> & H1 & H2 & H3). unfold or_else at 1. cbn [bind]. destruct o as [f|].
  - cbn [bind]. do 2 eexists. split; [reflexivity|]. split; [auto|]. split; [auto|]. destruct f; try contradiction; auto.
  - destruct (atom_ok src P lo hi W q first s1 Hw H3) as (o & s2 & -> & E1 & E2 & E3). cbn [bind]. destruct o as [f|].
    + do 2 eexists. split; [reflexivity|]. split; [eapply ext_trans; eauto|]. split; [rewrite E2; auto|]. destruct f; try contradiction. destruct E3. split; [left; auto|auto].
    + do 2 eexists. split; [reflexivity|]. split; [eapply ext_trans; [eauto|]; eapply ext_trans; [exact E1|]; apply ext_same; reflexivity|].
      split; [change (s_in (push s2 IStr)) with (s_in s2); rewrite E2; auto|]. destruct E3. split; [left; auto|auto].
Qed.

Lemma parse_event_ok src P lo hi W s : wfb src -> Act src P lo hi W s ->
  exists f s', parse_event src s = Ok (f, s') /\ ext s s' /\ length (i_ahead (s_in s')) <= length (i_ahead (s_in s)) /\
  match f with
  | FContinue => Buf src P lo hi W s' /\ pos s < pos s'
  | FMore => exists st, Wat src P lo hi W s' st false
  | FNext | FDone => Buf src P lo hi W s' /\ pos s' = pos s /\ s_events s' = s_events s /\ lx_rest (i_lex (s_in s')) = [] /\ i_ahead (s_in s') = i_ahead (s_in s) /\
      pos s' = se (i_line (s_in s')) /\ s_span s' = Sp (pos s') (pos s') /\ (f = FDone <-> P = [] /\ i_ahead (s_in s') = [])
  end.
Proof.
  intros Hw HA.
  assert (HL : LexI src P hi (s_in s)) by (destruct HA as [[H|[v H]]|[st H]]; apply H).
  unfold parse_event. change (s_in (s_set_in s ?i)) with i.
  destruct (in_eat_ok src P hi (in_reset_span (s_in s)) Hw (LexI_reset_span _ _ _ _ HL)) as (o & i & Eeat & HL' & (Q1 & Q2 & Q3) & Ho).
  rewrite Eeat. cbn [bind]. change (se (i_span (in_reset_span (s_in s)))) with (pos s) in Ho. change (ss (i_span (in_reset_span (s_in s)))) with (pos s) in Ho.
  change (i_line (in_reset_span (s_in s))) with (i_line (s_in s)) in *. change (i_ahead (in_reset_span (s_in s))) with (i_ahead (s_in s)) in *.
  change (i_complete (in_reset_span (s_in s))) with (i_complete (s_in s)) in *.
  set (q := pos s) in *.
  change (s_set_in (s_set_in s (in_reset_span (s_in s))) i) with (s_set_in s i).
  destruct o as [first|].
  - destruct Ho as (O1 & O2 & O3 & O4 & O5 & O6).
    assert (Hp : pos (s_set_in s i) = q + tlen first) by (unfold pos, s_span; cbn; rewrite O1; reflexivity).
    assert (Hnew : forall s1, s_in s1 = s_in s -> True) by auto. clear Hnew.
    assert (HMid : Rdy src P lo hi W s -> Mid src P lo hi W q first (s_set_in s i)).
    { intros [R1 R2 R3 R4 R5 R6]. constructor; auto; rewrite ?Hp; auto.
      - unfold s_span. cbn. rewrite O1. reflexivity.
      - unfold evz. rewrite (lstart_same s) by (cbn; auto). exact R4.
      - lia.
      - cbn [s_set_in s_in]. rewrite Q1. apply (li_low HL).
      - intros Ek. rewrite Ek in O5. left. apply O5. }
    destruct HA as [[HR|[v HV]]|[st HW]].
    + specialize (HMid HR).
      destruct (Mid_event src P lo hi W q first (s_set_in s i) (or_else (parse_verbatim src (s_set_in s i) first) (fun s => parse_attributes src s first)) Hw) as (f & s' & E & X1 & X2 & X3).
      { apply Post_else; [apply verb_open; auto|intros; apply attrs_ok; auto]. }
      { intros Ek. split; [|rewrite Hp; rewrite Ek in O5; apply O5].
        unfold parse_verbatim. rewrite (m_verb _ _ _ _ _ _ _ _ HMid), Ek. cbn [or_else bind]. unfold parse_attributes. rewrite Ek, (m_attr _ _ _ _ _ _ _ _ HMid). reflexivity. }
      rewrite E. exists f, s'. split; [reflexivity|]. split; [eapply ext_trans; [|exact X1]; apply ext_same; reflexivity|].
      split; [cbn in X2; rewrite Q2 in X2; auto|]. destruct f; try contradiction; auto.
    + assert (HVM : VMid src P lo hi W q (s_set_in s i) v).
      { destruct HV as [V1 V2 V3 V4 V5]. constructor; auto; rewrite ?Hp; auto.
        - rewrite (lstart_same s) by (cbn; auto). exact V4.
        - lia. }
      assert (Htk : tk first = LSeq Backtick -> slice src (Sp q (pos (s_set_in s i))) = repeat "`"%char (tlen first)) by (intros Ek; rewrite Hp; rewrite Ek in O5; exact (seq_run _ _ _ _ O4 O5)).
      destruct (verb_in src P lo hi W q first (s_set_in s i) v Hw HVM Htk) as ([o s1] & Er & Hn & Hp1). rewrite Er.
      cbn [fst] in Hn. destruct o as [f|]; [|congruence]. cbn [or_else bind]. exists f, s1. split; [reflexivity|].
      destruct Hp1 as (X1 & X2 & X3). split; [eapply ext_trans; [|exact X1]; apply ext_same; reflexivity|].
      split; [cbn in X2; rewrite Q2 in X2; auto|]. destruct f; try contradiction; auto.
    + destruct HW as [W1 W2 W3 W4 W5 W6 (l' & W7) W8 W9 W10].
      assert (Ef : first = Tok (LOpen Brace) 1).
      { unfold in_eat in Eeat. change (i_lex (in_reset_span (s_in s))) with (i_lex (s_in s)) in Eeat. rewrite W7 in Eeat. cbn [bind] in Eeat. injection Eeat as <- _. reflexivity. }
      subst first. cbn [tlen tk] in *.
      destruct (Mid_event src P lo hi W q (Tok (LOpen Brace) 1) (s_set_in s i) (or_else (parse_verbatim src (s_set_in s i) (Tok (LOpen Brace) 1)) (fun s => parse_attributes src s (Tok (LOpen Brace) 1))) Hw) as (f & s' & E & X1 & X2 & X3).
      { unfold parse_verbatim. change (s_verb (s_set_in s i)) with (s_verb s). rewrite W2. cbn [tk or_else bind].
        apply (attrs_resume src P lo hi W (s_set_in s i) st q); auto.
        - unfold evz. rewrite (lstart_same s) by (cbn; auto). exact W4.
        - apply O6. discriminate.
        - rewrite (lstart_same s) by (cbn; auto). exact W8.
        - cbn [s_set_in s_in]. rewrite Q1. apply (li_low HL).
        - cbn [s_set_in s_in]. rewrite Q2, Q1. exact W10. }
      { discriminate. }
      rewrite E. exists f, s'. split; [reflexivity|]. split; [eapply ext_trans; [|exact X1]; apply ext_same; reflexivity|].
      split; [cbn in X2; rewrite Q2 in X2; auto|]. destruct f; try contradiction; auto.
  - destruct Ho as (O1 & O2 & O3).
    assert (HB : Buf src P lo hi W s).
    { destruct HA as [HB|[st HW]]; [auto|]. exfalso. destruct HW as [W1 W2 W3 W4 W5 W6 (l' & W7) W8 W9 W10].
      unfold in_eat in Eeat. change (i_lex (in_reset_span (s_in s))) with (i_lex (s_in s)) in Eeat. rewrite W7 in Eeat. discriminate. }
    assert (Hp : pos (s_set_in s i) = q) by (unfold pos, s_span; cbn; rewrite O2; reflexivity).
    assert (HB' : Buf src P lo hi W (s_set_in s i)).
    { assert (Els : lstart (s_set_in s i) = lstart s) by (apply lstart_same; cbn; auto).
      destruct HB as [[R1 R2 R3 R4 R5 R6]|[v [V1 V2 V3 V4 V5]]]; [left|right; exists v]; constructor; auto; rewrite ?Hp; unfold evz; rewrite ?Els; auto. }
    do 2 eexists. split; [reflexivity|]. split; [apply ext_same; reflexivity|]. split; [cbn; rewrite Q2; auto|].
    assert (Hd : forall f, f = (if in_last (s_in (s_set_in s i)) then FDone else FNext) -> (f = FDone <-> P = [] /\ i_ahead (s_in (s_set_in s i)) = [])).
    { intros f ->. unfold in_last. cbn [s_set_in s_in]. rewrite (li_compl HL'). destruct P; cbn; [|split; [discriminate|intros [? _]; discriminate]].
      destruct (i_ahead i); cbn; split; auto; try discriminate. intros [_ ?]; discriminate. }
    specialize (Hd _ eq_refl).
    destruct (in_last _); cbn beta iota; (split; [exact HB'|]); (split; [auto|]); (split; [auto|]); (split; [exact O3|]); (split; [exact Q2|]);
      (split; [rewrite Hp; cbn; rewrite Q1; auto|]); (split; [rewrite Hp; unfold s_span; cbn; rewrite O2; reflexivity|exact Hd]).
Qed.

(** The next fed line becomes the current one. *)
Lemma next_line src P hi i l ls : LexI src P hi i -> i_ahead i = l :: ls ->
  let l0 := if sp_empty l then 0 else ss l in
  l0 = 0 \/ exists e, se (i_line i) <= e /\ e <= l0 /\ 0 < e /\ nth_error src (e - 1) = Some NL.
Proof.
  intros HL Ea. cbv zeta. unfold sp_empty. destruct (Nat.ltb_spec (ss l) (se l)) as [Hlt|]; [|auto]. cbn [negb]. right. exists (se (i_line i)). split; [auto|].
  pose proof (li_chain HL) as C. pose proof (li_eols HL) as E. pose proof (li_lines HL) as S. rewrite Ea in *. cbn in C, E. destruct C as (C1 & C2 & _), E as [E _]. inv S.
  match goal with H : span_ok src l |- _ => destruct H as (S1 & S2 & _) end. split; [auto|]. destruct E as [[E|E]|E]; [lia|exact E|]. inv E. lia.
Qed.
Lemma Buf_line src P lo hi W s l ls : wfb src -> Buf src P lo hi W s -> i_ahead (s_in s) = l :: ls -> pos s = se (i_line (s_in s)) ->
  exists i, set_current_line src (in_set_ahead (s_in s) ls) l = Ok i /\ Buf src P lo hi W (s_set_in s i) /\ pos s <= pos (s_set_in s i) /\ i_ahead i = ls.
Proof.
  intros Hw HB Ea Hpos.
  assert (HL : LexI src P hi (s_in s)) by (destruct HB as [H|[v H]]; apply H).
  destruct (set_current_ok src P hi (s_in s) l ls HL Ea) as (i & E & HL' & I1 & I2 & I3 & I4). exists i. split; [auto|].
  assert (Il : i_line i = l).
  { unfold set_current_line in E. destruct (bsub src l _); cbn [bind] in E; inversion E. reflexivity. }
  pose proof (next_line _ _ _ _ _ _ HL Ea) as Hnl.
  assert (Els : lstart (s_set_in s i) = if sp_empty l then 0 else ss l) by (unfold lstart; cbn [s_set_in s_in]; rewrite Il; reflexivity).
  rewrite <- Els in Hnl. cbv zeta in Hnl.

  assert (Hp : pos (s_set_in s i) = ss l) by (unfold pos, s_span; cbn; rewrite I2; reflexivity).
  assert (Hle : pos s <= ss l) by lia. split; [|split; [lia|auto]].
  destruct HB as [[R1 R2 R3 R4 R5 R6]|[v [V1 V2 V3 (A & a & ph & ty & sp & Z & Ev & J1 & J2 & J3 & J4 & J5 & J6 & J7 & Jo & J8 & J9 & J10) V5]]]; [left|right; exists v]; constructor; auto; rewrite ?Hp; auto; try lia.
  - unfold evz. cbn [s_set_in s_openers s_events s_cow s_attrs]. eapply zip_weaken; [eapply zip_line; [exact R4|]|auto]. rewrite Hpos. auto.
  - change (s_events (s_set_in s i)) with (s_events s). lia.
  - exists A, a, ph, ty, sp, Z. split; [auto|]. split; [auto|]. split.
    { cbn [s_set_in s_openers s_cow s_attrs]. eapply zip_line; [exact J2|]. right. destruct Hnl as [Hnl|(e & N1 & N2)]; [auto|right; exists e; split; [|auto]].
      apply bal_le in J9. destruct J6 as [J6 _]. lia. }
    do 7 (split; [auto|]). split; [eapply bal_weaken; [exact J9|auto|lia]|auto].
  - change (s_events (s_set_in s i)) with (s_events s). lia.
Qed.

Lemma Act_pos src P lo hi W s : Act src P lo hi W s -> pos s <= length src.
Proof.
  intros HA. assert (HL : LexI src P hi (s_in s)) by (destruct HA as [[H|[v H]]|[st H]]; apply H).
  destruct (li_span HL) as (X1 & X2 & _). cbn in X1, X2. change (se (i_span (s_in s))) with (pos s) in X1. lia.
Qed.
Lemma fill_ok src P lo hi W : wfb src -> forall n s, Act src P lo hi W s -> length src - pos s + length (i_ahead (s_in s)) < n ->
  exists b s', fill n src s = Ok (b, s') /\ ext s s' /\ length (i_ahead (s_in s')) <= length (i_ahead (s_in s)) /\
  if b then (must_buffer s' = false /\ Rdy src P lo hi W s') \/ Done src P lo hi W s'
  else Wait src P lo hi W s'.
Proof.
  intros Hw. induction n as [|n IH]; intros s HA Hn; [lia|]. cbn [fill]. destruct (must_buffer s) eqn:Em.
  2: { do 2 eexists. split; [reflexivity|]. split; [apply ext_refl|]. split; [auto|]. left. split; [auto|].
       unfold must_buffer in Em. repeat rewrite orb_false_iff in Em. destruct Em as ((((E1 & E2) & E3) & E4) & E5).
       destruct HA as [[H|[v H]]|[st H]]; [auto| |].
       - rewrite (v_verb _ _ _ _ _ _ _ H) in E3. discriminate.
       - rewrite (w_attr _ _ _ _ _ _ _ _ H) in E4. discriminate. }
  destruct (parse_event_ok src P lo hi W s Hw HA) as (f & s1 & -> & X1 & X2 & X3). cbn [bind]. destruct f.
  - destruct X3 as [X3 X4]. destruct (IH s1) as (b & s2 & E & Y1 & Ya & Y2); [left; auto| |].
    { pose proof (Act_pos _ _ _ _ _ _ (or_introl X3)). lia. }
    exists b, s2. split; [auto|]. split; [eapply ext_trans; eauto|]. split; [lia|auto].
  - destruct X3 as (X3 & X4 & X5 & X6 & X7 & X8 & X8' & X9). destruct (i_ahead (s_in s1)) as [|l ls] eqn:Ea.
    + do 2 eexists. split; [reflexivity|]. split; [auto|]. split; [rewrite Ea; cbn; lia|]. split; [intros ->; destruct X9 as [_ X9]; discriminate X9; auto|].
      left. auto.
    + destruct (Buf_line src P lo hi W s1 l ls Hw X3 Ea X8) as (i & -> & Y1 & Y2 & Y3). cbn [bind].
      destruct (IH (s_set_in s1 i)) as (b & s2 & E & Z1 & Za & Z2); [left; auto| |].
      { cbn [s_set_in s_in]. rewrite Y3. rewrite <- X7 in Hn. cbn [length] in Hn. lia. }
      exists b, s2. split; [auto|]. split; [eapply ext_trans; [exact X1|]; eapply ext_trans; [|exact Z1]; apply ext_same; reflexivity|]. split; [|auto]. cbn [s_set_in s_in] in Za. rewrite Y3 in Za. cbn [length] in X2. lia.
  - do 2 eexists. split; [reflexivity|]. split; [auto|]. split; [auto|]. destruct X3 as [st HW]. split; [apply HW; reflexivity|]. right. eauto.
  - destruct X3 as (X3 & X4 & X5 & X6 & X7 & X8 & X8' & X9). do 2 eexists. split; [reflexivity|]. split; [auto|]. split; [auto|]. right.
    destruct X9 as [X9 _]. destruct (X9 eq_refl) as [-> X10]. split; [auto|]. auto.
Qed.

Lemma close_verb_ok src P lo hi W s : Done src P lo hi W s ->
  exists s', close_verbatim s = Ok s' /\ Done src P lo hi W s' /\ Rdy src P lo hi W s' /\ ext s s' /\ i_ahead (s_in s') = i_ahead (s_in s).
Proof.
  intros (HP & HB & Hr & Ha & Hsp). unfold close_verbatim. destruct HB as [HR|[v HV]].
  - rewrite (r_verb _ _ _ _ _ _ HR). exists s. split; [auto|]. split; [split; [auto|]; split; [left; auto|auto]|]. split; [auto|]. split; [apply ext_refl|auto].
  - destruct HV as [V1 V2 V3 (A & a & ph & ty & sp & Z & Ev & J1 & J2 & J3 & J4 & J5 & J6 & J7 & Jo & J8 & J9 & J10) V5]. rewrite V2.
    cbn [s_events s_set_lex s_set_in s_set_verb]. 
    assert (Eg : get_at (s_events s) (vs_opener v) "inline.rs:1195" = Ok (IE (IEnter ty) sp)).
    { rewrite Ev, J1. change (A ++ IE IPlaceholder (Sp ph ph) :: IE (IEnter ty) sp :: Z) with (A ++ [IE IPlaceholder (Sp ph ph)] ++ IE (IEnter ty) sp :: Z).
      rewrite app_assoc. apply get_mid. rewrite app_length. cbn. lia. }
    rewrite Eg. cbn [bind ik]. rewrite (plain_is_verb _ J7). cbn [assert bind].
    set (s1 := push _ _). exists s1. split; [reflexivity|].
    assert (Hsp1 : s_span s1 = s_span s) by reflexivity.
    assert (Ev1 : s_events s1 = A ++ IE IPlaceholder (Sp ph ph) :: IE (IEnter ty) sp :: Z ++ [IE (IExit ty) (s_span s)]).
    { unfold s1, push, push_sp. cbn [s_events s_set_lex s_set_in s_set_verb s_set_events]. rewrite Ev, <- app_assoc. reflexivity. }
    assert (Hpp : span_ok src (Sp (pos s) (pos s))) by (eapply span_point; apply (li_span V1)).
    assert (Hz : zip src (s_cow s) (s_attrs s) (lstart s) lo (s_openers s) (A ++ IE IPlaceholder (Sp ph ph) :: IE (IEnter ty) sp :: Z ++ [IE (IExit ty) (s_span s)]) (pos s)).
    { rewrite Hsp. eapply zip_app; [exact J2|]. apply (bal_app _ _ _ _ [_] ph); [apply bal_ph; cbn; auto|].
      assert (Hcl : iends src (s_cow s) ty [] (vopen ty (slice src sp) ++ itexts src Z) (Sp (pos s) (pos s))).
      { apply iends_none; [|intros ->; discriminate J7|auto|destruct ty; try discriminate J7; exact I]. rewrite slice_nil. destruct Jo as (Jo & Jn & d & Jd & Je).
        assert (Hf : fenced_by (slice src sp) []) by (exists d, (vs_len v); auto).
        destruct ty; try discriminate J7; (split; [left; reflexivity|]); cbn [ilabel vopen is_verb_cont]; exists (slice src sp), (itexts src Z); (split; [rewrite <- app_assoc; reflexivity|exact Hf]). }
      apply (bal_tcont src (s_cow s) (s_attrs s) ph [] ty sp Z (pos s) (Sp (pos s) (pos s)) (pos s) []); cbn [ss se]; auto; [destruct ty; cbn; auto; discriminate|apply Jo]. }
    assert (Hrd : Rdy src P lo hi W s1).
    { constructor; auto.
      - apply LexI_verb. exact V1.
      - unfold evz. rewrite Ev1. exact Hz.
      - rewrite Ev1. apply (lastok_cons2 src A (IE IPlaceholder (Sp ph ph)) (IE (IEnter ty) sp :: Z)). discriminate.
      - rewrite Ev1. rewrite Ev in V5. rewrite !wsum_app in *. cbn [wsum iwt ik] in *. rewrite wsum_app. cbn [wsum iwt ik]. change (pos s1) with (pos s). lia. }
    split; [split; [auto|]; split; [left; auto|auto]|]. split; [auto|]. split; [apply ext_same; reflexivity|reflexivity].
Qed.
