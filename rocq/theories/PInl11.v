(** * PInl11: handing out inline events *)
From Verif Require Import Base Lex Attr Block Inline Doc SpecLex Lib SpecAttr SpecSrc PAttr PAttr3 PAttr4 PSafe PBlock2 PLex PBlock3 PBlock4 PInl1 PInl2 PInl3 PInl4 PInl5 PInl6 PInl7 PInl8 PInl9 PInl10.
From Verif Require PTree8.
Local Open Scope nat_scope.

(** One event handed out. *)
Inductive ostep (src : bytes) (nc : list bytes) (al : list attrs) : es -> iev -> es -> Prop :=
| o_step s e s' : estep src nc al s e s' -> (ik e = IStr -> ss (isp e) < se (isp e)) -> ik e <> IPlaceholder -> ostep src nc al s e s'
| o_word lo stk i sp a : open_stk stk -> aval src al i sp a -> span_ok src sp ->
    ostep src nc al (ES lo stk PNone) (IE (IAttributes false i) sp) (ES lo stk (PCont a)).

(** Some events may be handed out. *)
Record Emt (src : bytes) (P : list span) (hi W : nat) (est : es) (s : istate) : Prop := mkEmt {
  em_lex : LexI src P hi (s_in s);
  em_verb : s_verb s = None;
  em_attr : s_attr s = None;
  em_runs : exists m, runs src (s_cow s) (s_attrs s) est (s_events s) (ES m [] PNone) /\ m <= pos s;
  em_wt : wsum (s_events s) + 4 * (length src - pos s) <= W;
  em_mode : (P = [] /\ lx_rest (i_lex (s_in s)) = [] /\ i_ahead (s_in s) = []) \/ (must_buffer s = false)
}.
Definition Run (src : bytes) (P : list span) (hi W : nat) (est : es) (s : istate) : Prop :=
  (exists lo, est = ES lo [] PNone /\ Act src P lo hi W s) \/ Emt src P hi W est s.

Lemma Emt_mono src P hi W W' est s : Emt src P hi W est s -> W <= W' -> Emt src P hi W' est s.
Proof. intros [E1 E2 E3 E4 E5 E6] H. constructor; auto. lia. Qed.

(** All events handed out: read on. *)
Lemma Emt_empty src P hi W est s : Emt src P hi W est s -> s_events s = [] -> s_openers s = [] ->
  exists lo, est = ES lo [] PNone /\ Rdy src P lo hi W s.
Proof.
  intros [E1 E2 E3 (m & E4 & E5) E6 _] Hev Hop. rewrite Hev in E4. inversion E4; subst. exists m. split; [auto|].
  constructor; auto.
  - unfold evz. rewrite Hev, Hop. constructor. apply bal_nil. auto.
  - rewrite Hev. exact I.
Qed.

(** The buffering loop, between two events. *)
Lemma fill_run src P hi W est s n : wfb src -> Run src P hi W est s -> length src - pos s + length (i_ahead (s_in s)) < n ->
  exists b s1, fill n src s = Ok (b, s1) /\ ext s s1 /\ length (i_ahead (s_in s1)) <= length (i_ahead (s_in s)) /\
  if b then exists s', close_verbatim s1 = Ok s' /\ ext s s' /\ length (i_ahead (s_in s')) <= length (i_ahead (s_in s)) /\ Emt src P hi W est s'
  else exists lo, est = ES lo [] PNone /\ Wait src P lo hi W s1.
Proof.
  intros Hw [(lo & -> & HA)|HE] Hn.
  - destruct (fill_ok src P lo hi W Hw n s HA Hn) as (b & s' & E & X & Xa & Y). exists b, s'. split; [auto|]. split; [auto|]. split; [auto|]. destruct b; [|exists lo; auto].
    destruct Y as [[Hm HR]|HD].
    + exists s'. split; [unfold close_verbatim; rewrite (r_verb _ _ _ _ _ _ HR); reflexivity|]. split; [auto|]. split; [auto|]. destruct HR as [R1 R2 R3 R4 R5 R6]. constructor; auto.
      apply zip_bal in R4. destruct R4 as (m & R4 & R4'). exists m. auto.
    + destruct (close_verb_ok _ _ _ _ _ _ HD) as (s2 & E2 & D2 & R2 & X2 & Ea2). exists s2. split; [auto|]. split; [eapply ext_trans; eauto|]. split; [rewrite Ea2; auto|].
      destruct D2 as (D1 & _ & D3 & D4 & _). destruct R2 as [R1 R2 R3 R4 R5 R6]. constructor; auto.
      apply zip_bal in R4. destruct R4 as (m & R4 & R4'). exists m. auto.
  - pose proof HE as [E1 E2 E3 (m & E4 & E5) E6 E7]. destruct n as [|n]; [lia|]. cbn [fill]. destruct (must_buffer s) eqn:Em.
    + destruct E7 as [(P0 & P1 & P2)|E7]; [|congruence]. subst P.
      unfold parse_event. change (s_in (s_set_in s ?i)) with i.
      destruct (in_eat_ok src [] hi (in_reset_span (s_in s)) Hw (LexI_reset_span _ _ _ _ E1)) as (o & i & Eeat & HL' & (Q1 & Q2 & Q3) & Ho).
      rewrite Eeat. cbn [bind]. change (s_set_in (s_set_in s (in_reset_span (s_in s))) i) with (s_set_in s i).
      change (se (i_span (in_reset_span (s_in s)))) with (pos s) in Ho. change (i_lex (in_reset_span (s_in s))) with (i_lex (s_in s)) in Ho.
      change (i_line (in_reset_span (s_in s))) with (i_line (s_in s)) in Ho.
      destruct o as [t|].
      { exfalso. destruct Ho as (O1 & O2 & O3 & _). pose proof (LexI_len _ _ _ _ E1) as HL. rewrite P1 in HL. cbn in HL. change (se (i_span (s_in s))) with (pos s) in HL. lia. }
      destruct Ho as (O1 & O2 & O3). unfold in_last. cbn [s_in s_set_in]. rewrite (li_compl HL'). change (i_ahead (in_reset_span (s_in s))) with (i_ahead (s_in s)) in Q2. rewrite Q2, P2. cbn [is_nil andb bind].
      do 2 eexists. split; [reflexivity|]. split; [apply ext_same; reflexivity|]. split; [cbn; rewrite Q2, P2; auto|].
      exists (s_set_in s i). unfold close_verbatim. change (s_verb (s_set_in s i)) with (s_verb s). rewrite E2. split; [reflexivity|]. split; [apply ext_same; reflexivity|]. split; [cbn; rewrite Q2, P2; auto|].
      assert (Hp : pos (s_set_in s i) = pos s) by (unfold pos, s_span; cbn; rewrite O2; reflexivity).
      apply mkEmt; [exact HL'|exact E2|exact E3|exists m; rewrite Hp; exact (conj E4 E5)|rewrite Hp; exact E6|].
      left. split; [auto|]. split; [auto|]. cbn. rewrite Q2. auto.
    + do 2 eexists. split; [reflexivity|]. split; [apply ext_refl|]. split; [auto|]. exists s. unfold close_verbatim. rewrite E2. split; [reflexivity|]. split; [apply ext_refl|auto].
Qed.

(** Text events that follow are joined. *)
Lemma merge_ok src nc al E : forall lo stk sp s2, runs src nc al (ES (se sp) (add (slice src sp) stk) PNone) E s2 -> span_ok src sp -> lo <= ss sp ->
  exists sp' E', merge_loop E sp = (E', sp') /\ ss sp' = ss sp /\ se sp <= se sp' /\ span_ok src sp' /\ runs src nc al (ES (se sp') (add (slice src sp') stk) PNone) E' s2 /\
    (E' = E /\ sp' = sp \/ True) /\ wsum E' + (se sp' - se sp) <= wsum E /\ (exists D, E = D ++ E').
Proof.
  induction E as [|e E IH]; intros lo stk sp s2 Hr Hs Hl.
  - exists sp, []. cbn. rewrite Nat.sub_diag. repeat (split; [auto|]). exists []. auto.
  - cbn [merge_loop]. destruct (match ik e with IStr | IPlaceholder => true | _ => false end && _)%bool eqn:Ec.
    2: { exists sp, (e :: E). rewrite Nat.sub_diag. repeat (split; [auto; try lia|]). exists []. auto. }
    apply andb_prop in Ec. destruct Ec as [Ek Ee]. apply Nat.eqb_eq in Ee. inversion Hr as [|? ? s1 ? ? H1 H2]; subst.
    assert (He : span_ok src (isp e)) by (eapply estep_span; eauto).
    assert (E1 : s1 = ES (se (isp e)) (add (slice src (Sp (ss sp) (se (isp e)))) stk) PNone).
    { rewrite (slice_join src sp (ss (isp e)) (se (isp e)) Ee) by (first [apply He|apply Hs]). rewrite span_eta, <- add_add.
      inversion H1; subst; cbn in Ek; try discriminate; cbn [isp]; [reflexivity|].
      match goal with H : ss ?x = se ?x |- _ => rewrite <- (span_eta x), <- H, slice_nil, add_nil; reflexivity end. }
    subst s1.
    destruct (IH lo stk (Sp (ss sp) (se (isp e))) s2) as (sp' & E' & X1 & X2 & X3 & X4 & X5 & _ & X7 & D & X8); auto.
    { apply (span_join src (ss sp) (se sp) (se (isp e))); [rewrite span_eta; auto|]. rewrite Ee, span_eta. auto. }
    cbn in X2, X3, X7. destruct He as (Y & _). exists sp', E'. split; [auto|]. split; [auto|]. split; [lia|]. split; [auto|]. split; [auto|]. split; [auto|].
    split; [|exists (e :: D); cbn; f_equal; auto]. cbn [wsum]. assert (se (isp e) - ss (isp e) <= iwt e); [|lia].
    inversion H1; subst; cbn in Ek; try discriminate; cbn; unfold iwt, sp_len; cbn in *; lia.
Qed.

Definition lastn (E : list iev) : bool := match last_opt E with Some e => is_istr e | None => false end.
Lemma last_suffix {A} (D E : list A) : E <> [] -> last_opt (D ++ E) = last_opt E.
Proof. intros H. destruct (rev_case E) as [->|(E' & x & ->)]; [congruence|]. rewrite app_assoc, !last_opt_app. reflexivity. Qed.
Lemma lastn_suffix D E : E <> [] -> lastn (D ++ E) = lastn E.
Proof. intros H. unfold lastn. rewrite last_suffix by auto. reflexivity. Qed.

Lemma Run_pop src P hi W W' est est' s evs : Emt src P hi W est s ->
  (exists m, runs src (s_cow s) (s_attrs s) est' evs (ES m [] PNone) /\ m <= pos s) ->
  wsum evs + 4 * (length src - pos s) <= W' -> evs = [] \/ (lastn (s_events s) = false -> lastn evs = false) ->
  Run src P hi W' est' (s_set_events s evs).
Proof.
  intros [E1 E2 E3 E4 E5 E6] (m & Hr & Hm) Hw Hl. destruct E6 as [E6|E6].
  - right. apply mkEmt; auto. exists m. auto.
  - unfold must_buffer in E6. repeat rewrite orb_false_iff in E6. destruct E6 as ((((F1 & F2) & F3) & F4) & F5).
    assert (Hop : s_openers s = []) by (destruct (s_openers s); [auto|discriminate]).
    destruct evs as [|e evs].
    + left. inversion Hr; subst. exists m. split; [auto|]. left. left. constructor; auto.
      * unfold evz. cbn [s_events s_set_events s_openers]. rewrite Hop. constructor. apply bal_nil. auto.
      * exact I.
    + right. apply mkEmt; auto; [exists m; auto|]. right. destruct Hl as [Hl|Hl]; [discriminate|]. specialize (Hl F5).
      unfold must_buffer. cbn [s_events s_set_events s_openers s_verb s_attr]. rewrite F2, F3, F4. cbn [is_nil orb]. exact Hl.
Qed.

Lemma ext_ev s evs : ext s (s_set_events s evs).
Proof. apply ext_same; reflexivity. Qed.

Definition NextP src P hi W (est : es) (s : istate) (r : option iev * istate) : Prop :=
  let (o, s') := r in ext s s' /\ length (i_ahead (s_in s')) <= length (i_ahead (s_in s)) /\
  match o with
  | None => exists lo, e_stk est = [] /\ e_pnd est = PNone /\ e_lo est <= lo /\
      (Wait src P lo hi W s' \/ (P = [] /\ Emt src P hi W (ES lo [] PNone) s' /\ s_events s' = []))
  | Some e => exists lo1 est' W', e_lo est <= lo1 /\ ostep src (s_cow s') (s_attrs s') (ES lo1 (e_stk est) (e_pnd est)) e est' /\
      W' < W /\ Run src P hi W' est' s'
  end.

Lemma merge_str_ok src P hi W s lo stk sp evs m : wfb src ->
  Emt src P hi W (ES lo stk PNone) s -> s_events s = IE IStr sp :: evs -> lo <= ss sp -> span_ok src sp ->
  runs src (s_cow s) (s_attrs s) (ES (se sp) (add (slice src sp) stk) PNone) evs (ES m [] PNone) -> m <= pos s ->
  (ss sp < se sp \/ front_word_attr evs = true) ->
  exists e' evs', merge_str_events src evs sp = Ok (e', evs') /\ NextP src P hi W (ES lo stk PNone) s (Some e', s_set_events s evs').
Proof.
  intros Hw HE Hev Hlo Hso Hr Hm Hne. unfold merge_str_events.
  destruct (merge_ok src _ _ evs lo stk sp _ Hr Hso Hlo) as (sp' & E' & Em & M1 & M2 & M3 & M4 & _ & M5 & D & M6). rewrite Em.
  pose proof (em_wt _ _ _ _ _ _ HE) as Hwt. rewrite Hev in Hwt. cbn [wsum iwt ik isp] in Hwt. unfold iwt, sp_len in Hwt. cbn [ik isp] in Hwt.
  assert (Hso' := M3). destruct M3 as (Z1 & Z2 & Z3 & Z4). destruct Hso as (Y1 & Y2 & Y3 & Y4).
  assert (Hnx : forall e est' evs', ostep src (s_cow s) (s_attrs s) (ES lo stk PNone) e est' ->
     runs src (s_cow s) (s_attrs s) est' evs' (ES m [] PNone) -> wsum evs' + 1 <= 1 + (se sp - ss sp) + wsum evs ->
     evs' = [] \/ (lastn (s_events s) = false -> lastn evs' = false) -> NextP src P hi W (ES lo stk PNone) s (Some e, s_set_events s evs')).
  { intros e est' evs' O1 O2 O3 O4. split; [apply ext_ev|]. split; [auto|]. exists lo, est', (W - 1). split; [auto|]. split; [exact O1|]. split; [lia|].
    eapply Run_pop; eauto. lia. }
  destruct (front_word_attr E') eqn:Ef.
  - unfold apply_word_attributes. rewrite span_ok_ssub by exact Hso'. cbn [bind].
    destruct (rposition is_ws (slice src sp')) as [i|] eqn:Er.
    + apply PTree8.rposition_some in Er. destruct Er as [(c & Er & Ec) _].
      assert (Hi : i < se sp' - ss sp') by (rewrite <- (span_ok_len src sp' Hso'); apply nth_error_Some; congruence).
      rewrite slice_nth in Er by auto. set (ws := ss sp' + i + 1).
      assert (Hbw : boundary src ws = true).
      { unfold ws. replace (ss sp' + i + 1) with (S (ss sp' + i)) by lia. eapply wfb_after; eauto. apply ws_ascii; auto. }
      destruct (span_sub src (ss sp') (se sp') ws) as [S1 S2]; [rewrite span_eta; auto|unfold ws; lia|auto|].
      do 2 eexists. split; [reflexivity|]. apply (Hnx _ (ES ws (add (slice src (Sp (ss sp') ws)) stk) PNone)).
      * constructor; [|cbn; unfold ws; lia|discriminate]. apply (e_str src _ _ lo stk (Sp (ss sp') ws)); cbn; auto; lia.
      * econstructor; [apply (e_str src _ _ ws _ (Sp ws (se sp'))); cbn; auto|]. cbn [se]. rewrite add_add, slice_app, span_eta by (unfold ws; lia). exact M4.
      * cbn [wsum iwt ik isp]. unfold iwt, sp_len. cbn [ik isp ss se]. unfold ws. lia.
      * right. rewrite Hev, M6. destruct E' as [|a E']; [discriminate|]. intros H. rewrite app_comm_cons in H. rewrite lastn_suffix in H by discriminate.
        change (IE IStr (Sp ws (se sp')) :: a :: E') with ([IE IStr (Sp ws (se sp'))] ++ a :: E'). rewrite lastn_suffix by discriminate. exact H.
    + destruct E' as [|a E']; [discriminate|]. destruct a as [k asp]. cbn in Ef. destruct k as [| | | | |[] ai|]; try discriminate.
      assert (HM : exists E, E' = IE IEmpty asp :: E /\ open_stk stk /\ aidx src (s_attrs s) ai asp /\ se sp' <= ss asp /\ span_ok src asp /\
        runs src (s_cow s) (s_attrs s) (ES (se asp) (add (slice src sp') stk) PNone) E (ES m [] PNone)).
      { inversion M4 as [|? ? s1 ? ? H1 H2]; subst. inversion H1; subst. inversion H2 as [|? ? s2 ? ? H3 H4]; subst. inversion H3; subst; [|exfalso; match goal with X : forall w, PWord _ <> PWord w |- _ => exact (X _ eq_refl) end]. eexists. split; [reflexivity|]. cbn [se ss e_lo] in *. split; [match goal with H : open_stk (add _ _) |- _ => destruct stk as [|[[]]]; exact H end|]. auto 10. }
      destruct HM as (E & -> & N1 & N2 & N3 & N4 & N5). cbn [wsum] in M5. unfold iwt in M5. cbn [ik] in M5.
      assert (Hlast : forall F x, is_istr x = false -> lastn (s_events s) = false -> lastn ((F ++ [x]) ++ E) = false).
      { intros F x Hx H. rewrite Hev, M6 in H. destruct E as [|b E].
        - rewrite app_nil_r. unfold lastn. rewrite last_opt_app. exact Hx.
        - rewrite lastn_suffix by discriminate.
          match type of H with lastn (?u :: D ++ ?v :: ?w :: b :: E) = _ => change (lastn ((u :: D) ++ [v; w] ++ b :: E) = false) in H end.
          rewrite app_assoc, lastn_suffix in H by discriminate. exact H. }
      unfold sp_empty. rewrite negb_involutive. destruct (Nat.ltb (ss sp') (se sp')) eqn:Ee.
      * apply Nat.ltb_lt in Ee. do 2 eexists. split; [reflexivity|]. destruct N2 as (wa & N2). apply (Hnx _ (ES lo stk (PCont wa))).
        -- apply o_word; auto.
        -- assert (Hpt : span_ok src (Sp (ss sp') (ss sp'))) by (apply (span_point src _ (se sp')); rewrite span_eta; auto).
           econstructor; [apply (e_enter src _ _ lo stk (PCont wa) CSpan (Sp (ss sp') (ss sp'))); cbn [ss se]; [discriminate|auto|exact I|lia|auto|rewrite slice_nil; cbn; auto]|]. cbn [se].
           econstructor; [constructor; auto|]. econstructor; [apply e_exit; auto|exact N5]. exists (ss asp). destruct N2 as (_ & _ & N2 & N6). destruct N4 as (N4 & _).
           split; [auto|]. split; [auto|]. cbn [isp]. rewrite !slice_nil. split; [split; [left; reflexivity|exact I]|]. split; [exact I|]. right. rewrite span_eta. auto.
        -- cbn [wsum]. unfold iwt at 1 2 3. cbn [ik isp]. unfold sp_len. lia.
        -- right. intros H. match goal with |- lastn (?u :: ?v :: ?w :: E) = _ => apply (Hlast [u; v] w) end; auto.
      * do 2 eexists. split; [reflexivity|]. apply (Hnx _ (ES lo stk (PWord asp))).
        -- constructor; [|discriminate|discriminate]. constructor; auto; lia.
        -- econstructor; [constructor; auto; lia|]. apply Nat.ltb_ge in Ee. replace (slice src sp') with (@nil ascii) in N5; [rewrite add_nil in N5; exact N5|].
           rewrite <- (span_eta sp'). replace (se sp') with (ss sp') by lia. symmetry. apply slice_nil.
        -- cbn [wsum]. unfold iwt at 1. cbn [ik]. lia.
        -- right. intros H. apply (Hlast []); auto.
  - assert (Hlt : ss sp < se sp).
    { destruct Hne as [|Hne]; [auto|]. exfalso. destruct evs as [|[k es0] evs]; [discriminate|].
      cbn in Hne. destruct k as [| | | | |[] ai|]; try discriminate. cbn in Em. injection Em as <- <-. discriminate. }
    do 2 eexists. split; [reflexivity|]. apply (Hnx _ (ES (se sp') (add (slice src sp') stk) PNone)); auto.
    + constructor; [|cbn; lia|discriminate]. constructor; auto. lia.
    + lia.
    + destruct E' as [|a E']; [auto|]. right. rewrite Hev, M6. intros H. rewrite app_comm_cons in H. rewrite lastn_suffix in H by discriminate. exact H.
Qed.

Lemma Buf_mono src P lo hi W W' s : Buf src P lo hi W s -> W <= W' -> Buf src P lo hi W' s.
Proof. intros [[R1 R2 R3 R4 R5 R6]|[v [V1 V2 V3 V4 V5]]] H; [left|right; exists v]; constructor; auto; lia. Qed.
Lemma Wat_mono src P lo hi W W' s st b : Wat src P lo hi W s st b -> W <= W' -> Wat src P lo hi W' s st b.
Proof. intros [W1 W2 W3 W4 W5 W6 W7 W8 W9 W10] H; constructor; auto; lia. Qed.
Lemma Wait_mono src P lo hi W W' s : Wait src P lo hi W s -> W <= W' -> Wait src P lo hi W' s.
Proof.
  intros [H0 [(H1 & H2)|(st & H1)]] H; (split; [auto|]).
  - left. split; [eapply Buf_mono; eauto|auto].
  - right. exists st. eapply Wat_mono; eauto.
Qed.

Lemma next_ok src P hi : wfb src -> forall n nf W est s, Run src P hi W est s -> W < n -> length src + length (i_ahead (s_in s)) < nf ->
  exists r, i_next n nf src s = Ok r /\ NextP src P hi W est s r.
Proof.
  intros Hw. induction n as [|n IH]; intros nf W est s HR Hn Hf; [lia|]. cbn [i_next].
  destruct (fill_run src P hi W est s nf Hw HR) as (b & s1 & -> & X1 & X2 & X3); [lia|]. cbn [bind]. destruct b.
  2: { destruct X3 as (lo & -> & X3). eexists. split; [reflexivity|]. split; [auto|]. split; [auto|]. exists lo. cbn. auto. }
  destruct X3 as (s2 & -> & Y1 & Y2 & HE). cbn [bind]. pose proof HE as [E1 E2 E3 (m & E4 & E5) E6 E7].
  destruct (s_events s2) as [|e evs] eqn:Ev.
  - eexists. split; [reflexivity|]. split; [auto|]. split; [auto|]. inversion E4; subst. exists m. cbn. repeat (split; [auto|]). right.
    destruct E7 as [E7|E7]; [|unfold must_buffer in E7; rewrite Ev in E7; discriminate]. split; [apply E7|]. auto.
  - inversion E4 as [|? ? est1 ? ? H1 H2]; subst. cbn [wsum] in E6.
    assert (Hlast : evs = [] \/ (lastn (s_events s2) = false -> lastn evs = false)).
    { destruct evs as [|e1 evs]; [auto|]. right. rewrite Ev. intros H. change (e :: e1 :: evs) with ([e] ++ e1 :: evs) in H. rewrite lastn_suffix in H by discriminate. exact H. }
    assert (Hpos : 1 <= iwt e) by (unfold iwt; destruct (ik e) as [| | | | |[]|]; lia).
    assert (Hpop : Run src P hi (W - 1) est1 (s_set_events s2 evs)) by (eapply Run_pop; eauto; lia).
    assert (Hgo : ik e <> IStr -> ik e <> IPlaceholder -> NextP src P hi W est s (Some e, s_set_events s2 evs)).
    { intros K1 K2. split; [eapply ext_trans; [exact Y1|apply ext_ev]|]. split; [auto|]. exists (e_lo est), est1, (W - 1). split; [auto|]. split; [|split; [lia|auto]].
      constructor; [|congruence|auto]. destruct est; exact H1. }
    assert (Hskip : (e_stk est1 = e_stk est /\ e_pnd est1 = e_pnd est) -> exists r, i_next n nf src (s_set_events s2 evs) = Ok r /\ NextP src P hi W est s r).
    { intros [K1 K2]. destruct (IH nf (W - 1) est1 (s_set_events s2 evs) Hpop) as (r & Er & Hr); [lia|cbn [s_set_events s_in]; lia|].
      exists r. split; [auto|]. destruct r as [o s3]. destruct Hr as (R1 & R2 & R3). apply estep_lo in H1. split; [eapply ext_trans; [exact Y1|eapply ext_trans; [apply ext_ev|exact R1]]|].
      split; [cbn [s_set_events s_in] in R2; lia|]. destruct o as [e3|].
      - destruct R3 as (lo1 & est' & W' & R4 & R5 & R6 & R7). exists lo1, est', W'. rewrite <- K1, <- K2. repeat (split; [auto; lia|]). auto.
      - destruct R3 as (lo & R3 & R4 & R5 & R6). exists lo. rewrite <- K1, <- K2. split; [auto|]. split; [auto|]. split; [lia|]. destruct R6 as [R6|(R6 & R7 & R8)].
        + left. eapply Wait_mono; eauto. lia.
        + right. split; [auto|]. split; [eapply Emt_mono; eauto; lia|auto]. }
    destruct (ik e) eqn:Ek; try (eexists; split; [reflexivity|]; apply Hgo; discriminate).
    + destruct e as [k sp]. cbn in Ek. subst k. cbn [isp]. inversion H1; subst.
      destruct (sp_empty sp && negb (front_word_attr evs)) eqn:Ee.
      { apply Hskip. split; [|reflexivity]. cbn [e_stk]. apply andb_true_iff in Ee. destruct Ee as [Ee _]. unfold sp_empty in Ee. apply negb_true_iff, Nat.ltb_ge in Ee.
        rewrite <- (span_eta sp). match goal with H : span_ok src sp |- _ => destruct H as (K & _) end. replace (se sp) with (ss sp) by lia. rewrite slice_nil. apply add_nil. }
      destruct (merge_str_ok src P hi W s2 lo stk sp evs m) as (e' & evs' & Em & Hm); auto.
      { apply andb_false_iff in Ee. unfold sp_empty in Ee. destruct Ee as [Ee|Ee]; [left; apply negb_false_iff, Nat.ltb_lt in Ee; auto|right; apply negb_false_iff; auto]. }
      rewrite Em. cbn [bind]. eexists. split; [reflexivity|]. destruct Hm as (M1 & M2 & M3). split; [eapply ext_trans; [exact Y1|exact M1]|]. split; [cbn [s_set_events s_in] in *; lia|exact M3].
    + destruct e as [k sp]. cbn in Ek. subst k. apply Hskip. inversion H1; subst. auto.
Qed.
