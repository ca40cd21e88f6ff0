(** * PInl8: attributes, autolinks, symbols, footnote references, atoms *)
From Verif Require Import Base Lex Attr Block Inline Doc SpecLex Lib SpecAttr SpecSrc PAttr PAttr3 PAttr4 PSafe PBlock2 PLex PBlock3 PBlock4 PInl1 PInl2 PInl3 PInl4 PInl5 PInl6 PInl7 PropsPunct.
Local Open Scope nat_scope.

Lemma Post_none src P lo hi W q first s : Mid src P lo hi W q first s ->
  exists r, Ok (@None flow, s) = Ok r /\ Post src P lo hi W q first s r.
Proof. intros H. eexists. split; [reflexivity|]. cbn. auto using ext_refl. Qed.
Lemma Post_else src P lo hi W q first s (m : res (option flow * istate)) f :
  (exists r, m = Ok r /\ Post src P lo hi W q first s r) ->
  (forall s', Mid src P lo hi W q first s' -> exists r, f s' = Ok r /\ Post src P lo hi W q first s' r) ->
  exists r, or_else m f = Ok r /\ Post src P lo hi W q first s r.
Proof.
  intros ([o s1] & -> & H1 & H2 & H3) Hf. unfold or_else. cbn [bind]. destruct o as [f0|].
  - eexists. split; [reflexivity|]. cbn. auto.
  - destruct (Hf s1 H3) as ([o2 s2] & -> & E1 & E2 & E3). eexists. split; [reflexivity|]. split; [eapply ext_trans; eauto|]. split; [lia|exact E3].
Qed.

Lemma Mid_one src P lo hi W q first s c : Mid src P lo hi W q first s -> tk first <> LOpen Bracket ->
  (forall t r, kind_text (tk first) t r -> t = [c]) ->
  pos s = q + 1 /\ tlen first = 1 /\ nth_error src q = Some c.
Proof.
  intros HM Hk Ht. pose proof HM as [M1 M2 M3 M4 M5 M6 M7 M8 M9 Mlow Mbrk M10]. destruct (M10 Hk) as (X1 & X2 & X3). apply Ht in X2.
  pose proof (f_equal (@length _) X2) as L. rewrite span_ok_len in L by auto. cbn in L. split; [lia|]. split; [lia|].
  pose proof (f_equal (fun l => nth_error l 0) X2) as N. cbn beta in N. rewrite slice_nth in N by (cbn; lia). cbn in N. rewrite Nat.add_0_r in N. exact N.
Qed.

Lemma attrs_ok src P lo hi W q first s : wfb src -> Mid src P lo hi W q first s ->
  exists r, parse_attributes src s first = Ok r /\ Post src P lo hi W q first s r.
Proof.
  intros Hw HM. pose proof HM as [M1 M2 M3 M4 M5 M6 M7 M8 M9 Mlow Mbrk M10]. unfold parse_attributes. rewrite M3.
  destruct (tk first) as [| | | | |d|d|y|sq] eqn:Ek; try (apply Post_none; auto; fail). destruct d; try (apply Post_none; auto; fail).
  destruct (Mid_one _ _ _ _ _ _ _ _ "{"%char HM) as (E1 & E2 & E3); [congruence|rewrite Ek; intros ? ? []; auto|].
  unfold ahead_attributes. change (se (s_span s)) with (pos s). rewrite usub_yes by lia. cbn [bind].
  assert (Hls : span_ok src (Sp q (se (i_line (s_in s))))) by (eapply span_join; [exact M9|apply (li_span M1)]).
  destruct (M10 ltac:(discriminate)) as (T1 & T2 & T3). cbn [kind_text] in T2.
  destruct (resume_ok src P lo hi W s (AS ElemWord (pos s - 1) 0 AStart) true true q) as (r & Er & Hr); auto.
  - pose proof (li_span M1) as (X & _). cbn in X. change (se (i_span (s_in s))) with (pos s) in X. lia.
  - cbn. auto.
  - cbn. split; [lia|auto].
  - apply T2. reflexivity.
  - rewrite Er. exists r. split; [reflexivity|]. destruct r as [o s']. destruct Hr as (X1 & X2 & X3). split; [auto|]. split; [auto|].
    destruct o as [[]|]; try contradiction; auto.
    + destruct X3. split; [left; auto|auto].
    + subst s'. auto.
Qed.
(** The same when the attributes were begun on earlier lines. *)
Lemma attrs_resume src P lo hi W s st q first : wfb src -> s_span s = Sp q (q + 1) -> tk first = LOpen Brace -> tlen first = 1 ->
  LexI src P hi (s_in s) -> s_verb s = None -> s_attr s = Some st -> evz src lo s q -> lastok src (s_events s) ->
  wsum (s_events s) + 4 * (length src - q) <= W ->
  span_ok src (Sp q (q + 1)) ->
  kind_text (LOpen Brace) (slice src (Sp q (q + 1))) (lx_rest (i_lex (s_in s))) -> lx_next (i_lex (s_in s)) = None ->
  elem_at src (s_cow s) (s_attrs s) (lstart s) lo (s_openers s) (s_events s) q (as_elem st) ->
  ss (i_line (s_in s)) <= q \/ two_sets src ->
  (exists ah l, i_ahead (s_in s) = ah ++ [l] /\
     let LL := Sp q (se (i_line (s_in s))) :: ah in
     acc_at src LL q st /\ nth_error src (as_end st) = Some "{"%char /\ as_lines st <= length ah /\ answer src LL (length ah) 0 None (as_val st)) ->
  exists r, parse_attributes src s first = Ok r /\ Post src P lo hi W q first s r.
Proof.
  intros Hw Esp Ek El HL Hv Ha Hz Hlast Hwt Hso [Ht1 Ht2] Hn Hel Hlow Hscan. unfold parse_attributes. rewrite Ek, Ha.
  assert (Hpos : pos s = q + 1) by (unfold pos; rewrite Esp; reflexivity).
  assert (Hls : span_ok src (Sp q (se (i_line (s_in s))))) by (pose proof (li_span HL) as X; change (se (i_span (s_in s))) with (pos s) in X; rewrite Hpos in X; eapply span_join; eauto).
  assert (Hbr : nth_error src q = Some "{"%char).
  { pose proof (f_equal (fun l => nth_error l 0) Ht1) as N. cbn beta in N. rewrite slice_nth in N by (cbn; lia). cbn in N. rewrite Nat.add_0_r in N. exact N. }
  destruct (resume_ok src P lo hi W (s_set_attr s None) st true false q) as (r & Er & Hr); auto.
  - pose proof (li_span HL) as (X & _). cbn in X. change (se (i_span (s_in s))) with (pos s) in X. cbn. lia.
  - rewrite Er. exists r. split; [reflexivity|]. destruct r as [o s']. destruct Hr as (X1 & X2 & X3).
    split; [exact X1|]. split; [exact X2|]. destruct o as [[]|]; try contradiction; auto.
    + destruct X3. split; [left; auto|auto].
    + subst s'. constructor; auto.
      * change (ss (s_span s) = q). rewrite Esp. reflexivity.
      * change (pos (s_set_attr s None)) with (pos s). lia.
      * change (pos (s_set_attr s None)) with (pos s). rewrite Hpos. auto.
      * rewrite Ek. discriminate.
      * change (pos (s_set_attr s None)) with (pos s). rewrite Hpos, El, Ek. intros _. split; [auto|]. split; [split; auto|]. intros _. exact Hn.
Qed.

(** Skipping to after an ASCII byte. *)
Lemma skip_to src P hi i n c : wfb src -> LexI src P hi i -> lx_next (i_lex i) = None -> nth_error (lx_rest (i_lex i)) n = Some c -> ascii7 c = true ->
  exists l, lex_skip_ahead (i_lex i) (n + 1) = Ok l /\
    (forall x, LexI src P hi (in_set_span (in_set_lex i l) (Sp x (se (i_span i) + n + 1)))) /\
    span_ok src (Sp (se (i_span i)) (se (i_span i) + n)) /\ span_ok src (Sp (se (i_span i) + n) (se (i_span i) + n + 1)) /\
    slice src (Sp (se (i_span i)) (se (i_span i) + n)) = firstn n (lx_rest (i_lex i)) /\ slice src (Sp (se (i_span i) + n) (se (i_span i) + n + 1)) = [c].
Proof.
  intros Hw HL Hn Hc Ha. destruct (rest_boundary src P hi i n c Hw HL Hc Ha) as (B1 & B2 & B3 & B4).
  eexists. split; [apply lex_skip_ok; auto; [apply HL|]; assert (n < length (lx_rest (i_lex i))) by (apply nth_error_Some; congruence); lia|].
  split.
  - intros x. pose proof (LexI_jump src P hi i (n + 1) x HL) as J. rewrite Nat.add_assoc in J. apply J; [lia|auto].
  - pose proof (li_span HL) as S0. destruct (span_sub src (se (i_span i)) (se (i_line i)) (se (i_span i) + n) S0 ltac:(lia) B3) as [S1 S2]. split; [auto|].
    split; [apply (span_sub _ _ (se (i_line i))); auto; lia|]. split; [|rewrite Nat.add_1_r; apply slice_one; exact B2].
    rewrite (li_rest HL). symmetry. apply firstn_slice. lia.
Qed.

Lemma auto_closer src u : existsb (fun c => beq c ":" || beq c "@") u = true -> Forall url_char u ->
  closer src (Link u (if existsb (fun c => beq c "@") u then LEmail else LAutoLink)) (B ">").
Proof.
  intros H Hc. destruct (existsb (fun c => beq c "@") u) eqn:E; cbn [closer].
  - apply existsb_exists in E. destruct E as (x & E1 & E2). apply beq_eq in E2. subst x. auto.
  - assert (Hn : ~ List.In "@"%char u) by (intros X; assert (existsb (fun c => beq c "@") u = true) by (apply existsb_exists; eexists; split; [exact X|reflexivity]); congruence).
    split; [reflexivity|]. split; [|split; [exact Hn|exact Hc] ]. apply existsb_exists in H. destruct H as (x & H1 & H2). apply orb_true_iff in H2. destruct H2 as [H2|H2]; apply beq_eq in H2; subst x; tauto.
Qed.
Lemma autolink_ok src P lo hi W q first s : wfb src -> Mid src P lo hi W q first s ->
  exists r, parse_autolink src s first = Ok r /\ Post src P lo hi W q first s r.
Proof.
  intros Hw HM. pose proof HM as [M1 M2 M3 M4 M5 M6 M7 M8 M9 Mlow Mbrk M10]. unfold parse_autolink.
  destruct (tk first) as [| | | | |d|d|y|sq] eqn:Ek; try (apply Post_none; auto; fail). destruct y; try (apply Post_none; auto; fail).
  rewrite (lex_ahead_ok _ (li_wf M1)). cbn [bind]. destruct (scan_until _ _) as [len stop] eqn:Es.
  destruct (stopped_at stop ">" && _)%bool eqn:Ec; [|apply Post_none; auto]. apply andb_true_iff in Ec. destruct Ec as [Ec Hurl].
  destruct (scan_until_ok _ _ _ _ _ Es Ec) as [Hlen Hnth]. pose proof (scan_until_free _ _ _ _ Es) as Hfree. destruct (M10 ltac:(discriminate)) as (T1 & T2 & T3).
  destruct (skip_to src P hi (s_in s) len ">"%char Hw M1 (T3 ltac:(discriminate)) Hnth eq_refl) as (l & -> & HJ & S1 & S2 & S3 & S4). cbn [bind].
  change (se (s_span (s_set_lex s l))) with (pos s). change (se (i_span (s_in s))) with (pos s) in *. rewrite span_ok_ssub by auto. cbn [bind].
  eexists. split; [reflexivity|]. split; [apply ext_same; reflexivity|]. split; [cbn; auto|].
  set (c := CAutolink _). pose proof (Mid_span _ _ _ _ _ _ _ _ HM) as Esp.
  match goal with |- Buf _ _ _ _ _ ?S /\ _ => set (s2 := S) end.
  assert (Ev : s_events s2 = s_events s ++ ([] ++ IE (IEnter c) (Sp q (pos s)) :: [IE IStr (Sp (pos s) (pos s + len))] ++ [IE (IExit c) (Sp (pos s + len) (pos s + len + 1))])).
  { unfold s2. cbn [push push_sp s_set_span s_set_lex s_set_in s_set_events s_events s_span s_in in_set_span in_set_lex i_span].
    fold (s_span s). rewrite Esp. rewrite <- !app_assoc. reflexivity. }
  assert (Hp : pos s2 = pos s + len + 1) by reflexivity.
  assert (Hop : opens_with (pub (s_cow s) c) (slice src (Sp q (pos s)))) by (unfold c; cbn [pub]; match goal with |- context [if ?b then _ else _] => destruct b end; exact T2).
  assert (Hcl : closer src (pub (s_cow s) c) (slice src (Sp (pos s + len) (pos s + len + 1)))).
  { unfold c; cbn [pub]. rewrite S4. apply auto_closer; rewrite S3; [exact Hurl|].
    eapply Forall_impl; [|exact Hfree]. cbv beta. intros x Hx. apply orb_false_iff in Hx. destruct Hx as [Hx X3]. apply orb_false_iff in Hx. destruct Hx as [X1 X2].
    split; [exact X3|]. split; intros ->; discriminate. }
  assert (Hau : iauto src c (pos s + len)).
  { unfold c. cbn [iauto]. assert (Hlt : pos s + len <= length src) by (destruct S1 as (_ & X & _); exact X).
    exists q. rewrite slice_length by (cbn [ss se]; lia). cbn [ss se]. cbn [kind_text sym_text] in T2. rewrite <- T2. split; [|rewrite slice_app by lia; reflexivity].
    assert (X := f_equal (@length ascii) T2). rewrite slice_length in X by (cbn [ss se]; lia). cbn in X. lia. }
  split; [|lia]. left. constructor; auto.
  - apply HJ.
  - unfold evz. rewrite Ev. eapply zip_app; [exact M5|]. change (s_cow s2) with (s_cow s). change (s_attrs s2) with (s_attrs s). rewrite Hp.
    eapply (bal_tcont _ _ _ _ []); cbn [ss se];
      [constructor; [reflexivity|constructor] | left; auto | auto | exact M9 | exact I | exact Hop
      | apply iends_none; [split; [exact Hcl|exact I]|discriminate|cbn; lia|exact Hau]
      | apply (bal_str _ _ _ (pos s) (Sp (pos s) (pos s + len)) (pos s + len)); cbn; auto | cbn; lia | exact S2 | cbn; lia].
  - rewrite Ev. cbn [app]. change (IE (IEnter c) (Sp q (pos s)) :: ?x :: ?y) with ([IE (IEnter c) (Sp q (pos s)); x] ++ y). rewrite app_assoc. apply lastok_snoc. discriminate.
  - rewrite Ev, wsum_app, Hp. cbn. unfold sp_len. cbn. destruct S2 as (_ & S2 & _). cbn in S2. lia.
Qed.

Lemma Mid_atom_to src P lo hi W q first s a l n : Mid src P lo hi W q first s -> q < n ->
  (forall x, LexI src P hi (in_set_span (in_set_lex (s_in s) l) (Sp x n))) -> span_ok src (Sp q n) -> spelled src (atom_event a) (slice src (Sp q n)) ->
  Rdy src P lo hi W (push (s_set_span (s_set_lex s l) (Sp (ss (s_span s)) n)) (IAtom a)).
Proof.
  intros [M1 M2 M3 M4 M5 M6 M7 M8 M9 Mlow Mbrk M10] Hq HL Hs Hsa.
  set (s1 := s_set_span (s_set_lex s l) (Sp (ss (s_span s)) n)).
  assert (E : push s1 (IAtom a) = s_set_events s1 (s_events s ++ [IE (IAtom a) (Sp q n)])) by (rewrite <- M4; reflexivity).
  rewrite E. constructor; auto.
  - apply HL.
  - unfold evz. change (pos (s_set_events s1 _)) with n. change (s_events (s_set_events s1 ?x)) with x.
    eapply zip_app; [exact M5|]. apply bal_atom; cbn [ss se]; auto.
  - change (s_events (s_set_events s1 ?x)) with x. apply lastok_snoc. discriminate.
  - change (pos (s_set_events s1 _)) with n. change (s_events (s_set_events s1 ?x)) with x. rewrite wsum_app. cbn [wsum iwt ik].
    destruct Hs as (_ & Hs & _). cbn in Hs. lia.
Qed.

Lemma symbol_ok src P lo hi W q first s : wfb src -> Mid src P lo hi W q first s ->
  exists r, parse_symbol src s first = Ok r /\ Post src P lo hi W q first s r.
Proof.
  intros Hw HM. pose proof HM as [M1 M2 M3 M4 M5 M6 M7 M8 M9 Mlow Mbrk M10]. unfold parse_symbol.
  destruct (tk first) as [| | | | |d|d|y|sq] eqn:Ek; try (apply Post_none; auto; fail). destruct y; try (apply Post_none; auto; fail).
  rewrite (lex_ahead_ok _ (li_wf M1)). cbn [bind]. destruct (scan_until _ _) as [len stop] eqn:Es.
  destruct (stopped_at stop ":" && _)%bool eqn:Ec; [|apply Post_none; auto]. apply andb_true_iff in Ec. destruct Ec as [Ec Esy].
  destruct (scan_until_ok _ _ _ _ _ Es Ec) as [Hlen Hnth]. destruct (M10 ltac:(discriminate)) as (T1 & T2 & T3).
  destruct (skip_to src P hi (s_in s) len ":"%char Hw M1 (T3 ltac:(discriminate)) Hnth eq_refl) as (l & -> & HJ & S1 & S2 & S3 & S4). cbn [bind].
  change (se (s_span (s_set_lex s l))) with (pos s). change (se (i_span (s_in s))) with (pos s) in *. rewrite span_ok_ssub by auto. cbn [bind].
  eexists. split; [reflexivity|]. split; [apply ext_same; reflexivity|]. split; [cbn; auto|]. split; [|change (pos _) with (pos s + len + 1); lia].
  left. change (ss (s_span (s_set_lex s l))) with (ss (s_span s)). eapply Mid_atom_to; eauto; [lia| |].
  - eapply span_join; [exact M9|]. eapply span_join; eauto.
  - cbn [atom_event spelled]. split.
    + rewrite <- (slice_app src q (pos s) (pos s + len + 1)) by lia. rewrite <- (slice_app src (pos s) (pos s + len) (pos s + len + 1)) by lia. rewrite S4.
      cbn [kind_text] in T2. rewrite T2. reflexivity.
    + rewrite S3. rewrite forallb_forall in Esy. apply Forall_forall. intros c Hc. specialize (Esy c Hc). unfold is_symbol_char in Esy.
      unfold symbol_char. rewrite <- !beq_eq. destruct (is_alnum c); [auto|]. cbn [orb] in Esy. rewrite !orb_true_iff in Esy. clear - Esy. tauto.
Qed.

Lemma footnote_ok src P lo hi W q first s : wfb src -> Mid src P lo hi W q first s -> (tk first = LOpen Bracket -> slice src (Sp q (pos s)) = B "[") ->
  exists r, parse_footnote_reference src s first = Ok r /\ Post src P lo hi W q first s r.
Proof.
  intros Hw HM Hbk. pose proof HM as [M1 M2 M3 M4 M5 M6 M7 M8 M9 Mlow Mbrk M10]. unfold parse_footnote_reference.
  destruct (tk first) as [| | | | |d|d|y|sq] eqn:Ek; try (apply Post_none; auto; fail). destruct d; try (apply Post_none; auto; fail).
  specialize (Hbk eq_refl).
  unfold s_peek. destruct (in_peek_ok src P hi _ Hw M1) as (t & i1 & -> & HL1 & (Q1 & Q2 & Q3) & Hsp & Hn & Ht & Hr).
  assert (HM1 : forall i2 e, LexI src P hi i2 -> i_span i2 = Sp q e -> pos s <= e -> span_ok src (Sp q e) -> i_line i2 = i_line (s_in s) ->
    op_text (OpSpan SpGeneral) (slice src (Sp q e)) -> Mid src P lo hi W q first (s_set_in s i2)).
  { intros i2 e HL2 E2 He So Eli Hop. assert (Hp : pos (s_set_in s i2) = e) by (unfold pos, s_span; cbn; rewrite E2; reflexivity). constructor; auto.
    - unfold s_span. cbn. rewrite E2. reflexivity.
    - unfold evz. rewrite (lstart_same s (s_set_in s i2)) by exact Eli. exact M5.
    - rewrite Hp. lia.
    - rewrite Hp. auto.
    - cbn. rewrite Eli. exact Mlow.
    - rewrite Hp. auto.
    - congruence. }
  pose proof (Mid_span _ _ _ _ _ _ _ _ HM) as Esp. unfold s_span in Esp. rewrite <- Hsp in Esp.
  assert (Hnone : exists r, Ok (@None flow, s_set_in s i1) = Ok r /\ Post src P lo hi W q first s r).
  { eexists. split; [reflexivity|]. split; [apply ext_same; reflexivity|]. split; [cbn; rewrite Q2; auto|]. eapply HM1; eauto. }
  destruct t as [[k n]|]; [|auto]. destruct k as [| | | | |d|d|y|sq]; auto. destruct y; auto.
  change (s_in (s_set_in s i1)) with i1. destruct Ht as (T1 & T2 & T3 & T4). cbn [tk tlen kind_text] in *.
  pose proof (f_equal (@length _) T4) as T5. rewrite firstn_length, Nat.min_l in T5 by auto. change (length (sym_text Caret)) with 1 in T5. subst n.
  destruct (in_eat_ok src P hi i1 Hw HL1) as (o & i2 & E2 & HL2 & (Y1 & Y2 & Y3) & Ho).
  assert (Eo : o = Some (Tok (LSym Caret) 1)) by (unfold in_eat, lex_next in E2; rewrite Hn in E2; injection E2; auto). subst o.
  rewrite E2. cbn [bind assert]. destruct Ho as (O1 & O2 & O3 & O4 & O5 & O6). cbn [tk tlen] in *. rewrite Esp in O1, O4. cbn [ss se] in O1, O4.
  assert (So : span_ok src (Sp q (pos s + 1))) by (eapply span_join; eauto).
  assert (Hbk2 : slice src (Sp q (pos s + 1)) = B "[^").
  { rewrite <- (slice_app src q (pos s) (pos s + 1)) by lia. rewrite Hbk. cbn [kind_text] in O5. rewrite Esp in O5. cbn [se] in O5. rewrite O5. reflexivity. }
  assert (Eli : i_line i2 = i_line (s_in s)) by congruence.
  rewrite (lex_ahead_ok _ (li_wf HL2)). cbn [bind]. destruct (scan_until _ _) as [len stop] eqn:Es.
  destruct (stopped_at stop "]") eqn:Ec.
  2: { eexists. split; [reflexivity|]. split; [apply ext_same; reflexivity|]. split; [cbn; rewrite Y2, Q2; auto|]. eapply HM1; eauto; [lia|right; exact Hbk2]. }
  destruct (scan_until_ok _ _ _ _ _ Es Ec) as [Hlen Hnth].
  destruct (skip_to src P hi i2 len "]"%char Hw HL2 (O6 ltac:(discriminate)) Hnth eq_refl) as (l & -> & HJ & S1 & S2 & S3 & S4). cbn [bind].
  rewrite O1 in *. cbn [se] in *. change (s_span (s_set_lex (s_set_in s_set_in i2) l)) with (i_span i2) || idtac.
  match goal with |- context [se (s_span ?S)] => change (s_span S) with (i_span i2) end. rewrite O1. cbn [se ss]. rewrite span_ok_ssub by auto. cbn [bind].
  eexists. split; [reflexivity|]. split; [apply ext_same; reflexivity|]. split; [cbn; rewrite Y2, Q2; auto|]. split; [|change (pos _) with (pos s + 1 + len + 1); lia].
  left. pose proof (Mid_atom_to src P lo hi W q first (s_set_in s i2) (IFootnoteReference (slice src (Sp (pos s + 1) (pos s + 1 + len)))) l (pos s + 1 + len + 1)) as X.
  change (s_span (s_set_in s i2)) with (i_span i2) in X. rewrite O1 in X. apply X; [eapply HM1; eauto; [lia|right; exact Hbk2]|lia|exact HJ| |].
  - eapply span_join; [exact So|]. eapply span_join; eauto.
  - cbn [atom_event spelled]. split.
    + rewrite <- (slice_app src q (pos s + 1) (pos s + 1 + len + 1)) by lia. rewrite <- (slice_app src (pos s + 1) (pos s + 1 + len) (pos s + 1 + len + 1)) by lia.
      rewrite S4, Hbk2. reflexivity.
    + rewrite S3. unfold scan_until in Es. injection Es as <- _. pose proof (count_while_firstn (fun c => negb (beq c "[" || beq c "]" || beq c NL)) (lx_rest (i_lex i2))) as Hf.
      rewrite forallb_forall in Hf. apply Forall_forall. intros c Hc. specialize (Hf c Hc). apply negb_true_iff in Hf. rewrite !orb_false_iff in Hf.
      destruct Hf as [[F1 F2] F3]. repeat split; intros ->; [discriminate F1|discriminate F2|discriminate F3].
Qed.

(** ** Atoms *)
(** Part of the token has been used: [x] is where the rest starts. *)
Record Part (src : bytes) (P : list span) (lo hi W q x : nat) (s0 s : istate) : Prop := mkPart {
  pt_in : s_in s = in_set_span (s_in s0) (Sp x (pos s0));
  pt_set : s_verb s = None /\ s_attr s = None /\ s_cow s = s_cow s0 /\ s_attrs s = s_attrs s0 /\ s_openers s = s_openers s0;
  pt_x : q <= x <= pos s0;
  pt_zip : evz src lo s x;
  pt_last : x = q /\ s_events s = s_events s0 \/ exists E a sp, s_events s = E ++ [IE (IAtom a) sp];
  pt_wt : wsum (s_events s) + 4 * (length src - x) <= W
}.
Lemma Mid_part src P lo hi W q first s : Mid src P lo hi W q first s -> Part src P lo hi W q q s s.
Proof.
  intros HM. pose proof HM as [M1 M2 M3 M4 M5 M6 M7 M8 M9 Mlow Mbrk M10]. constructor; auto; [|lia]. rewrite <- (Mid_span _ _ _ _ _ _ _ _ HM). destruct s as [[] ? ? ? ? ? ?]; reflexivity.
Qed.
Lemma part_pos src P lo hi W q x s0 s : Part src P lo hi W q x s0 s -> s_span s = Sp x (pos s0).
Proof. intros [H _]. unfold s_span. rewrite H. reflexivity. Qed.
Lemma part_push src P lo hi W q x s0 s a w : Part src P lo hi W q x s0 s -> x + w <= pos s0 -> 1 <= w -> pos s0 <= length src ->
  span_ok src (Sp x (x + w)) -> spelled src (atom_event a) (slice src (Sp x (x + w))) ->
  Part src P lo hi W q (x + w) s0 (s_set_span (push_sp s (IAtom a) (Sp x (x + w))) (Sp (x + w) (pos s0))).
Proof.
  intros [H1 (H2 & H3 & H4 & H5 & H6) H7 H8 H9 H10] Hx Hw Hl Hs Hsa. constructor; auto.
  - cbn [s_set_span s_set_in s_in push_sp s_set_events]. rewrite H1. reflexivity.
  - lia.
  - unfold evz in *. cbn [push_sp s_set_span s_set_in s_set_events s_events s_openers s_cow s_attrs].
    rewrite (lstart_same s) by reflexivity. eapply zip_app; [exact H8|]. apply bal_atom; cbn [ss se]; auto.
  - right. cbn. eauto.
  - cbn [s_set_span s_set_in s_events push_sp s_set_events]. rewrite wsum_app. cbn [wsum iwt ik]. lia.
Qed.
Lemma part_end src P lo hi W q first s0 s : Mid src P lo hi W q first s0 -> Part src P lo hi W q (pos s0) s0 s -> Rdy src P lo hi W s.
Proof.
  intros HM H. pose proof (part_pos _ _ _ _ _ _ _ _ _ H) as Esp. destruct H as [H1 (H2 & H3 & H4 & H5 & H6) H7 H8 H9 H10].
  assert (Hp : pos s = pos s0) by (unfold pos at 1; rewrite Esp; reflexivity). constructor; auto.
  - rewrite H1. apply LexI_start. apply HM.
  - rewrite Hp. auto.
  - destruct H9 as [[_ ->]|(E & a & sp & ->)]; [apply HM|apply lastok_snoc; discriminate].
  - rewrite Hp. auto.
Qed.
Lemma part_str src P lo hi W q x first s0 s : Mid src P lo hi W q first s0 -> Part src P lo hi W q x s0 s -> span_ok src (Sp x (pos s0)) ->
  (x < pos s0 \/ (0 < x /\ nth_error src (x - 1) = Some "."%char)) -> (x = pos s0 -> wsum (s_events s) + 1 + 4 * (length src - x) <= W) ->
  Rdy src P lo hi W (push s IStr).
Proof.
  intros HM H Hs Hd Hwt. pose proof (part_pos _ _ _ _ _ _ _ _ _ H) as Esp. destruct H as [H1 (H2 & H3 & H4 & H5 & H6) H7 H8 H9 H10].
  assert (Hp : pos (push s IStr) = pos s0) by (change (se (s_span s) = pos s0); rewrite Esp; reflexivity). constructor; auto.
  - change (s_in (push s IStr)) with (s_in s). rewrite H1. apply LexI_start. apply HM.
  - rewrite Hp. unfold evz, push, push_sp. rewrite Esp. cbn. eapply zip_app; [exact H8|]. apply bal_str; cbn; auto.
  - unfold push, push_sp. rewrite Esp. cbn [s_events s_set_events]. apply lastok_snoc. intros _. cbn. auto.
  - rewrite Hp. unfold push, push_sp. rewrite Esp. cbn [s_events s_set_events]. rewrite wsum_app. cbn [wsum iwt ik isp]. unfold sp_len. cbn [ss se].
    destruct Hs as (X1 & X2 & _). cbn in X1, X2. destruct (Nat.eq_dec x (pos s0)) as [E|E]; [specialize (Hwt E); lia|lia].
Qed.
(** A span of equal ASCII bytes. *)
Definition run_of (src : bytes) (c : ascii) (a b : nat) : Prop := a <= b /\ b <= length src /\ forall i, a <= i < b -> nth_error src i = Some c.
Lemma run_span src c a b x y : wfb src -> ascii7 c = true -> span_ok src (Sp a b) -> run_of src c a b -> a <= x <= y -> y <= b -> span_ok src (Sp x y).
Proof.
  intros Hw Hc (S1 & S2 & S3 & S4) (R1 & R2 & R3) Hx Hy. cbn in *.
  assert (Hb : forall z, a <= z <= b -> boundary src z = true).
  { intros z Hz. destruct (Nat.eq_dec z b) as [->|]; [auto|]. eapply wfb_ascii_at; [auto|apply R3; lia|auto]. }
  repeat split; cbn; auto; try lia; apply Hb; lia.
Qed.
Lemma run_slice src c a b n : forall x, run_of src c a b -> a <= x -> x + n <= b -> slice src (Sp x (x + n)) = repeat c n.
Proof.
  induction n as [|n IH]; intros x Hr H1 H2; [rewrite Nat.add_0_r; apply slice_nil|].
  rewrite <- (slice_app src x (S x) (x + S n)) by lia. replace (x + S n) with (S x + n) by lia. rewrite IH by (auto; lia).
  destruct Hr as (_ & _ & Hr). rewrite (slice_one src x c) by (apply Hr; lia). reflexivity.
Qed.
Lemma Mid_run src P lo hi W q first s sq : Mid src P lo hi W q first s -> tk first = LSeq sq -> run_of src (seq_char sq) q (pos s) /\ pos s = q + tlen first.
Proof.
  intros HM Ek. pose proof HM as [M1 M2 M3 M4 M5 M6 M7 M8 M9 Mlow Mbrk M10]. rewrite Ek in M10. destruct (M10 ltac:(discriminate)) as (T1 & [T2 T3] & _).
  split; [|auto]. destruct M9 as (S1 & S2 & S3 & S4). cbn [ss se] in S1, S2. split; [lia|]. split; [auto|]. intros i Hi. rewrite forallb_forall in T3.
  destruct (nth_error src i) as [c|] eqn:E; [|apply nth_error_None in E; lia].
  specialize (T3 c). rewrite beq_eq in T3. f_equal. apply T3. apply (nth_error_In _ (i - q)). rewrite slice_nth by (cbn; lia). cbn. rewrite <- E. f_equal. lia.
Qed.

Lemma ellipses_ok src P lo hi W q first s0 : wfb src -> Mid src P lo hi W q first s0 -> tk first = LSeq Period ->
  forall n x s, Part src P lo hi W q x s0 s -> (x = q \/ wsum (s_events s) + 1 + 4 * (length src - x) <= W) -> pos s0 - x < n ->
  exists s' x', ellipses n s = Ok s' /\ Part src P lo hi W q x' s0 s' /\ (x' = q \/ wsum (s_events s') + 1 + 4 * (length src - x') <= W).
Proof.
  intros Hw HM Ek. pose proof HM as [M1 M2 M3 M4 M5 M6 M7 M8 M9 Mlow Mbrk M10]. destruct (Mid_run _ _ _ _ _ _ _ _ _ HM Ek) as [Hrun Hl].
  induction n as [|n IH]; intros x s HP Hx Hn; [lia|]. cbn [ellipses]. rewrite (part_pos _ _ _ _ _ _ _ _ _ HP). unfold sp_len. cbn [ss se].
  destruct (Nat.leb_spec 3 (pos s0 - x)); [|exists s, x; auto].
  assert (X2 : pos s0 <= length src) by apply M9. pose proof (pt_x _ _ _ _ _ _ _ _ _ HP) as Hpx.
  change (se (s_span (push_sp s (IAtom IEllipsis) (Sp x (x + 3))))) with (se (s_span s)). rewrite (part_pos _ _ _ _ _ _ _ _ _ HP). cbn [se].
  apply (IH (x + 3)); [|right|lia].
  - apply part_push; auto; try lia; [apply (run_span src (seq_char Period) q (pos s0)); auto; lia|].
    exact (run_slice src _ _ _ 3 x Hrun ltac:(lia) ltac:(lia)).
  - pose proof (pt_wt _ _ _ _ _ _ _ _ _ HP). cbn [s_set_span s_set_in s_events push_sp s_set_events]. rewrite wsum_app. cbn [wsum iwt ik]. lia.
Qed.
Lemma dashes_ok src P lo hi W q s0 a w : wfb src -> pos s0 <= length src -> 1 <= w ->
  (forall x y, q <= x <= y -> y <= pos s0 -> span_ok src (Sp x y)) ->
  (forall x, q <= x -> x + w <= pos s0 -> spelled src (atom_event a) (slice src (Sp x (x + w)))) ->
  forall n x s, Part src P lo hi W q x s0 s -> x + n * w <= pos s0 ->
  Part src P lo hi W q (x + n * w) s0 (push_dashes n w a s).
Proof.
  intros Hw Hl Hw1 Hs Hsa. induction n as [|n IH]; intros x s HP Hx; cbn [push_dashes]; [rewrite Nat.add_0_r; auto|].
  rewrite (part_pos _ _ _ _ _ _ _ _ _ HP). cbn [ss se]. change (se (s_span (push_sp s (IAtom a) (Sp x (x + w))))) with (se (s_span s)).
  rewrite (part_pos _ _ _ _ _ _ _ _ _ HP). cbn [se]. pose proof (pt_x _ _ _ _ _ _ _ _ _ HP) as Hpx.
  replace (x + S n * w) with (x + w + n * w) by lia. apply IH; [|lia]. apply part_push; auto; try lia; [apply Hs; lia|apply Hsa; lia].
Qed.

(** [parse_atom], and the text event pushed when nothing else has matched. *)
Lemma atom_ok src P lo hi W q first s : wfb src -> Mid src P lo hi W q first s ->
  exists o s', parse_atom s first = Ok (o, s') /\ ext s s' /\ i_ahead (s_in s') = i_ahead (s_in s) /\
  match o with
  | Some FContinue => Rdy src P lo hi W s' /\ q < pos s'
  | None => Rdy src P lo hi W (push s' IStr) /\ q < pos s'
  | _ => False
  end.
Proof.
  intros Hw HM. pose proof HM as [M1 M2 M3 M4 M5 M6 M7 M8 M9 Mlow Mbrk M10]. unfold parse_atom.
  assert (Hnone : exists o s', Ok (@None flow, s) = Ok (o, s') /\ ext s s' /\ i_ahead (s_in s') = i_ahead (s_in s) /\
    match o with
    | Some FContinue => Rdy src P lo hi W s' /\ q < pos s'
    | None => Rdy src P lo hi W (push s' IStr) /\ q < pos s'
    | _ => False
    end).
  { do 2 eexists. split; [reflexivity|]. split; [apply ext_refl|]. split; [auto|]. split; [eapply Mid_str; eauto|auto]. }
  assert (Hatom : forall a, spelled src (atom_event a) (slice src (Sp q (pos s))) -> exists o s', Ok (Some FContinue, push s (IAtom a)) = Ok (o, s') /\ ext s s' /\ i_ahead (s_in s') = i_ahead (s_in s) /\
    match o with
    | Some FContinue => Rdy src P lo hi W s' /\ q < pos s'
    | None => Rdy src P lo hi W (push s' IStr) /\ q < pos s'
    | _ => False
    end).
  { intros a Hsa. do 2 eexists. split; [reflexivity|]. split; [apply ext_same; reflexivity|]. split; [auto|]. split; [eapply Mid_atom; eauto|auto]. }
  assert (Htx : tk first <> LOpen Bracket -> kind_text (tk first) (slice src (Sp q (pos s))) (lx_rest (i_lex (s_in s)))) by (intros X; apply (M10 X)).
  destruct (tk first) as [| | | | |d|d|y|sq] eqn:Ek;
    [auto | | | | | destruct d; auto|destruct d; auto|destruct y; auto|destruct sq; auto];
    try (apply Hatom; specialize (Htx ltac:(discriminate)); cbn in Htx; cbn [atom_event spelled]; auto; tauto).
  - destruct (Htx ltac:(discriminate)) as (b & Eb & Hb). apply Hatom. exists b. split; [exact Eb|]. rewrite forallb_forall in Hb.
    apply Forall_forall. intros c Hc. specialize (Hb c Hc). unfold is_blank in Hb. rewrite orb_true_iff, !beq_eq in Hb. exact Hb.
  - (* hyphens *)
    destruct (Nat.leb_spec 2 (tlen first)) as [H2|]; [|auto]. destruct (Mid_run _ _ _ _ _ _ _ _ _ HM Ek) as [Hrun Hl].
    assert (Hdc : exists m n, dash_counts (tlen first) = Ok (m, n) /\ 3 * m + 2 * n = tlen first) by (destruct (C21_dash_counts (tlen first) H2) as (m & n & X & Y & _); eauto).
    destruct Hdc as (m & n & -> & Hmn). cbn [bind].
    assert (HS : forall x y, q <= x <= y -> y <= pos s -> span_ok src (Sp x y)) by (intros; apply (run_span src (seq_char Hyphen) q (pos s)); auto).
    assert (Hps : pos s <= length src) by apply M9.
    pose proof (dashes_ok src P lo hi W q s IEmDash 3 Hw Hps ltac:(lia) HS (fun x X1 X2 => run_slice src _ _ _ 3 x Hrun X1 X2) m q s (Mid_part _ _ _ _ _ _ _ _ HM) ltac:(lia)) as P1.
    pose proof (dashes_ok src P lo hi W q s IEnDash 2 Hw Hps ltac:(lia) HS (fun x X1 X2 => run_slice src _ _ _ 2 x Hrun X1 X2) n _ _ P1 ltac:(lia)) as P2.
    replace (q + m * 3 + n * 2) with (pos s) in P2 by lia.
    do 2 eexists. split; [reflexivity|]. destruct P2 as [X1 (X2 & X3 & X4 & X5 & X6) X7 X8 X9 X10] eqn:E2. split; [apply ext_same; auto|].
    split; [rewrite X1; reflexivity|]. split; [eapply part_end; eauto; constructor; auto|]. unfold pos at 1, s_span. rewrite X1. cbn. auto.
  - (* periods *)
    destruct (Mid_run _ _ _ _ _ _ _ _ _ HM Ek) as [Hrun Hl].
    destruct (ellipses_ok src P lo hi W q first s Hw HM Ek (S (sp_len (s_span s))) q s (Mid_part _ _ _ _ _ _ _ _ HM) (or_introl eq_refl)) as (s' & x & -> & HP & Hx).
    { rewrite (Mid_span _ _ _ _ _ _ _ _ HM). unfold sp_len. cbn. lia. }
    cbn [bind]. do 2 eexists. split; [reflexivity|]. pose proof HP as [X1 (X2 & X3 & X4 & X5 & X6) X7 X8 X9 X10].
    split; [apply ext_same; auto|]. split; [rewrite X1; reflexivity|]. split.
    + eapply part_str; eauto.
      * apply (run_span src (seq_char Period) q (pos s)); auto; lia.
      * destruct (Nat.eq_dec x (pos s)); [right|left; lia]. split; [lia|]. apply Hrun. lia.
      * intros ->. destruct Hx; lia.
    + unfold pos, s_span. rewrite X1. cbn. exact M8.
Qed.
