(** * PCov6: attributes in text *)
From Verif Require Import Base Lex Attr Block Inline Doc SpecLex Lib SpecAttr SpecSrc PAttr PAttr3 PAttr4 PSafe PBlock2 PLex PBlock3 PBlock4 PInl1 PInl2 PInl3 PInl4 PInl5 PInl6 PInl7 PropsPunct PInl8 PInl9 PInl10 PMark SpecBlock SpecCover PCov5.
From Verif Require PCov1 PTable.
Local Open Scope nat_scope.

Lemma gitems_nil s a : gitems s a -> a = [] -> Forall (fun c => c = "}"%char \/ is_ws c = true) s.
Proof. induction 1; intros E; try discriminate; [constructor; auto|constructor; auto]. Qed.
Lemma gsets_nil s a : gsets s a -> a = [] -> Forall (fun c => c = "{"%char \/ c = "}"%char \/ is_ws c = true) s.
Proof.
  assert (Hi : forall s a, gitems s a -> a = [] -> Forall (fun c => c = "{"%char \/ c = "}"%char \/ is_ws c = true) s).
  { intros s0 a0 H E. eapply Forall_impl; [|exact (gitems_nil _ _ H E)]. cbn. tauto. }
  induction 1 as [s a H|s a s' a' H H' IH]; intros E.
  - constructor; [auto|eauto].
  - apply app_eq_nil in E. destruct E as [E1 E2]. constructor; [auto|]. apply Forall_app. split; [eauto|auto].
Qed.
(** A byte of the lines is in their text. *)
Lemma text_byte src LL lo hi e m i : Forall (span_ok src) LL -> chain lo LL hi -> m < length LL -> e <= se (nthl LL m) -> inl i LL -> i < e ->
  exists c, nth_error src i = Some c /\ List.In c (text src LL e m).
Proof.
  intros Hs Hc Hm He (l & Hl & H1 & H2) Hi. apply In_nth_error in Hl. destruct Hl as (k & Hk).
  assert (Hkl : k < length LL) by (apply nth_error_Some; congruence). rewrite (nthl_some LL k Hkl) in Hk. injection Hk as Hk.
  rewrite Forall_forall in Hs. assert (Hsl : span_ok src l) by (apply Hs; rewrite <- Hk; eapply nth_error_In; apply nthl_some; auto). destruct Hsl as (L1 & L2 & _).
  destruct (nth_error src i) as [c|] eqn:Ec; [|apply nth_error_None in Ec; lia]. exists c. split; [auto|]. unfold text. apply in_or_app.
  destruct (Nat.lt_trichotomy k m) as [Hlt|[-> |Hgt]].
  - left. apply in_concat. exists (slice src l). split.
    + apply in_map. rewrite <- Hk. eapply nth_error_In with (n := k). rewrite nth_error_firstn by auto. apply nthl_some. auto.
    + eapply nth_error_In with (n := i - ss l). rewrite slice_nth by lia. replace (ss l + (i - ss l)) with i by lia. exact Ec.
  - right. rewrite Hk. eapply nth_error_In with (n := i - ss l). rewrite slice_nth by (cbn [ss se]; lia). cbn [ss]. replace (ss l + (i - ss l)) with i by lia. exact Ec.
  - pose proof (chain_nth_le _ _ _ m k Hc Hgt Hkl). rewrite Hk in *. lia.
Qed.

Ltac ec := repeat progress (rewrite ?ecov_app, ?ecov_cons); cbn [ik isp cnt]; unfold PCov1.inn; cbn [ss se]; intuition (try discriminate; try lia).
(** The element that attributes at [q] belong to. *)
Definition elt (src : bytes) (E : list iev) (q : nat) (ty : elem_type) : Prop :=
  match ty with
  | ElemWord => True
  | ElemContainer p => exists A ph kx sx Z ky sy, E = A ++ IE IPlaceholder (Sp ph ph) :: IE kx sx :: Z ++ [IE ky sy] /\ p = length A /\ span_ok src sx /\
      ss sy <= se sy /\ se sy = q /\ ((kx = IStr /\ ky = IStr) \/ exists c, kx = IEnter c /\ ky = IExit c)
  end.
Lemma elem_elt src nc al ls lo ops E q ty : elem_at src nc al ls lo ops E q ty -> elt src E q ty.
Proof.
  destruct ty as [p|]; [|auto]. intros (A & a & ph & kx & sx & Z & b & ky & sy & Ev & -> & H1 & H2 & H3 & H4 & H5 & H6 & H7 & H8 & H9 & H10).
  exists A, ph, kx, sx, Z, ky, sy. split; [auto|]. split; [auto|]. split; [auto|]. split; [apply H8|]. split; [auto|].
  destruct H10 as [(-> & -> & _)|(c & -> & -> & _)]; eauto.
Qed.
Lemma place_cov src s a ty q e s' : s_span s = Sp q e -> elt src (s_events s) q ty -> q <= e -> place_attrs src s a ty = Ok s' ->
  s_in s' = s_in s /\ esub (s_events s) (s_events s') /\ (forall i, q <= i -> i < e -> ecov (s_events s') i \/ (a = [] /\ ty = ElemWord)).
Proof.
  intros Hsp He Hqe H. unfold place_attrs in H. destruct a as [|x a0].
  - destruct ty as [p|].
    + destruct He as (A & ph & kx & sx & Z & ky & sy & Ev & -> & H5 & H8 & H9 & H10).
      rewrite Ev in *. rewrite usub_yes in H by (rewrite app_length; cbn; lia). cbn [bind] in H.
      replace (A ++ IE IPlaceholder (Sp ph ph) :: IE kx sx :: Z ++ [IE ky sy]) with ((A ++ IE IPlaceholder (Sp ph ph) :: IE kx sx :: Z) ++ IE ky sy :: []) in H
        by (rewrite <- app_assoc; reflexivity).
      rewrite set_end_mid in H by (rewrite app_length; cbn; lia). cbn [bind] in H. rewrite Hsp in H. cbn [se] in H. apply PTable.okp1 in H. subst s'.
      assert (Hk : cnt ky = true) by (destruct H10 as [(_ & ->)|(c & _ & ->)]; reflexivity).
      split; [reflexivity|]. cbn [s_events s_set_events]. split.
      * intros i. rewrite <- app_assoc. cbn [app]. ec.
      * intros i Hi1 Hi2. left. rewrite <- app_assoc. cbn [app]. rewrite !ecov_app, !ecov_cons, ecov_app, ecov_cons. right. right. right. right. left. cbn [ik isp]. split; [exact Hk|].
        split; cbn [ss se]; lia.
    + apply PTable.okp1 in H. subst s'. split; [reflexivity|]. split; [apply esub_refl|auto].
  - destruct ty as [p|].
    + destruct He as (A & ph & kx & sx & Z & ky & sy & Ev & -> & H5 & H8 & H9 & H10).
      change (s_events (s_set_attrs s (s_attrs s ++ [x :: a0]))) with (s_events s) in H.
      change (s_span (s_set_attrs s (s_attrs s ++ [x :: a0]))) with (s_span s) in H.
      rewrite Ev in *. rewrite Hsp in H. rewrite set_mid in H by auto. cbn [bind] in H.
      rewrite usub_yes in H by (rewrite app_length; cbn; lia). cbn [bind] in H.
      match type of H with context [A ++ ?u :: IE kx sx :: Z ++ [IE ky sy]] => set (U := u) in H end.
      replace (A ++ U :: IE kx sx :: Z ++ [IE ky sy]) with ((A ++ [U]) ++ IE kx sx :: Z ++ [IE ky sy]) in H by (rewrite <- app_assoc; reflexivity).
      rewrite get_mid in H by (rewrite app_length; cbn; lia). cbn [bind ik isp] in H.
      destruct H10 as [(-> & ->)|(c & -> & ->)].
      * rewrite span_ok_ssub in H by auto. cbn [bind] in H. destruct (bytes_eqb (slice src sx) (B "![")) eqn:Eb.
        -- replace ((A ++ [U]) ++ IE IStr sx :: Z ++ [IE IStr sy]) with (A ++ (U :: IE IStr sx :: Z ++ [IE IStr sy])) in H by (rewrite <- app_assoc; reflexivity).
           rewrite insert_mid in H by auto. cbn [bind] in H. set (V := IE IStr (Sp (ss sx) (ss sx + 1))) in H.
           replace (A ++ V :: U :: IE IStr sx :: Z ++ [IE IStr sy]) with ((A ++ [V; U]) ++ IE IStr sx :: Z ++ [IE IStr sy]) in H by (rewrite <- app_assoc; reflexivity).
           rewrite set_mid in H by (rewrite app_length; cbn; lia). cbn [bind] in H.
           rewrite set_kind_mid in H by (rewrite app_length; cbn; lia). cbn [bind] in H.
           match type of H with context [(A ++ [V; U]) ++ ?k :: Z ++ [IE IStr sy]] => set (K := k) in H end.
           replace ((A ++ [V; U]) ++ K :: Z ++ [IE IStr sy]) with ((A ++ V :: U :: K :: Z) ++ IE IStr sy :: []) in H by (rewrite <- !app_assoc; reflexivity).
           rewrite set_kind_mid in H. 2: { repeat (rewrite ?app_length; cbn [length]). lia. } cbn [bind] in H.
           rewrite set_end_mid in H. 2: { repeat (rewrite ?app_length; cbn [length]). lia. } cbn [bind] in H.
           apply PTable.okp1 in H. subst s'. split; [reflexivity|]. cbn [s_events s_set_events]. rewrite <- app_assoc. cbn [app]. unfold K, U, V. split.
           ++ intros i. ec.
           ++ intros i Hi1 Hi2. left. ec.
        -- cbn [bind] in H. rewrite set_kind_mid in H by (rewrite app_length; cbn; lia). cbn [bind] in H.
           set (K := IE (IEnter CSpan) sx) in H.
           replace ((A ++ [U]) ++ K :: Z ++ [IE IStr sy]) with ((A ++ U :: K :: Z) ++ IE IStr sy :: []) in H by (rewrite <- !app_assoc; reflexivity).
           rewrite set_kind_mid in H. 2: { repeat (rewrite ?app_length; cbn [length]). lia. } cbn [bind] in H.
           rewrite set_end_mid in H. 2: { repeat (rewrite ?app_length; cbn [length]). lia. } cbn [bind] in H.
           apply PTable.okp1 in H. subst s'. split; [reflexivity|]. cbn [s_events s_set_events]. rewrite <- app_assoc. cbn [app]. unfold K, U. split.
           ++ intros i. ec.
           ++ intros i Hi1 Hi2. left. ec.
      * cbn [bind] in H.
        replace ((A ++ [U]) ++ IE (IEnter c) sx :: Z ++ [IE (IExit c) sy]) with ((A ++ U :: IE (IEnter c) sx :: Z) ++ IE (IExit c) sy :: []) in H by (rewrite <- !app_assoc; reflexivity).
        rewrite set_end_mid in H. 2: { repeat (rewrite ?app_length; cbn [length]). lia. } cbn [bind] in H.
        apply PTable.okp1 in H. subst s'. split; [reflexivity|]. cbn [s_events s_set_events]. rewrite <- app_assoc. cbn [app]. unfold U. split.
        ++ intros i. ec.
        ++ intros i Hi1 Hi2. left. ec.
    + apply PTable.okp1 in H. subst s'. split; [reflexivity|]. unfold push, push_sp. cbn [s_events s_set_events s_set_attrs s_span s_in]. split.
      * intros i Hi. rewrite !ecov_app. auto.
      * intros i Hi1 Hi2. left. rewrite !ecov_app. right. apply ecov_cons. left. split; [reflexivity|]. unfold s_span in Hsp. assert (X : isp (IE IEmpty (s_span (s_set_attrs s (s_attrs s ++ [x :: a0])))) = Sp q e) by exact Hsp. split; cbn [isp]; [change (ss (isp (IE IEmpty (s_span (s_set_attrs s (s_attrs s ++ [x :: a0]))))) <= i)|change (i < se (isp (IE IEmpty (s_span (s_set_attrs s (s_attrs s ++ [x :: a0]))))))]; rewrite X; auto.
Qed.

Lemma advance_cov src : forall m i i', advance_lines src m i = Ok i' -> i_ahead i' = skipn m (i_ahead i) /\ i_line i' = nthl (i_line i :: i_ahead i) m.
Proof.
  induction m as [|m IH]; intros i i' H; cbn [advance_lines] in H.
  - apply PTable.okp1 in H. subst. auto.
  - destruct (i_ahead i) as [|l ls] eqn:E; [discriminate|]. apply bind_ok in H. destruct H as (i1 & E1 & H). unfold set_current_line in E1. apply bind_ok in E1. destruct E1 as (b & _ & E1).
    apply PTable.okp1 in E1. subst i1. destruct (IH _ _ H) as [X Y]. cbn in X, Y. split; [exact X|exact Y].
Qed.
Lemma resume_cov src P hi s st (eaten first : bool) q o s' : wfb src ->
  pos s = q + (if eaten then 1 else 0) -> LexI src P hi (s_in s) -> 
  span_ok src (Sp q (se (i_line (s_in s)))) -> nth_error src q = Some "{"%char -> q < se (i_line (s_in s)) ->
  elt src (s_events s) q (as_elem st) ->
  (if first then as_end st = q /\ as_lines st = 0 /\ as_val st = AStart
   else exists ah l, i_ahead (s_in s) = ah ++ [l] /\
     let LL := Sp q (se (i_line (s_in s))) :: ah in
     acc_at src LL q st /\ nth_error src (as_end st) = Some "{"%char /\ as_lines st <= length ah /\ answer src LL (length ah) 0 None (as_val st)) ->
  resume_attributes src s st eaten first = Ok (o, s') ->
  match o with
  | None => s' = s
  | Some _ => forall i, acq q s i -> passed src i \/ acc s' i
  end.
Proof.
  intros Hw Hpos HL Hso Hbr Hq Hel Hfirst H. unfold resume_attributes in H.
  fold (pos s) in H. rewrite usub_yes in H by (destruct eaten; lia). cbn [bind] in H.
  replace (pos s - (if eaten then 1 else 0)) with q in H by (destruct eaten; lia).
  assert (Hls : se (i_line (s_in s)) <= length src) by apply Hso.
  assert (Hbq : boundary src q = true) by apply Hso.
  rewrite span_ok_ssub in H by (repeat split; cbn; auto; [lia|apply boundary_end]). cbn [bind] in H.
  replace (starts_c (slice src (Sp q (length src))) "{") with true in H.
  2: { symmetry. apply starts_c_nth. rewrite slice_nth by (cbn; lia). cbn. rewrite Nat.add_0_r. exact Hbr. }
  cbn [assert bind] in H.
  set (i := s_in s) in *. set (LL := Sp q (se (i_line i)) :: i_ahead i).
  assert (HsL : Forall (span_ok src) LL).
  { constructor; [auto|]. pose proof (li_lines HL) as X. apply Forall_app in X. apply X. }
  assert (HcP : chain q (LL ++ P) hi).
  { cbn. split; [auto|]. split; [apply Hso|]. apply (li_chain HL). }
  assert (HcL : exists h, chain q LL h) by (apply chain_app in HcP; destruct HcP as (h & X & _); eauto). destruct HcL as [h HcL].
  assert (HeP : eolsx src (LL ++ P)) by (pose proof (li_eols HL) as X; exact X).
  assert (HeL : eolsx src LL).
  { revert HeP. generalize LL. clear. induction LL as [|x l IH]; cbn; [auto|]. intros [H1 H2]. split; [|auto]. destruct H1 as [|H1]; [auto|right].
    apply Forall_app in H1. apply H1. }
  assert (Hinit : exists m ls, (if first then Ok (0, q, se (i_line i))
     else let! last := usub (length (i_ahead i)) 1 "inline.rs:459" in
          let! l := get_at (i_ahead i) last "inline.rs:461" in
          Ok (length (i_ahead i), ss l, se l)) = Ok (m, ls, se (nthl LL m)) /\ m < length LL /\ ls = ss (nthl LL m) /\
      as_lines st <= m /\ acc_at src LL q st /\ live (as_val st) /\ sim (as_val st) (drun (text src LL ls m) AStart)).
  { destruct first.
    - destruct Hfirst as (E1 & E2 & E3). exists 0, q. split; [reflexivity|]. split; [cbn; lia|]. split; [reflexivity|]. split; [lia|].
      split; [left; auto|]. rewrite E3. split; [lv|]. left. unfold text, LL, nthl. cbn [firstn map concat nth ss app]. rewrite slice_nil. reflexivity.
    - destruct Hfirst as (ah & l & E & Hacc & Hob & Hln & Hans). rewrite E, app_length. cbn [length].
      rewrite usub_yes by lia. cbn [bind]. rewrite get_mid by lia. cbn [bind].
      assert (EL : LL = (Sp q (se (i_line i)) :: ah) ++ [l]) by (unfold LL; rewrite E; reflexivity).
      assert (En : nthl LL (length ah + 1) = l).
      { apply nthl_error. rewrite EL. rewrite nth_error_app2 by (cbn; lia). cbn [length]. replace (length ah + 1 - S (length ah)) with 0 by lia. reflexivity. }
      exists (length ah + 1), (ss l). rewrite En. split; [reflexivity|]. split; [rewrite EL, app_length; cbn; lia|].
      assert (span_ok src l) by (rewrite Forall_forall in HsL; apply HsL; rewrite EL; apply in_or_app; right; left; auto).
      split; [reflexivity|]. split; [lia|]. rewrite EL. split; [apply acc_at_app; exact Hacc|].
      cbn [answer] in Hans. destruct Hans as [Hl1 Hl2]. split; [exact Hl1|].
      rewrite <- EL. replace (length ah + 1) with (S (length ah)) by lia.
      rewrite <- En. replace (length ah + 1) with (S (length ah)) by lia.
      rewrite text_next by (rewrite EL, app_length; cbn; lia). rewrite EL. unfold nthl. rewrite app_nth1 by (cbn; lia). rewrite text_app by (cbn; lia). exact Hl2. }
  destruct Hinit as (m & ls & Ei0 & Hm & -> & Hlm & Hacc & Hlv & Hsim). rewrite Ei0 in H. cbn [bind] in H.
  assert (Hsm : span_ok src (nthl LL m)) by (rewrite Forall_forall in HsL; apply HsL; eapply nth_error_In; apply nthl_some; auto).
  rewrite span_eta in H. rewrite span_ok_ssub in H by auto. cbn [bind] in H.
  assert (Hsm1 : ss (nthl LL m) <= se (nthl LL m)) by apply Hsm. assert (Hsm2 : se (nthl LL m) <= length src) by apply Hsm.
  destruct (validator_answer src LL m (ss (nthl LL m)) (as_val st) HsL Hm ltac:(lia) ltac:(lia) Hlv Hsim) as (r0 & v & Ev & Hans).
  rewrite span_eta in Ev. rewrite Ev in H. cbn [bind] in H.
  destruct (attr_scan_ok src q h (i_ahead i) (i_complete i) (Sp q (se (i_line i))) Hw HsL HcL (attr_fuel src (i_ahead i)) r0 m (ss (nthl LL m))
     (AS (as_elem st) (as_end st) (as_lines st) v)) as (out & Eo & Hout); auto; try lia.
  { unfold attr_fuel. lia. }
  { cbn [as_end]. destruct first; [|destruct Hfirst as (? & ? & _ & _ & Hob & _); exact Hob]. destruct Hfirst as (-> & _). exact Hbr. }
  fold LL in Eo, Hout. rewrite Eo in H. cbn [bind] in H. destruct out as [[[m' le'] st']|st'].
  - destruct Hout as (O1 & O2 & O3 & -> & O5 & Olin). cbn [as_elem] in O5. cbn [ss] in O1. destruct (Nat.eqb_spec q (as_end st')) as [Eq|Ne].
    + destruct (okp _ _ _ _ H) as [-> ->]. reflexivity.
    + destruct O1 as [[O1 _]|[O1 O6]]; [congruence|].
      destruct (attr_lines_ok src q LL h (as_end st') (as_lines st') Hw HsL HcL HeL O6) as (a & Ea & Hg).
      change (Sp q (se (i_line i)) :: firstn (as_lines st') (i_ahead i)) with (firstn (S (as_lines st')) LL) in H. rewrite Ea in H. cbn [bind] in H.
      assert (Hm' : m' <= length (i_ahead i)) by (unfold LL in O3; cbn in O3; lia).
      apply bind_ok in H. destruct H as (i' & Ei & H). destruct (advance_cov _ _ _ _ Ei) as (I1 & I2).
      apply bind_ok in H. destruct H as (b & _ & H). apply bind_ok in H. destruct H as (s2 & Ep & H). destruct (okp _ _ _ _ H) as [-> ->]. clear H.
      assert (HsLm : span_ok src (nthl LL m')) by (rewrite Forall_forall in HsL; apply HsL; eapply nth_error_In; apply nthl_some; auto).
      assert (Hse : se (nthl (i_line i :: i_ahead i) m') = se (nthl LL m')) by (unfold LL; destruct m'; reflexivity).
      match type of Ep with place_attrs src ?S a (as_elem st') = _ => set (s1 := S) in Ep end.
      rewrite O5 in Ep.
      destruct (place_cov src s1 a (as_elem st) q (as_end st') s2 eq_refl Hel ltac:(lia) Ep) as (K1 & K2 & K3).
      assert (Hin : forall j, inl j LL -> q <= j -> j < as_end st' -> passed src j \/ acc s2 j).
      { intros j Hj Hj1 Hj2. destruct (K3 j Hj1 Hj2) as [K|[-> _]]; [right; right; right; exact K|left].
        destruct O6 as (Q1 & Q2 & Q3 & Q4). destruct (text_byte src LL q h (as_end st') (as_lines st') j HsL HcL Q1 Q3 Hj Hj2) as (c & Ec & Hc).
        pose proof (gsets_nil _ _ Hg eq_refl) as HF. rewrite Forall_forall in HF. specialize (HF c Hc).
        destruct HF as [-> |[-> |HF]]; [| |left; left; exists c; auto]; right; (split; [auto|]); exists (Sp q (as_end st')); (split; [exact Hj1|]); (split; [exact Hj2|]).
        all: assert (Hle : as_end st' <= length src) by (rewrite Forall_forall in HsL; destruct (HsL (nthl LL (as_lines st'))) as (_ & X & _); [eapply nth_error_In; apply nthl_some; auto|lia]).
        all: split; [split; [cbn; lia|]; split; [exact Hle|]; exists (text src LL (as_end st') (as_lines st')); split; [exact Hg|exact (text_lines src (as_end st') LL (as_lines st') q h HsL HcL HeL Q1 Q2 Q3)]|].
        all: apply braced_at; auto; eapply accepted_last; [split; [exact Q1|split; [exact Q2|split; [exact Q3|exact Q4]]]|exact HsL]. }
      assert (Hp2 : pos s2 = as_end st') by (unfold pos, s_span; rewrite K1; reflexivity).
      assert (Hl2 : se (i_line (s_in s2)) = se (nthl LL m')) by (rewrite K1; cbn; rewrite I2, Hse; reflexivity).
      assert (Ha2 : i_ahead (s_in s2) = skipn m' (i_ahead i)) by (rewrite K1; cbn; exact I1).
      intros j Hj. assert (HjL : inl j LL -> q <= j -> passed src j \/ acc s2 j).
      { intros HL1 Hq1. destruct (Nat.lt_ge_cases j (as_end st')) as [Hlt|Hge]; [auto|]. right. unfold acc, acq. rewrite Hp2, Hl2, Ha2.
        destruct (Nat.lt_ge_cases j (se (nthl LL m'))) as [Hlt2|Hge2]; [auto|left].
        destruct HL1 as (l & Hl & X1 & X2). apply In_nth_error in Hl. destruct Hl as (k & Hk). assert (Hkl : k < length LL) by (apply nth_error_Some; congruence).
        assert (Hkm : m' < k).
        { destruct (Nat.lt_trichotomy m' k) as [Z|[Z|Z]]; [auto| |]; exfalso; rewrite (nthl_some LL k Hkl) in Hk; injection Hk as Hk.
          - subst k. rewrite Hk in Hge2. lia.
          - pose proof (chain_nth_le _ _ _ k m' HcL Z O3) as Y. rewrite Hk in Y. destruct HsLm as (Y1 & _). lia. }
        exists l. split; [|split; auto]. unfold LL in Hk. destruct k as [|k]; [lia|]. cbn [nth_error] in Hk. apply (nth_error_In _ (k - m')). rewrite nth_error_skipn. replace (m' + (k - m')) with k by lia. exact Hk. }
      destruct Hj as [Hj|[[Hj1 Hj2]|Hj]].
      * assert (X : inl j LL) by (destruct Hj as (l & Hl & X); exists l; split; [right; exact Hl|exact X]).
        assert (Hjq : q <= j).
        { destruct X as (l & Hl & X1 & X2). apply In_nth_error in Hl. destruct Hl as (k & Hk). assert (Hkl : k < length LL) by (apply nth_error_Some; congruence).
          rewrite (nthl_some LL k Hkl) in Hk. injection Hk as Hk. destruct k as [|k]; [rewrite <- Hk in X1; exact X1|].
          pose proof (chain_nth_le _ _ _ 0 (S k) HcL ltac:(lia) Hkl) as Y. rewrite Hk in Y. change (se (nthl LL 0)) with (se (i_line i)) in Y. lia. }
        auto.
      * apply HjL; [|exact Hj1]. exists (Sp q (se (i_line i))). split; [left; reflexivity|]. split; auto.
      * right. right. right. apply K2. exact Hj.
  - destruct eaten.
    + apply bind_ok in H. destruct H as (b & _ & H). destruct (okp _ _ _ _ H) as [-> ->]. intros j Hj. right. exact Hj.
    + destruct (okp _ _ _ _ H) as [-> ->]. intros j Hj. right. unfold acc. change (pos (s_set_attr s (Some st'))) with (pos s). rewrite Hpos, Nat.add_0_r. exact Hj.
Qed.

(** Attributes after an element. *)
Lemma ahead_cov src P hi s ty o s' i : wfb src -> LexI src P hi (s_in s) -> elt src (s_events s) (pos s) ty ->
  (let (t, s) := s_peek s in if peek_is_open t Brace then or_continue (ahead_attributes src s ty false) else Ok (Some FContinue, s)) = Ok (o, s') ->
  acc s i -> passed src i \/ acc s' i.
Proof.
  intros Hw HL Hel H Ha. unfold s_peek in H. destruct (in_peek_ok src P hi _ Hw HL) as (t & i1 & Ep & HL1 & (Q1 & Q2 & Q3) & Hsp & Hn & Ht & Hr). rewrite Ep in H.
  assert (Ha1 : acc (s_set_in s i1) i) by (eapply acc_in; [exact Ha|exact Q2|exact Q1|unfold pos, s_span; cbn; rewrite Hsp; reflexivity|reflexivity]).
  destruct (peek_is_open t Brace) eqn:Et; [|destruct (okp _ _ _ _ H) as [_ ->]; auto].
  apply peek_open_inv in Et. destruct Et as [n ->]. destruct Ht as (T1 & T2 & T3 & T4). cbn [tk tlen kind_text open_text] in *. destruct T4 as [T4 _]. rewrite <- Hr in T2, T4.
  pose proof (f_equal (@length _) T4) as T5. rewrite firstn_length, Nat.min_l in T5 by auto. change (length (B "{")) with 1 in T5. subst n.
  unfold or_continue, ahead_attributes in H. change (s_span (s_set_in s i1)) with (i_span i1) in H. rewrite Hsp, usub_yes in H by lia. cbn [bind] in H.
  rewrite Nat.sub_0_r in H. change (se (i_span (s_in s))) with (pos s) in *.
  pose proof (LexI_len _ _ _ _ HL1) as Hlen. rewrite Hsp in Hlen. change (se (i_span (s_in s))) with (pos s) in Hlen.
  assert (Hsl : span_ok src (Sp (pos s) (se (i_line i1)))) by (pose proof (li_span HL1) as X; rewrite Hsp in X; exact X).
  assert (Hbr : nth_error src (pos s) = Some "{"%char).
  { assert (X : nth_error (lx_rest (i_lex i1)) 0 = Some "{"%char).
    { destruct (lx_rest (i_lex i1)) as [|c r]; [cbn in T2; lia|]. cbn in T4. injection T4 as ->. reflexivity. }
    destruct (rest_boundary src P hi i1 0 "{"%char Hw HL1 X eq_refl) as (_ & Y & _). rewrite Hsp, Nat.add_0_r in Y. exact Y. }
  apply bind_ok in H. destruct H as ([o1 s1] & Er & H). destruct (okp _ _ _ _ H) as [_ ->]. clear H.
  pose proof (resume_cov src P hi (s_set_in s i1) (AS ty (pos s) 0 AStart) false true (pos s) o1 s1 Hw) as R.
  assert (X : match o1 with None => s1 = s_set_in s i1 | Some _ => forall i, acq (pos s) (s_set_in s i1) i -> passed src i \/ acc s1 i end).
  { apply R; auto.
    - unfold pos, s_span. cbn. rewrite Hsp. lia.
    - change (s_in (s_set_in s i1)) with i1. lia. }
  destruct o1; [|subst s1; auto]. apply X.
  assert (Hp : pos (s_set_in s i1) = pos s) by (unfold pos, s_span; cbn; rewrite Hsp; reflexivity). unfold acc in Ha1. rewrite Hp in Ha1. exact Ha1.
Qed.
