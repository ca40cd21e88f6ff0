(** * PInl9: inline containers *)
From Verif Require Import Base Lex Attr Block Inline Doc SpecLex Lib SpecAttr SpecSrc PAttr PAttr3 PAttr4 PSafe PBlock2 PLex PBlock3 PBlock4 PInl1 PInl2 PInl3 PInl4 PInl5 PInl6 PInl7 PInl8 PTree8.
Local Open Scope nat_scope.

Lemma open_text_ok k op : opener_of k = Some op ->
  (k = LOpen Bracket /\ op = OpSpan SpGeneral) \/ (k <> LOpen Bracket /\ forall t r, kind_text k t r -> op_text op t).
Proof.
  destruct k as [| | | | |d|d|y|sq]; try discriminate; [destruct d|destruct y]; try discriminate; intros E; cbn in E; injection E as <-;
    [..|left; auto| | | | | | | | |]; right; (split; [discriminate|]); cbn [kind_text op_text open_text sym_text]; intros t r H; try destruct H as [H _]; auto.
Qed.
Lemma cont_text_ok src nc op c k x y r0 : delim_kind_of op = DKContainer c -> op_text op x -> closed_by op k = true -> kind_text k y r0 ->
  k <> LOpen Bracket /\ opens_with (pub nc c) x /\ (forall t, icloser src nc c t y) /\ iattr c = true /\ c <> CSpan.
Proof.
  intros Ed Ho Hc Hk. destruct op as [t|b|b|b|b| | | | | |]; try discriminate Ed; cbn in Ed; injection Ed as <-; try destruct b;
    destruct k as [| | | | |d|d|z|sq]; try discriminate Hc; try (destruct d; try discriminate Hc); try (destruct z; try discriminate Hc);
    cbn [kind_text sym_text close_text] in Hk; subst y; cbn [op_text] in Ho; subst x; cbn [opens_with pub];
    (split; [discriminate|split; [auto|split; [intros t; split; [cbn; auto|exact I]|split; [reflexivity|discriminate]]]]).
Qed.
Lemma quote_text_ok src op qt k x y r0 : delim_kind_of op = DKQuote qt -> op_text op x -> closed_by op k = true -> kind_text k y r0 ->
  spelled src (atom_event (IQuote qt true)) x /\ spelled src (atom_event (IQuote qt false)) y.
Proof.
  intros Ed Ho Hc Hk. destruct op as [t|b|b|b|b| | | | | |]; try discriminate Ed; cbn in Ed; injection Ed as <-;
    destruct k as [| | | | |d|d|z|sq]; try discriminate Hc; try (destruct d; try discriminate Hc); try (destruct z; try discriminate Hc);
    cbn [kind_text sym_text close_text] in Hk; subst y; cbn [op_text] in Ho; cbn [atom_event spelled]; auto.
Qed.

Lemma open_ok src P lo hi W q first s : wfb src -> Mid src P lo hi W q first s ->
  exists r, try_open src s first = Ok r /\ Post src P lo hi W q first s r.
Proof.
  intros Hw HM. pose proof HM as [M1 M2 M3 M4 M5 M6 M7 M8 M9 Mlow Mbrk M10]. unfold try_open.
  destruct (opener_of (tk first)) as [op|] eqn:Eo; [|apply Post_none; auto]. rewrite (lex_ahead_ok _ (li_wf M1)). cbn [bind].
  destruct (bidirectional op && _)%bool; [apply Post_none; auto|]. rewrite M4.
  assert (Hps : pos s <= length src) by apply M9.
  assert (Hws : exists b, (if Nat.ltb 0 q then let! c := get_at src (q - 1) "inline.rs:868" in Ok (is_ws c) else Ok false) = Ok b).
  { destruct (Nat.ltb_spec 0 q); [|eauto]. destruct (nth_error src (q - 1)) as [c|] eqn:E; [|apply nth_error_None in E; lia].
    rewrite (get_at_yes _ _ _ c) by auto. cbn [bind]. eauto. }
  destruct Hws as [wsb ->]. cbn [bind]. destruct (_ && negb wsb)%bool; [apply Post_none; auto|].
  eexists. split; [reflexivity|]. split; [apply ext_same; reflexivity|]. split; [cbn; auto|]. split; [|exact M8]. left.
  set (k := match op with OpSingleQuoted => _ | _ => _ end). 
  match goal with |- Rdy _ _ _ _ _ (push ?S k) => set (s1 := S) end.
  pose proof (Mid_span _ _ _ _ _ _ _ _ HM) as Esp.
  assert (E : push s1 k = s_set_openers (s_set_events s (s_events s ++ [IE IPlaceholder (Sp q q); IE k (Sp q (pos s))])) (s_openers s ++ [(op, length (s_events s))])).
  { unfold push, push_sp, s1. cbn [s_events s_set_events push_sp s_set_openers s_openers]. rewrite <- app_assoc. cbn [app]. change (s_span _) with (s_span s). rewrite Esp. reflexivity. }
  rewrite E. clearbody s1. clear E s1.
  assert (Hop : op_text op (slice src (Sp q (pos s)))).
  { destruct (open_text_ok (tk first) op Eo) as [X|X]; [destruct X as [X ->]; exact (Mbrk X)|]. destruct X as [X1 X2]. apply (X2 _ (lx_rest (i_lex (s_in s)))). apply (M10 X1). }
  assert (Hk : soa src k (slice src (Sp q (pos s)))).
  { unfold k, soa. destruct op; auto; right; eexists; (split; [reflexivity|]); cbn [op_text] in Hop; cbn [atom_event spelled]; destruct Hop; auto. }
  assert (Hq : span_ok src (Sp q q)) by (eapply span_point; eauto).
  constructor; auto.
  - unfold evz. change (pos _) with (pos s). cbn [s_set_openers s_set_events s_cow s_attrs s_openers s_events]. eapply zip_open; [exact M5|].
    apply h_plain; cbn [ss se]; auto.
    + destruct op; try reflexivity. destruct (tk first) as [| | | | |[]|d|[]|sq]; discriminate.
    + intros t ->. reflexivity.
  - cbn [s_set_openers s_set_events s_events]. apply (lastok_cons2 src (s_events s) (IE IPlaceholder (Sp q q)) []). intros _. left. cbn. auto.
  - cbn [s_set_openers s_set_events s_events]. change (pos _) with (pos s). rewrite wsum_app. cbn [wsum].
    assert (Hi : iwt (IE k (Sp q (pos s))) <= 1 + (pos s - q)) by (destruct Hk as [-> |[x [-> _]]]; cbn; unfold sp_len; cbn; lia).
    change (iwt (IE IPlaceholder (Sp q q))) with 1. lia.
Qed.

Lemma in_skipn {A} n (l : list A) x : List.In x (skipn n l) -> List.In x l.
Proof. intros H. rewrite <- (firstn_skipn n l). apply in_or_app. auto. Qed.
Lemma in_firstn {A} n (l : list A) x : List.In x (firstn n l) -> List.In x l.
Proof. intros H. rewrite <- (firstn_skipn n l). apply in_or_app. auto. Qed.
Lemma text_tag_ok src : forall evs sp spec, Forall (fun e => span_ok src (isp e)) evs -> span_ok src sp ->
  text_tag src evs sp spec = Ok (spec ++ slice src sp ++ itexts src evs).
Proof.
  induction evs as [|e evs IH]; intros sp spec Hs Hsp; cbn [text_tag].
  - rewrite span_ok_ssub by auto. cbn [bind itexts flat_map]. rewrite app_nil_r. reflexivity.
  - inv Hs. assert (Hc : (if Nat.eqb (se sp) (ss (isp e)) then text_tag src evs (Sp (ss sp) (se (isp e))) spec
       else let! t := ssub src sp "inline.rs:779" in text_tag src evs (isp e) (spec ++ t)) = Ok (spec ++ slice src sp ++ slice src (isp e) ++ itexts src evs)).
    { destruct (Nat.eqb_spec (se sp) (ss (isp e))) as [E|].
      - rewrite IH; auto.
        + do 2 apply f_equal. rewrite (app_assoc (slice src sp)). f_equal. rewrite (slice_join src sp (ss (isp e)) (se (isp e)) E) by (first [apply H1|apply Hsp]). rewrite span_eta. reflexivity.
        + eapply span_join; [rewrite <- (span_eta sp) in Hsp; exact Hsp|]. rewrite E, span_eta. auto.
      - rewrite span_ok_ssub by auto. cbn [bind]. rewrite IH by auto. rewrite <- app_assoc. reflexivity. }
    unfold itexts. cbn [flat_map]. unfold itext at 1. fold (itexts src evs).
    destruct (ik e) as [c|c|a| | |c i|]; auto. destruct a; cbn [atext app]; auto.
    + rewrite span_ok_ssub by auto. cbn [bind]. rewrite IH; auto; [|eapply span_point_r; rewrite span_eta; eauto]. rewrite slice_nil, <- !app_assoc. reflexivity.
    + rewrite span_ok_ssub by auto. cbn [bind]. rewrite IH; auto; [|eapply span_point_r; rewrite span_eta; eauto]. rewrite slice_nil, <- !app_assoc. reflexivity.
Qed.
Lemma multi_spec_ok src inl : forall evs sp acc, Forall (fun e => span_ok src (isp e)) evs -> span_ok src sp -> exists r, multi_spec src inl evs sp acc = Ok r.
Proof.
  induction evs as [|e evs IH]; intros sp acc Hs Hsp; cbn [multi_spec].
  - rewrite span_ok_ssub by auto. cbn. eauto.
  - inv Hs. destruct (Nat.eqb_spec (se sp) (ss (isp e))) as [E|].
    + apply IH; auto. eapply span_join; [rewrite <- (span_eta sp) in Hsp; exact Hsp|]. rewrite E, span_eta. auto.
    + rewrite span_ok_ssub by auto. cbn [bind]. apply IH; auto.
Qed.

Lemma close_link_ok src P lo hi W q first s es im il e : wfb src -> Mid src P lo hi W q first s -> closed_by (OpLink es im il) (tk first) = true ->
  forall A a p s0 T t s1 s2 b body ops,
  s_events s = A ++ (IE IPlaceholder (Sp p p) :: IE IStr s0 :: T ++ [IE IStr s1; IE IStr s2]) ++ body ->
  es = length A + 1 -> e = length A + length T + 3 -> zip src (s_cow s) (s_attrs s) (lstart s) lo ops A a ->
  a <= p -> span_ok src (Sp p p) -> p <= ss s0 -> span_ok src s0 -> bal src (s_cow s) (s_attrs s) (se s0) T t ->
  t <= ss s1 -> span_ok src s1 -> se s1 <= ss s2 -> span_ok src s2 -> se s2 <= b -> bal src (s_cow s) (s_attrs s) b body q ->
  op_text (OpSpan (if im then SpImage else SpGeneral)) (slice src s0) -> slice src s1 = B "]" -> slice src s2 = (if il then B "(" else B "[") ->
  se s1 = ss s2 -> (lstart s <= ss s2 \/ (exists q, ss s2 <= q < lstart s /\ nth_error src q = Some NL) \/ two_sets src) ->
  exists spec c, close_link src (s_set_openers s ops) es im il e =
    Ok (s_set_events (s_set_cow (s_set_openers s ops) (s_cow s ++ [spec]))
         (A ++ IE IPlaceholder (Sp p p) :: IE (IEnter c) s0 :: T ++ [IE (IExit c) (Sp (ss s1) (pos s))])) /\
    cidx c (s_cow s ++ [spec]) /\ texty_cont c = false /\ pos s = q + 1 /\ opens_with (pub (s_cow s ++ [spec]) c) (slice src s0) /\
    icloser src (s_cow s ++ [spec]) c (itexts src T) (slice src (Sp (ss s1) (pos s))) /\ iattr c = true /\ c <> CSpan.
Proof.
  intros Hw HM Hcl A a p s0 T t s1 s2 b body ops Ev -> -> HA H1 H2 H3 H4 HT H5 H6 H7 H8 H9 Hbody K1 K2 K3 K4 K5.
  pose proof HM as [M1 M2 M3 M4 M5 M6 M7 M8 M9 Mlow Mbrk M10].
  assert (Hp0 : pos s = q + 1 /\ slice src (Sp q (q + 1)) = if il then B ")" else B "]").
  { assert (X : exists d, tk first = LClose d /\ (d = Bracket \/ d = Paren)).
    { destruct il; destruct (tk first) as [| | | | |d|d|y|sq]; try discriminate; destruct d; try discriminate; eauto. }
    destruct X as (d & X & Hd).
    destruct (Mid_one _ _ _ _ _ _ _ _ (match d with Paren => ")" | _ => "]" end)%char HM) as (E1 & _ & E3); [congruence| |].
    { intros ? ?. rewrite X. cbn. destruct Hd as [-> | ->]; auto. }
    split; [exact E1|]. rewrite Nat.add_1_r, (slice_one _ _ _ E3). rewrite X in Hcl. destruct il, Hd as [-> | ->]; try discriminate Hcl; reflexivity. }
  destruct Hp0 as [Hp Hcch].
  unfold close_link. cbv zeta. change (s_events (s_set_openers s ops)) with (s_events s). change (s_cow (s_set_openers s ops)) with (s_cow s).
  change (s_span (s_set_openers s ops)) with (s_span s). rewrite M4.
  set (X1 := A ++ IE IPlaceholder (Sp p p) :: IE IStr s0 :: T ++ [IE IStr s1]).
  assert (Ev1 : s_events s = X1 ++ IE IStr s2 :: body) by (rewrite Ev; unfold X1; rewrite <- !app_assoc; cbn; rewrite <- !app_assoc; reflexivity).
  assert (LX1 : length X1 = length A + length T + 3) by (unfold X1; rewrite app_length; cbn; rewrite app_length; cbn; lia).
  assert (Eg : get_at (s_events s) (length A + length T + 3) "inline.rs:755" = Ok (IE IStr s2)) by (rewrite Ev1; apply get_mid; lia).
  rewrite Eg. cbn [bind isp].
  pose proof (bal_le _ _ _ _ _ _ Hbody) as Hble. pose proof (bal_spans _ _ _ _ _ _ Hbody) as Hbs.
  assert (Hspec : exists spec, (if sp_empty (Sp (se s2) q) && negb il then
       let! n := usub (length A + length T + 3) (length A + 1) "inline.rs:764" in
       let! n := usub n 2 "inline.rs:764" in
       text_tag src (firstn n (skipn (length A + 1 + 1) (s_events s))) (Sp 0 0) []
     else if Nat.ltb (ss s2) (ss (i_line (s_in (s_set_openers s ops)))) then
       multi_spec src il (skipn (length A + length T + 3 + 1) (s_events s)) (Sp (se s2) (se s2)) ([], true)
     else ssub src (Sp (se s2) q) "inline.rs:815") = Ok spec /\
     ((sp_empty (Sp (se s2) q) && negb il)%bool = false -> spec = slice src (Sp (se s2) q) \/ List.In NL (slice src (Sp (se s2) q)) \/ two_sets src) /\
     ((sp_empty (Sp (se s2) q) && negb il)%bool = true -> spec = itexts src T)).
  { assert (Htag : text_tag src (firstn (length A + length T + 3 - (length A + 1) - 2) (skipn (length A + 1 + 1) (s_events s))) (Sp 0 0) [] = Ok (itexts src T)).
    { replace (firstn _ _) with T.
      2: { rewrite Ev, skipn_app, skipn_all2 by lia. replace (length A + 1 + 1 - length A) with 2 by lia. cbn [app skipn].
           replace (length A + length T + 3 - (length A + 1) - 2) with (length T) by lia. rewrite <- app_assoc, firstn_app, firstn_all, Nat.sub_diag. symmetry. apply app_nil_r. }
      rewrite text_tag_ok; [rewrite slice_nil; reflexivity|eapply bal_spans; exact HT|]. destruct Hw as [Hw0 _]. repeat split; cbn; auto; lia. }
    assert (Hm : forall x, (exists spec, x = Ok spec) -> ((sp_empty (Sp (se s2) q) && negb il)%bool = false -> exists y, x = Ok y /\ (y = slice src (Sp (se s2) q) \/ List.In NL (slice src (Sp (se s2) q)) \/ two_sets src)) ->
      ((sp_empty (Sp (se s2) q) && negb il)%bool = true -> x = Ok (itexts src T)) ->
      exists spec : bytes, x = Ok spec /\ ((sp_empty (Sp (se s2) q) && negb il)%bool = false -> spec = slice src (Sp (se s2) q) \/ List.In NL (slice src (Sp (se s2) q)) \/ two_sets src) /\
        ((sp_empty (Sp (se s2) q) && negb il)%bool = true -> spec = itexts src T)).
    { intros x [y Ey] Hx Hy. exists y. split; [exact Ey|]. split; intros Hil; [destruct (Hx Hil) as (z & Ez & Hz)|pose proof (Hy Hil) as Ez]; rewrite Ey in Ez; injection Ez as ->; auto. }
    apply Hm; clear Hm.
    2: { intros Hem. rewrite Hem. destruct (Nat.ltb_spec (ss s2) (ss (i_line (s_in (s_set_openers s ops))))) as [Hlt|Hge].
      - assert (Hall : Forall (fun e => span_ok src (isp e)) (s_events s)) by (eapply bal_spans, zip_bal, M5).
        destruct (multi_spec_ok src il (skipn (length A + length T + 3 + 1) (s_events s)) (Sp (se s2) (se s2)) ([], true)) as (y & Ey).
        { rewrite Forall_forall in *. intros x Hx. apply Hall. eapply in_skipn; eauto. }
        { eapply span_point_r; rewrite span_eta; eauto. }
        exists y. split; [exact Ey|]. right. change (i_line (s_in (s_set_openers s ops))) with (i_line (s_in s)) in Hlt.
        destruct Mlow as [Ml|Ml]; [|right; exact Ml].
        assert (Hls : lstart s = ss (i_line (s_in s))).
        { unfold lstart, sp_empty. pose proof (li_span M1) as (Xl & _). cbn in Xl. change (se (i_span (s_in s))) with (pos s) in Xl.
          replace (Nat.ltb (ss (i_line (s_in s))) (se (i_line (s_in s)))) with true; [reflexivity|]. symmetry. apply Nat.ltb_lt. lia. }
        rewrite Hls in K5. destruct K5 as [K5|[(x & Kx & Knl)|K5]]; [lia| |right; exact K5]. left.
        assert (Hx2 : ss s2 + 1 = se s2).
        { pose proof (span_ok_len _ _ H8) as Y. rewrite K3 in Y. destruct il; cbn in Y; destruct H8 as (Y1 & _). all: lia. }
        assert (Hne : x <> ss s2).
        { intros ->. pose proof (f_equal (fun l => nth_error l 0) K3) as N. cbn beta in N. rewrite slice_nth in N by lia. rewrite Nat.add_0_r, Knl in N. destruct il; discriminate N. }
        apply (nth_error_In _ (x - se s2)). rewrite slice_nth by (cbn; lia). cbn [ss]. replace (se s2 + (x - se s2)) with x by lia. exact Knl.
      - eexists. split; [apply span_ok_ssub|auto]. destruct H8 as (Y1 & Y2 & Y3 & Y4), M9 as (Z1 & Z2 & Z3 & Z4). cbn in *. repeat split; cbn; auto; lia. }
    2: { intros Hem. rewrite Hem. rewrite usub_yes by lia. cbn [bind]. rewrite usub_yes by lia. cbn [bind]. exact Htag. }
     destruct (_ && negb il)%bool.
    - rewrite usub_yes by lia. cbn [bind]. rewrite usub_yes by lia. cbn [bind]. eexists. apply Htag.
    - destruct (Nat.ltb _ _).
      + apply multi_spec_ok; [|eapply span_point_r; rewrite span_eta; eauto].
        assert (Hall : Forall (fun e => span_ok src (isp e)) (s_events s)) by (eapply bal_spans, zip_bal, M5).
        rewrite Forall_forall in *. intros x Hx. apply Hall. eapply in_skipn; eauto.
      + rewrite span_ok_ssub; [eauto|]. destruct H8 as (Y1 & Y2 & Y3 & Y4), M9 as (Z1 & Z2 & Z3 & Z4). cbn in *. repeat split; cbn; auto; lia. }
  destruct Hspec as (spec & Es & Hdest & Hcoll). cbn [ss se]. match goal with |- context [bind ?X _] => replace X with (Ok spec) end. cbn [bind].
  set (c := if im then if il then CInlineImage (length (s_cow s)) else CReferenceImage (length (s_cow s)) else if il then CInlineLink (length (s_cow s)) else CReferenceLink (length (s_cow s))).
  exists spec, c. split; [|split; [|split; [unfold c; destruct im, il; reflexivity|split; [auto|split; [|split; [|split; unfold c; destruct im, il; first [reflexivity|discriminate]]]]]]].
  2: { unfold c. destruct im, il; cbn; rewrite app_length; cbn; lia. }
  2: { unfold c. destruct im, il; cbn [pub opens_with]; cbn [op_text] in K1; exact K1. }
  2: { rewrite Hp.
       assert (Et : slice src (Sp (ss s1) (q + 1)) = (if il then B "](" ++ slice src (Sp (se s2) q) ++ B ")" else B "][" ++ slice src (Sp (se s2) q) ++ B "]")).
       { rewrite <- (slice_app src (ss s1) (se s1) (q + 1)) by (destruct H6 as (Y1 & _), H8 as (Y2 & _); lia).
         rewrite <- (slice_app src (se s1) (se s2) (q + 1)) by (destruct H8 as (Y2 & _); lia).
         rewrite <- (slice_app src (se s2) q (q + 1)) by lia. rewrite Hcch, span_eta, K2. rewrite K4 at 1. rewrite span_eta, K3. destruct il; reflexivity. }
       rewrite Et. destruct il.
       - specialize (Hdest (andb_false_r _)).
         unfold c. destruct im; (split; [|exact I]); cbn [pub closer]; rewrite app_nth2, Nat.sub_diag by auto; (eexists; split; [reflexivity|exact Hdest]).
       - set (m0 := slice src (Sp (se s2) q)) in *.
         assert (Hd : (m0 = [] -> spec = itexts src T) /\ (m0 <> [] -> spec = m0 \/ List.In NL m0 \/ two_sets src)).
         { rewrite andb_true_r in Hdest, Hcoll. destruct (sp_empty (Sp (se s2) q)) eqn:Em.
           - split; [auto|]. intros Hne. exfalso. apply Hne. unfold m0. unfold sp_empty in Em. cbn [ss se] in Em. apply negb_true_iff, Nat.ltb_ge in Em. replace q with (se s2) by lia. apply slice_nil.
           - split; [|auto]. intros Hne. exfalso. unfold sp_empty in Em. cbn [ss se] in Em. apply negb_false_iff, Nat.ltb_lt in Em.
             assert (Y := slice_length src (Sp (se s2) q)). fold m0 in Y. cbn [ss se] in Y. rewrite Hne in Y. destruct M9 as (_ & Z & _). cbn in Z, Y. rewrite Hp in Z. specialize (Y ltac:(lia)). lia. }
         assert (Hl : forall m, B "][" ++ m0 ++ B "]" = B "][" ++ m ++ B "]" -> (m = [] -> spec = itexts src T) /\ (m <> [] -> spec = m \/ List.In NL m \/ two_sets src)).
         { intros m Em. apply app_inv_head, app_inv_tail in Em. rewrite <- Em. exact Hd. }
         unfold c. destruct im; (split; [eexists; reflexivity|]); cbn [ilabel]; rewrite app_nth2, Nat.sub_diag by auto; exact Hl. }
  rewrite Ev.
  change (A ++ (IE IPlaceholder (Sp p p) :: IE IStr s0 :: T ++ [IE IStr s1; IE IStr s2]) ++ body) with (A ++ [IE IPlaceholder (Sp p p)] ++ IE IStr s0 :: (T ++ [IE IStr s1; IE IStr s2]) ++ body).
  rewrite app_assoc, set_kind_mid by (rewrite app_length; cbn; lia). cbn [bind]. rewrite usub_yes by lia. cbn [bind].
  set (X2 := A ++ IE IPlaceholder (Sp p p) :: IE (IEnter c) s0 :: T).
  assert (E2 : (A ++ [IE IPlaceholder (Sp p p)]) ++ IE (IEnter c) s0 :: (T ++ [IE IStr s1; IE IStr s2]) ++ body = X2 ++ IE IStr s1 :: IE IStr s2 :: body)
    by (unfold X2; rewrite <- !app_assoc; cbn; rewrite <- ?app_assoc; cbn; rewrite <- ?app_assoc; reflexivity).
  assert (LX2 : length X2 = length A + length T + 2) by (unfold X2; rewrite app_length; cbn; lia).
  rewrite E2. rewrite get_mid by lia. cbn [bind isp]. rewrite set_mid by lia. cbn [bind]. f_equal.
  change (Sp (ss s1) (q + 1)) with (Sp (ss s1) (q + 1)). rewrite Hp.
  replace (firstn _ _) with (X2 ++ [IE (IExit c) (Sp (ss s1) (q + 1))]).
  2: { change (X2 ++ IE (IExit c) (Sp (ss s1) (q + 1)) :: IE IStr s2 :: body) with (X2 ++ [IE (IExit c) (Sp (ss s1) (q + 1))] ++ IE IStr s2 :: body).
       rewrite app_assoc, firstn_app, firstn_all2 by (rewrite app_length; cbn; lia). rewrite app_length. cbn [length].
       replace (length A + length T + 3 - (length X2 + 1)) with 0 by lia. cbn. rewrite app_nil_r. reflexivity. }
  unfold X2. rewrite <- app_assoc. reflexivity.
Qed.

Lemma Fin_Post src P lo hi W q first s0 s s' r : Fin src P lo hi W (pos s) s r -> ext s0 s' -> s_cow s = s_cow s' -> s_attrs s = s_attrs s' ->
  length (i_ahead (s_in s)) <= length (i_ahead (s_in s0)) -> q < pos s -> Post src P lo hi W q first s0 r.
Proof.
  destruct r as [o s2]. intros (H1 & H2 & H3) He E1 E2 Ha Hq. split; [|split; [lia|]].
  - eapply ext_trans; [exact He|]. destruct H1 as [X Y]. rewrite E1 in X. rewrite E2 in Y. split; auto.
  - destruct o as [[]|]; try contradiction; auto. destruct H3. split; [left; auto|lia].
Qed.

Lemma close_ok src P lo hi W q first s o : wfb src -> Mid src P lo hi W q first s ->
  (exists op e, nth_error (s_openers s) o = Some (op, e) /\ closed_by op (tk first) = true) ->
  exists r, try_close src s o = Ok r /\ Post src P lo hi W q first s r.
Proof.
  intros Hw HM (op & e & Ho & Hcl). pose proof HM as [M1 M2 M3 M4 M5 M6 M7 M8 M9 Mlow Mbrk M10]. unfold try_close.
  rewrite (get_at_yes _ _ _ (op, e)) by auto. cbn [bind].
  destruct (zip_split _ _ _ _ _ _ _ _ M5 _ _ _ Ho) as (A & a & H & b & body & Ev & HA & Hh & Hb).
  pose proof (Mid_span _ _ _ _ _ _ _ _ HM) as Esp. assert (Hps : pos s <= length src) by apply M9.
  clear M4. inversion Hh as [op0 n0 a0 p k sp b0 I1 I2 I3 I4 It I5 I6 I7 I8 J1 J2 J3 J4 J5 J6|im il es0 e0 n0 a0 p s0 T t s1 s2 b0 I1 I2 I3 I4 I5 I6 I7 I8 I9 I10 I11 I12 K1 K2 K3 K4 K5 J1 J2 J3 J4 J5 J6]; subst.
  - (* not a link *)
    set (n := length A) in *.
    replace (match op with OpLink es _ _ => _ | _ => Ok (n, n + 1) end) with (Ok (n, n + 1) : res (nat * nat)) by (destruct op; auto; discriminate).
    cbn [bind]. rewrite usub_yes by (rewrite Ev, !app_length; cbn; lia). cbn [bind].
    destruct (Nat.eqb _ _ && _)%bool; [apply Post_none; auto|]. destruct (bidirectional op && _)%bool; [apply Post_none; auto|].
    set (s1 := s_set_openers s (firstn o (s_openers s))).
    assert (Hbb : bal src (s_cow s) (s_attrs s) (se sp) body q) by (eapply bal_weaken; eauto).
    (* setting the kind of the opener and pushing the closer *)
    assert (Hset : forall k' k2, set_kind (s_events s1) (n + 1) k' "inline.rs:724" = Ok (A ++ IE IPlaceholder (Sp p p) :: IE k' sp :: body) /\
       set_kind (s_events s1) (n + 1) k' "inline.rs:728" = Ok (A ++ IE IPlaceholder (Sp p p) :: IE k' sp :: body) /\
       push (s_set_events s1 (A ++ IE IPlaceholder (Sp p p) :: IE k' sp :: body)) k2 =
         s_set_events s1 (A ++ IE IPlaceholder (Sp p p) :: IE k' sp :: body ++ [IE k2 (Sp q (pos s))])).
    { intros k' k2. change (s_events s1) with (s_events s). rewrite Ev.
      change (A ++ [IE IPlaceholder (Sp p p); IE k sp] ++ body) with (A ++ [IE IPlaceholder (Sp p p)] ++ IE k sp :: body).
      rewrite app_assoc, !set_kind_mid by (rewrite app_length; cbn; unfold n; lia). rewrite <- app_assoc. split; [reflexivity|]. split; [reflexivity|].
      unfold push, push_sp. change (s_span (s_set_events s1 _)) with (s_span s). rewrite Esp. cbn [s_set_events s_events]. rewrite <- app_assoc. reflexivity. }
    assert (HR : forall k' k2, bal src (s_cow s) (s_attrs s) p (IE k' sp :: body ++ [IE k2 (Sp q (pos s))]) (pos s) -> 
       iwt (IE k' sp) <= iwt (IE k sp) -> iwt (IE k2 (Sp q (pos s))) <= 1 + (pos s - q) ->
       Rdy src P lo hi W (s_set_events s1 (A ++ IE IPlaceholder (Sp p p) :: IE k' sp :: body ++ [IE k2 (Sp q (pos s))]))).
    { intros k' k2 Hbk Hw1 Hw2. constructor; auto.
      - unfold evz. cbn [s_set_events s_events s_cow s_attrs s_openers s_set_openers]. change (pos _) with (pos s). eapply zip_app; [exact HA|].
        apply (bal_app _ _ _ _ [_] p); [apply bal_ph; cbn; auto|exact Hbk].
      - cbn [s_set_events s_events]. apply (lastok_cons2 src A (IE IPlaceholder (Sp p p)) (IE k' sp :: body)). intros _. left. cbn. auto.
      - cbn [s_set_events s_events]. change (pos _) with (pos s). rewrite Ev in M7. rewrite !wsum_app in *. cbn [wsum] in *. rewrite wsum_app in *. cbn [wsum] in *. lia. }
    assert (Hq : q < pos s) by exact M8.
    assert (Hext : forall evs, ext s (s_set_events s1 evs)) by (intros; apply ext_same; reflexivity).
    assert (Hkt : tk first <> LOpen Bracket -> kind_text (tk first) (slice src (Sp q (pos s))) (lx_rest (i_lex (s_in s)))) by (intros X; apply (M10 X)).
    destruct (delim_kind_of op) as [c|ty|qt|es im il] eqn:Ed.
    + (* container *)
      destruct (Hset (IEnter c) (IExit c)) as (-> & _ & E3). cbn [bind]. rewrite E3. clear Hset E3.
      assert (Hc : cidx c (s_cow s) /\ texty_cont c = false) by (destruct op; inversion Ed; subst; cbn; auto). destruct Hc as [Hc1 Hc2].
      assert (Hnb : tk first <> LOpen Bracket) by (intros X; rewrite X in Hcl; destruct op; try discriminate Ed; try discriminate Hcl; destruct d; discriminate Hcl).
      destruct (cont_text_ok src (s_cow s) op c _ _ _ _ Ed It Hcl (Hkt Hnb)) as (_ & Ho1 & Hc3 & Hc5 & Hc6).
      assert (Hc4 : iends src (s_cow s) c [] (itexts src body) (Sp q (pos s))) by (apply iends_none; auto using iauto_attr; cbn; lia).
      set (s2 := s_set_events s1 _).
      assert (Rd : Rdy src P lo hi W s2).
      { apply HR; cbn [iwt ik isp]; try lia. 2: { destruct I4 as [-> |[x [-> _]]]; cbn; lia. } eapply bal_cont; eauto. rewrite vopen_open by exact Hc2. exact Hc4. }
      replace (match op with OpDoubleQuoted | OpSingleQuoted => ElemWord | _ => ElemContainer n end) with (ElemContainer n) by (destruct op; auto; discriminate).
      destruct (ahead_cont src P lo hi W s2 (ElemContainer n) Hw Rd) as (r & Er & Hr).
      { exists A, a, p, (IEnter c), sp, body, q, (IExit c), (Sp q (pos s)). split; [reflexivity|]. split; [reflexivity|]. split; [exact HA|].
        do 4 (split; [auto|]). split; [exact Hbb|]. cbn [ss se]. split; [auto|]. split; [auto|]. split; [reflexivity|]. right. exists c. auto 10. }
      rewrite Er. exists r. split; [reflexivity|]. eapply (Fin_Post src P lo hi W q first s s2 s); auto using ext_refl.
    + (* span *)
      assert (Hcb : tk first = LClose Bracket) by (destruct op; inversion Ed; subst; destruct (tk first) as [| | | | |d|d|y|sq]; try discriminate Hcl; destruct d; try discriminate Hcl; reflexivity).
      assert (Hbr : slice src (Sp q (pos s)) = B "]") by (assert (X := Hkt); rewrite Hcb in X; apply X; discriminate).
      assert (Hty : op = OpSpan ty) by (destruct op; inversion Ed; reflexivity).
      assert (Ek : k = IStr) by (destruct op; inversion Ed; subst; eapply I8; eauto). subst k.
      assert (Evs : s_events s = A ++ IE IPlaceholder (Sp p p) :: IE IStr sp :: body) by (rewrite Ev; reflexivity).
      destruct (Hset IStr IStr) as (_ & _ & E3). rewrite <- Evs in E3. clear Hset.
      assert (E4 : forall i, push (s_set_in s1 i) IStr = s_set_in (s_set_events s1 (A ++ IE IPlaceholder (Sp p p) :: IE IStr sp :: body ++ [IE IStr (i_span i)])) i).
      { intros i. unfold push, push_sp. cbn [s_set_in s_events s_set_events s1 s_set_openers]. rewrite Evs, <- app_assoc. reflexivity. }
      set (s2 := s_set_events s1 (A ++ IE IPlaceholder (Sp p p) :: IE IStr sp :: body ++ [IE IStr (Sp q (pos s))])).
      assert (Rd : Rdy src P lo hi W s2).
      { apply HR; cbn; unfold sp_len; cbn; try lia. apply (bal_app _ _ _ _ [_] (se sp)); [apply bal_str; auto|]. eapply bal_app; [exact Hbb|]. apply bal_str; cbn; auto. }
      unfold s_peek at 1. destruct (in_peek_ok src P hi _ Hw M1) as (tt & i1 & Ep & HL1 & Hsame & Hsp & Hn & Ht & Hr).
      change (s_in s1) with (s_in s). rewrite Ep.
      assert (Hsp1 : i_span i1 = Sp q (pos s)) by (rewrite Hsp; exact Esp).
      destruct Hsame as (Q1 & Q2 & Q3).
      (* no destination *)
      assert (Hfin : exists r, (let (t0, s3) := s_peek (push (s_set_in s1 i1) IStr) in
          if peek_is_open t0 Brace then or_continue (ahead_attributes src s3 match op with OpDoubleQuoted | OpSingleQuoted => ElemWord | _ => ElemContainer n end false)
          else Ok (Some FContinue, s3)) = Ok r /\ Post src P lo hi W q first s r).
      { rewrite E4, Hsp1. fold s2.
        replace (match op with OpDoubleQuoted | OpSingleQuoted => ElemWord | _ => ElemContainer n end) with (ElemContainer n) by (destruct op; auto; discriminate).
        assert (Rd1 : Rdy src P lo hi W (s_set_in s2 i1)).
        { assert (Hp1 : pos (s_set_in s2 i1) = pos s2) by (unfold pos, s_span; cbn; rewrite Hsp1; reflexivity). destruct Rd as [R1 R2 R3 R4 R5 R6]. constructor; auto.
          - rewrite Hp1. unfold evz in *. replace (lstart (s_set_in s2 i1)) with (lstart s2); [exact R4|]. unfold lstart. change (i_line (s_in (s_set_in s2 i1))) with (i_line i1). rewrite Q1. reflexivity.
          - rewrite Hp1. exact R6. }
        destruct (ahead_cont src P lo hi W (s_set_in s2 i1) (ElemContainer n) Hw Rd1) as (r & Er & Hr1).
        { exists A, a, p, IStr, sp, body, q, IStr, (Sp q (pos s)). split; [reflexivity|]. split; [reflexivity|].
          split; [replace (lstart (s_set_in s2 i1)) with (lstart s); [exact HA|]; unfold lstart; change (i_line (s_in (s_set_in s2 i1))) with (i_line i1); rewrite Q1; reflexivity|].
          do 4 (split; [auto|]). split; [exact Hbb|]. cbn [ss se]. split; [auto|]. split; [auto|]. split; [unfold pos, s_span; cbn; rewrite Hsp1; reflexivity|]. left. rewrite Hty in It. eauto 6. }
        rewrite Er. exists r. split; [reflexivity|]. eapply (Fin_Post src P lo hi W q first s (s_set_in s2 i1) s); auto using ext_refl.
        - cbn. rewrite Q2. auto.
        - unfold pos, s_span. cbn. rewrite Hsp1. exact M8. }
      destruct tt as [[kk nn]|]; [|exact Hfin].
      assert (Hlink : forall im il : bool, im = match ty with SpImage => true | SpGeneral => false end -> kk = LOpen (if il then Paren else Bracket) -> exists r, (let s3 := push (s_set_in s1 i1) IStr in
          let s3 := s_set_openers s3 (s_openers s3 ++ [(OpLink (n + 1) im il, length (s_events s3))]) in
          let s3 := s_set_in s3 (in_reset_span (s_in s3)) in
          let! (_, i) := in_eat (s_in s3) in
          Ok (Some FContinue, push (s_set_in s3 i) IStr)) = Ok r /\ Post src P lo hi W q first s r).
      { intros im il Him Hkk. rewrite E4, Hsp1. fold s2. cbv zeta. 
        match goal with |- context [in_eat ?I] => change I with (in_reset_span i1) end.
        destruct (in_eat_ok src P hi (in_reset_span i1) Hw (LexI_reset_span _ _ _ _ HL1)) as (oo & i2 & Eeat & HL2 & (Y1 & Y2 & Y3) & Ho2). rewrite Eeat. cbn [bind].
        change (se (i_span (in_reset_span i1))) with (se (i_span i1)) in Ho2. change (ss (i_span (in_reset_span i1))) with (se (i_span i1)) in Ho2. rewrite Hsp1 in Ho2. cbn [se] in Ho2.
        destruct oo as [t2|].
        2: { exfalso. destruct Ho2 as (Z1 & _). destruct Ht as (Z2 & Z3 & _). rewrite <- Hr in Z3. rewrite (LexI_len _ _ _ _ HL1), Hsp1 in Z3. cbn [se] in Z3.
             change (i_line (in_reset_span i1)) with (i_line i1) in Z1. lia. }
        assert (Et2 : t2 = Tok kk nn).
        { pose proof Eeat as X. unfold in_eat, lex_next in X. change (i_lex (in_reset_span i1)) with (i_lex i1) in X. rewrite Hn in X. cbn [bind] in X. injection X as <-. reflexivity. }
        destruct Ho2 as (Z1 & Z2 & Z3 & Z4 & Z5 & _).
        assert (Hs2 : slice src (Sp (pos s) (pos s + tlen t2)) = if il then B "(" else B "[").
        { revert Z5. rewrite Et2. cbn [tk tlen]. rewrite Hkk. destruct il; cbn [kind_text open_text]; intros Z5; apply Z5. }
        eexists. split; [reflexivity|]. split; [apply ext_same; reflexivity|]. split; [cbn; rewrite Y2; cbn; rewrite Q2; auto|].
        set (s4 := s_set_in (s_set_in _ _) i2).
        assert (E5 : push s4 IStr = s_set_events s4 (A ++ (IE IPlaceholder (Sp p p) :: IE IStr sp :: body ++ [IE IStr (Sp q (pos s)); IE IStr (Sp (pos s) (pos s + tlen t2))]))).
        { unfold push, push_sp. change (s_span s4) with (i_span i2). rewrite Z1. unfold s4. cbn [s_set_in s_events s_set_events s2 s_set_openers s1].
          rewrite <- app_assoc. cbn [app]. rewrite <- app_assoc. reflexivity. }
        assert (Hp4 : pos s4 = pos s + tlen t2) by (unfold pos at 1, s_span; cbn; rewrite Z1; reflexivity).
        rewrite E5. change (pos (s_set_events s4 _)) with (pos s4). split; [|lia]. left. constructor; auto.
        - unfold evz. change (pos (s_set_events s4 _)) with (pos s4). rewrite Hp4. unfold s4. cbn [s_set_in s_events s_set_events s2 s_set_openers s1 s_openers s_cow s_attrs].
          assert (Hls : lstart (s_set_events s4 (A ++ IE IPlaceholder (Sp p p) :: IE IStr sp :: body ++ [IE IStr (Sp q (pos s)); IE IStr (Sp (pos s) (pos s + tlen t2))])) = lstart s).
          { unfold lstart. change (i_line (s_in (s_set_events s4 _))) with (i_line i2). rewrite Y1. change (i_line (in_reset_span i1)) with (i_line i1). rewrite Q1. reflexivity. }
          match goal with |- zip _ _ _ ?L _ _ _ _ => change L with (lstart (s_set_events s4 (A ++ IE IPlaceholder (Sp p p) :: IE IStr sp :: body ++ [IE IStr (Sp q (pos s)); IE IStr (Sp (pos s) (pos s + tlen t2))]))) end.
          rewrite Hls. eapply zip_open; [exact HA|]. eapply h_link; cbn [ss se]; eauto.
          + rewrite app_length. cbn. rewrite app_length. cbn. fold n. lia.
          + rewrite Him, Hty in *. destruct ty; exact It.
          + destruct Mlow as [X|X]; [left|auto]. unfold lstart. destruct (sp_empty _); lia.
        - cbn [s_set_events s_events].
          match goal with |- lastok _ ?L => replace L with (A ++ IE IPlaceholder (Sp p p) :: (IE IStr sp :: body ++ [IE IStr (Sp q (pos s))]) ++ [IE IStr (Sp (pos s) (pos s + tlen t2))]) by (cbn; rewrite <- app_assoc; reflexivity) end.
          apply lastok_cons2. intros _. left. cbn. lia.
        - change (pos (s_set_events s4 _)) with (pos s4). rewrite Hp4. cbn [s_set_events s_events]. destruct Z4 as (_ & Z4 & _). cbn [se] in Z4.
          rewrite Evs in M7. rewrite !wsum_app in *. cbn [wsum iwt ik isp] in *. rewrite wsum_app. cbn [wsum iwt ik isp]. unfold sp_len. cbn [ss se]. unfold sp_len in M7. lia. }
      destruct kk as [| | | | |d|d|y|sq]; try exact Hfin. destruct d; try exact Hfin.
      * apply Hlink; reflexivity.
      * apply Hlink; reflexivity.
    + (* quote *)
      destruct (Hset (IAtom (IQuote qt true)) (IAtom (IQuote qt false))) as (_ & -> & E3). cbn [bind]. rewrite E3. clear Hset E3.
      assert (Hnb : tk first <> LOpen Bracket) by (intros X; rewrite X in Hcl; destruct op; try discriminate Ed; discriminate Hcl).
      destruct (quote_text_ok src op qt _ _ _ _ Ed It Hcl (Hkt Hnb)) as (Ho1 & Hc3).
      set (s2 := s_set_events s1 _).
      assert (Rd : Rdy src P lo hi W s2).
      { apply HR; cbn [iwt ik isp]; try lia. 2: { destruct I4 as [-> |[x [-> _]]]; cbn; lia. } apply (bal_app _ _ _ _ [_] (se sp)); [apply bal_atom; auto|]. eapply bal_app; [exact Hbb|]. apply bal_atom; cbn; auto. }
      replace (match op with OpDoubleQuoted | OpSingleQuoted => ElemWord | _ => ElemContainer n end) with ElemWord by (destruct op; auto; discriminate).
      destruct (ahead_cont src P lo hi W s2 ElemWord Hw Rd I) as (r & Er & Hr).
      rewrite Er. exists r. split; [reflexivity|]. eapply (Fin_Post src P lo hi W q first s s2 s); auto using ext_refl.
    + destruct op; discriminate.
  - (* link *)
    rewrite usub_yes by lia. cbn [bind]. rewrite usub_yes by (rewrite Ev, !app_length; cbn; rewrite app_length; cbn; lia). cbn [bind].
    rewrite andb_false_r. cbn [bidirectional andb delim_kind_of].
    destruct (close_link_ok src P lo hi W q first s (length A + 1) im il (length A + length T + 3) Hw HM Hcl A a p s0 T t s1 s2 b body (firstn o (s_openers s)))
      as (spec & c & -> & Hc1 & Hc2 & Hp1 & Ho1 & Hc3 & Hc5 & Hc6); auto.
    cbn [bind]. set (s3 := s_set_events _ _).
    assert (HA' : zip src (s_cow s3) (s_attrs s3) (lstart s3) lo (s_openers s3) A a).
    { pose proof (zip_mono src _ _ [spec] [] _ _ _ _ _ HA) as X. rewrite app_nil_r in X. exact X. }
    assert (HT' : bal src (s_cow s3) (s_attrs s3) (se s0) T t).
    { pose proof (bal_mono src _ _ [spec] [] _ _ _ I7) as X. rewrite app_nil_r in X. exact X. }
    pose proof (bal_le _ _ _ _ _ _ Hb) as Hble.
    assert (Hsx : span_ok src (Sp (ss s1) (pos s))).
    { destruct I9 as (Y1 & Y2 & Y3 & Y4), M9 as (Z1 & Z2 & Z3 & Z4), I11 as (L1 & L2 & L3 & L4). cbn [ss se] in *. repeat split; cbn; auto; lia. }
    assert (Hel : elem_at src (s_cow s3) (s_attrs s3) (lstart s3) lo (s_openers s3) (s_events s3) (pos s3) (ElemContainer (length A + 1 - 1))).
    { exists A, a, p, (IEnter c), s0, T, t, (IExit c), (Sp (ss s1) (pos s)). split; [reflexivity|]. split; [lia|]. split; [exact HA'|].
      do 4 (split; [auto|]). split; [exact HT'|]. cbn [ss se]. split; [auto|]. split; [auto|]. split; [reflexivity|]. right. exists c. rewrite vopen_open by exact Hc2. auto 10. }
    assert (Rd : Rdy src P lo hi W s3).
    { constructor; auto.
      - unfold evz. eapply elem_bal, Hel.
      - unfold s3. cbn [s_set_events s_events]. apply (lastok_cons2 src A (IE IPlaceholder (Sp p p)) (IE (IEnter c) s0 :: T)). discriminate.
      - unfold s3. cbn [s_set_events s_events]. change (pos _) with (pos s). rewrite Ev in M7. rewrite !wsum_app in *. cbn [wsum iwt ik isp] in *. rewrite wsum_app in *. cbn [wsum iwt ik isp] in *. unfold sp_len in M7. lia. }
    destruct (ahead_cont src P lo hi W s3 (ElemContainer (length A + 1 - 1)) Hw Rd Hel) as (r & Er & Hr).
    rewrite Er. exists r. split; [reflexivity|]. eapply (Fin_Post src P lo hi W q first s s3 s3); auto.
    split; [exists [spec]; reflexivity|exists []; rewrite app_nil_r; reflexivity].
Qed.

Lemma container_ok src P lo hi W q first s : wfb src -> Mid src P lo hi W q first s ->
  exists r, iparse_container src s first = Ok r /\ Post src P lo hi W q first s r.
Proof.
  intros Hw HM. unfold iparse_container. destruct (rposition _ (s_openers s)) as [o|] eqn:Eo; [|apply open_ok; auto].
  apply rposition_some in Eo. destruct Eo as [([op e] & Eo & Hcl) _]. cbn in Hcl.
  destruct (close_ok src P lo hi W q first s o Hw HM) as ([f s'] & -> & Hp); eauto. cbn [bind].
  destruct f as [f|]; [eexists; split; [reflexivity|]; exact Hp|]. destruct Hp as (E1 & E2 & HM').
  destruct (open_ok src P lo hi W q first s' Hw HM') as ([f2 s2] & -> & X1 & X2 & X3). eexists. split; [reflexivity|].
  split; [eapply ext_trans; eauto|]. split; [lia|exact X3].
Qed.
