(** * PCan9: links and images *)
From Verif Require Import Base Lex Attr Inline Block Doc Lib PSafe PCan1 PCan2 PCan3 PCan4 PCan5 PCan6 PCan7 PCan8.
From Verif Require Import SpecCanon.
Local Open Scope nat_scope.

(** ** The lexer in a link destination *)
Lemma count_par f t r : f ")"%char = false -> count_while f (t ++ ")"%char :: r) <= length t.
Proof. intros H. induction t as [|c t IH]; cbn; [rewrite H; lia|]. destruct (f c); cbn; lia. Qed.
Lemma hyphen_par t r : hyphen_run (t ++ ")"%char :: r) <= length t.
Proof. induction t as [|c t IH]; cbn [app hyphen_run length]; [cbn; lia|]. destruct (_ && _); lia. Qed.
Definition dkind (k : lkind) : bool := match k with LText | LSeq Period | LSeq Hyphen | LSym Colon => true | _ => false end.
Lemma dest_hd (f : ascii -> bool) t r : f ")"%char = false -> (forall c, dest_byte c = true -> f c = false) -> forallb dest_byte t = true ->
  hd_is f (t ++ ")"%char :: r) = false.
Proof. intros H1 H2 H3. destruct t as [|c t]; [exact H1|]. cbn in *. apply andb_prop in H3 as [H3 _]. auto. Qed.
Lemma special_d c t r : is_special c = true -> dest_byte c = true -> forallb dest_byte t = true -> exists k n,
  special_token false c (t ++ ")"%char :: r) = (Tok k n, false) /\ 1 <= n <= S (length t) /\ dkind k = true.
Proof.
  intros Hs Hd Ht. pose proof (hyphen_par t r) as Hh. pose proof (count_par (fun c => beq c ".") t r eq_refl) as Hp.
  assert (H1 : hd_is (fun c => beq c "}") (t ++ ")"%char :: r) = false).
  { apply dest_hd; auto. clear. intros c. destruct c as [[][][][][][][][]]; intros H; try discriminate H; reflexivity. }
  assert (H2 : hd_is (fun c => beq c "[") (t ++ ")"%char :: r) = false).
  { apply dest_hd; auto. clear. intros c. destruct c as [[][][][][][][][]]; intros H; try discriminate H; reflexivity. }
  unfold special_token, maybe_close. rewrite H1, H2. clear H1 H2.
  destruct c as [[][][][][][][][]]; try discriminate Hs; try discriminate Hd;
    (eexists _, _; split; [reflexivity|split; [lia|reflexivity]]).
Qed.
Lemma dscan t r : forallb dest_byte t = true -> t <> [] -> exists k n,
  scan false false (t ++ ")"%char :: r) = (Some (Tok k n), false) /\ 1 <= n <= length t /\ dkind k = true.
Proof.
  intros Hb Hne. destruct t as [|c t]; [congruence|]. cbn [forallb] in Hb. apply andb_prop in Hb as [Hc Ht]. clear Hne.
  cbn [app length].
  destruct (is_special c) eqn:Es.
  - rewrite scan_special by exact Es.
    destruct (special_d c t r Es Hc Ht) as (k & n & E & A1 & A2). exists k, n. rewrite E. auto.
  - rewrite scan_plain by (cbn; rewrite Es; reflexivity).
    eexists _, _. split; [reflexivity|]. split; [|reflexivity]. cbn [count_while]. rewrite Es. cbn [negb].
    pose proof (count_par (fun c => negb (is_special c)) t r eq_refl). lia.
Qed.
Lemma dlex l t r : forallb dest_byte t = true -> t <> [] -> LV false l (t ++ ")"%char :: r) ->
  pc (fun x => exists k n, fst x = Some (Tok k n) /\ 1 <= n <= length t /\ dkind k = true /\ LV false (snd x) (skipn n t ++ ")"%char :: r)
       /\ (k = LText \/ LX false false (snd x) (skipn n t ++ ")"%char :: r))) (lex_next l).
Proof.
  intros Hb Hne HV. destruct (dscan t r Hb Hne) as (k & n & E & Hn & Hk).
  assert (Hsk : forall n, n <= length t -> skipn n (t ++ ")"%char :: r) = skipn n t ++ ")"%char :: r).
  { intros m Hm. rewrite skipn_app. replace (m - length t) with 0 by lia. reflexivity. }
  destruct (is_text (Some (Tok k n))) eqn:Et.
  2:{ destruct (lex_special _ _ _ _ _ HV E Et) as (l' & A & B). rewrite A. apply pc_ok. exists k, n.
      cbn [tlen] in B. rewrite Hsk in B by lia. repeat split; auto; try lia. left. exact B. }
  destruct k; try discriminate Et. destruct HV as [HV|HV].
  - pose proof HV as (H1 & _). unfold lex_next. rewrite H1. unfold next_token. rewrite (LX_token _ _ _ _ HV _ _ E).
    pose proof (LX_after _ _ _ _ _ _ HV E) as H2. cbn [tlen] in *.
    eapply pc_bind; [eapply (text_run_is false (fun k r' => k <= length t /\ r' = skipn k t ++ ")"%char :: r)) with (k := n)|].
    + intros j r0 n0 e0 [A ->] B'. destruct (skipn j t) as [|c t'] eqn:Ej.
      * cbn [app] in B'. rewrite scan_special in B' by reflexivity. cbn in B'. discriminate B'.
      * assert (Hb' : forallb dest_byte (c :: t') = true).
        { rewrite <- Ej. rewrite forallb_forall in *. intros x Hx. apply Hb. rewrite <- (firstn_skipn j t). apply in_or_app. right. exact Hx. }
        destruct (dscan (c :: t') r Hb' ltac:(discriminate)) as (k1 & n1 & E1 & Hn1 & _). rewrite E1 in B'.
        apply (f_equal fst) in B' as B1. apply (f_equal snd) in B' as B2. cbn [fst snd] in *. split; [|auto].
        assert (n1 = n0) as <- by congruence.
        assert (length t = j + length (c :: t')) as Hl by (rewrite <- Ej, skipn_length; lia).
        split; [lia|]. rewrite <- skipn_skipn, Ej. rewrite (skipn_app n1). replace (n1 - length (c :: t')) with 0 by lia. reflexivity.
    + exact H2.
    + split; [lia|]. rewrite Hsk by lia. reflexivity.
    + intros [t1 l'] (k' & r' & A1 & A2 & [A3 A3'] & A4 & A5 & A6). cbn [fst snd] in *. subst t1. apply pc_ok. cbn [fst snd].
      exists LText, (n + (k' - n)). replace (n + (k' - n)) with k' by lia. rewrite A3' in A6. repeat split; auto; try lia.
  - destruct HV as (t1 & H1 & H2 & H3 & H4 & H5 & H6 & H7). rewrite E in H2.
    assert (t1 = Tok LText n) as -> by congruence. assert (lx_esc l = false) as He by congruence.
    unfold lex_next. rewrite H1. apply pc_ok. cbn [fst snd]. exists LText, n. split; [reflexivity|]. split; [lia|]. split; [reflexivity|].
    split; [|left; reflexivity]. left. rewrite <- Hsk by lia. repeat split; cbn in *; auto.
Qed.

Lemma firstn_mid {A} (l r : list A) x k : k = length l + 1 -> firstn k (l ++ x :: r) = l ++ [x].
Proof.
  intros ->. rewrite firstn_app. replace (length l + 1 - length l) with 1 by lia. rewrite firstn_all2 by lia. reflexivity.
Qed.

Section Canon.
Variables (src : bytes) (pp : prepass).
Notation St := (PCan3.St src). Notation From := (PCan3.From src pp). Notation FromB := (PCan4.FromB src pp). Notation Out := (PCan2.Out src pp).
Notation cat := (PCan3.cat src). Notation lns := (PCan3.lns src). Notation here := (PCan3.here src).
Notation Den := (PCan2.Den src pp). Notation ev1 := (PCan2.ev1 src pp).

(** What a token of a destination does: events are appended. *)
Lemma dest_step t r k n lx cpl line a b O E cow : forallb dest_byte t = true -> dkind k = true -> a + n = b ->
  (k = LText \/ LX false false lx (t ++ ")"%char :: r)) -> LV false lx (t ++ ")"%char :: r) ->
  pc (fun y => fst y = FContinue /\ exists l' m X a', m <= length t /\ LV false l' (skipn m t ++ ")"%char :: r)
        /\ snd y = IS (In l' cpl line [] (Sp a' (b + m))) O (E ++ X) None None cow [])
     (result (handle src (IS (In lx cpl line [] (Sp a b)) O E None None cow []) (Tok k n))).
Proof.
  intros Ht Hk Hab HX HV.
  assert (Hstr : forall a E, fst (FContinue, push (IS (In lx cpl line [] (Sp a b)) O E None None cow []) IStr) = FContinue /\ exists l' m X a', m <= length t /\ LV false l' (skipn m t ++ ")"%char :: r)
        /\ snd (FContinue, push (IS (In lx cpl line [] (Sp a b)) O E None None cow []) IStr) = IS (In l' cpl line [] (Sp a' (b + m))) O (E ++ X) None None cow []).
  { intros a0 E1. split; [reflexivity|]. exists lx, 0, [IE IStr (Sp a0 b)], a0. rewrite Nat.add_0_r. repeat split; auto. lia. }
  destruct k as [| | | | | | |s|s]; try discriminate Hk.
  - unfold result. rewrite handle_atom by (auto; noclose). cbn [parse_atom tk bind]. apply pc_ok. apply Hstr.
  - destruct s; try discriminate Hk. destruct HX as [HX|HX]; [discriminate HX|].
    unfold result, handle, parse_verbatim, parse_attributes, parse_autolink, parse_symbol, or_else.
    cbn [s_verb s_attr is_none assert bind tk s_in i_lex]. rewrite (lex_ahead_is false lx _ HV). cbn [bind].
    unfold scan_until. set (len := count_while _ _).
    destruct (stopped_at (nth_error (t ++ ")"%char :: r) len) ":" && forallb is_symbol_char (firstn len (t ++ ")"%char :: r))) eqn:Ec.
    + apply andb_prop in Ec as [Ec1 Ec2].
      assert (Hlen : len < length t).
      { destruct (Nat.lt_trichotomy len (length t)) as [K|[K|K]]; [exact K| |].
        - rewrite K, nth_error_app2, Nat.sub_diag in Ec1 by lia. discriminate Ec1.
        - exfalso. rewrite firstn_app, forallb_app in Ec2. apply andb_prop in Ec2 as [_ Ec2].
          destruct (len - length t) as [|j] eqn:Ej; [lia|]. cbn in Ec2. discriminate Ec2. }
      eapply pc_bind with (P := fun y => exists l' sy, LX false false l' (skipn (len + 1) t ++ ")"%char :: r) /\ y = (Some FContinue, IS (In l' cpl line [] (Sp a (b + len + 1))) O (E ++ [IE (IAtom (ISymbol sy)) (Sp a (b + len + 1))]) None None cow [])).
      { eapply pc_bind with (P := fun y => exists l' sy, LX false false l' (skipn (len + 1) t ++ ")"%char :: r) /\ y = (Some FContinue, IS (In l' cpl line [] (Sp a (b + len + 1))) O (E ++ [IE (IAtom (ISymbol sy)) (Sp a (b + len + 1))]) None None cow []));
          [|intros y (l' & sy & A & ->); cbn [bind]; apply pc_ok; eauto].
        eapply pc_bind with (P := fun y => exists l' sy, LX false false l' (skipn (len + 1) t ++ ")"%char :: r) /\ y = (Some FContinue, IS (In l' cpl line [] (Sp a (b + len + 1))) O (E ++ [IE (IAtom (ISymbol sy)) (Sp a (b + len + 1))]) None None cow []));
          [|intros y (l' & sy & A & ->); cbn [bind]; apply pc_ok; eauto].
        eapply pc_bind with (P := fun y => exists l' sy, LX false false l' (skipn (len + 1) t ++ ")"%char :: r) /\ y = (Some FContinue, IS (In l' cpl line [] (Sp a (b + len + 1))) O (E ++ [IE (IAtom (ISymbol sy)) (Sp a (b + len + 1))]) None None cow []));
          [|intros y (l' & sy & A & ->); cbn [bind]; apply pc_ok; eauto].
        eapply pc_bind; [apply (lex_skip_is false false lx _ (len + 1) HX)|]. intros l' HX'.
        rewrite skipn_app in HX'. replace (len + 1 - length t) with 0 in HX' by lia. cbn [skipn] in HX'.
        eapply pc_bind_eq. intros sy _. apply pc_ok. exists l', sy. split; [exact HX'|]. reflexivity. }
      intros y (l' & sy & A & ->). apply pc_ok. split; [reflexivity|]. exists l', (len + 1), [IE (IAtom (ISymbol sy)) (Sp a (b + len + 1))], a. split; [lia|].
      split; [left; exact A|]. cbn [snd]. rewrite Nat.add_assoc. reflexivity.
    + unfold parse_footnote_reference, iparse_container, try_open. cbn [bind tk s_openers].
      rewrite rpos_none by noclose. cbn [opener_of bind parse_atom tk]. apply pc_ok. apply Hstr.
  - destruct s; try discriminate Hk.
    + unfold result. rewrite handle_atom by (auto; noclose). cbn [parse_atom tk tlen].
      destruct (Nat.leb 2 n); [|cbn [bind]; apply pc_ok; apply Hstr].
      eapply pc_bind with (P := fun y => exists new a', y = (Some FContinue, IS (In lx cpl line [] (Sp a' b)) O (E ++ new) None None cow [])).
      { eapply pc_bind_eq. intros [m j] _. apply pc_ok.
        destruct (push_dashes_is src pp 3 IEmDash m eq_refl lx cpl line a b O E cow) as (n1 & x1 & -> & _).
        destruct (push_dashes_is src pp 2 IEnDash j eq_refl lx cpl line x1 b O (E ++ n1) cow) as (n2 & x2 & -> & _).
        rewrite <- app_assoc. eauto. }
      intros y (new & a' & ->). apply pc_ok. split; [reflexivity|]. exists lx, 0, new, a'. rewrite Nat.add_0_r. repeat split; auto. lia.
    + unfold result. rewrite handle_atom by (auto; noclose). cbn [parse_atom tk].
      eapply pc_bind with (P := fun y => exists new a', y = (None, IS (In lx cpl line [] (Sp a' b)) O (E ++ new) None None cow [])).
      { eapply pc_bind; [apply (ellipses_is src pp); lia|]. intros s' (new & -> & _). apply pc_ok. eauto. }
      intros y (new & a' & ->). apply pc_ok. destruct (Hstr a' (E ++ new)) as (A1 & l' & m & X & a2 & A2 & A3 & A4).
      split; [reflexivity|]. exists l', m, (new ++ X), a2. rewrite app_assoc. auto.
Qed.

Definition lcont (img : bool) (d : bytes) : container := if img then Image d LInline else Link d (LSpan LInline).
Definition licont (img : bool) (i : nat) : icont := if img then CInlineImage i else CInlineLink i.
Definition lopen (img : bool) : bytes := if img then B "![" else B "[".
Definition lop (img : bool) : opener := OpSpan (if img then SpImage else SpGeneral).

Lemma lic img cow d w : ic pp ((cow ++ [d]) ++ w) (licont img (length cow)) = Ok (lcont img d, []).
Proof.
  apply ic_grow. unfold ic, licont, lcont. destruct img; cbn [inline_container s_cow s_set_cow]; rewrite get_mid by reflexivity; reflexivity.
Qed.

(** In the destination. *)
Lemma dest_loop ba img dest cow0 O E0 T pre post : top O E0 pre -> FromB ba (LV false) cow0 O E0 T pre post true ->
  kind T <> Some (LOpen Brace) ->
  forall n t, length t < n -> forallb dest_byte t = true -> forall lx line sp ls R D wc R' D' X a p,
  Den (cow0 ++ wc) R D -> Den (cow0 ++ wc) R' D' ->
  chain ((E0 ++ R) ++ [IE IPlaceholder (Sp a a); IE IStr (Sp a (a + length (lopen img)))] ++ R') p ->
  slice src (Sp (p + 2) (se sp)) ++ t = dest -> ss line <= p -> p + 2 <= se sp ->
  LV false lx (slice src (Sp (se sp) (se line))) -> se sp <= se line -> lns (slice src (Sp (se sp) (se line))) ls ->
  t ++ ")"%char :: T = slice src (Sp (se sp) (se line)) ++ cat ls ->
  Out (IS (In lx (is_nil ls) line [] sp) (O ++ [(OpLink (length (E0 ++ R) + 1) img true, length (E0 ++ R) + 2 + length R' + 1)])
          ((((E0 ++ R) ++ [IE IPlaceholder (Sp a a); IE IStr (Sp a (a + length (lopen img)))] ++ R') ++ [IE IStr (Sp p (p + 1))]) ++ IE IStr (Sp (p + 1) (p + 2)) :: X) None None (cow0 ++ wc) [])
      ls (join (pre ++ D ++ Start (lcont img dest) [] :: D' ++ End_ (lcont img dest) :: post)).
Proof.
  intros Htop HF Hk. induction n as [|n IH]; intros t Hlen Ht lx line sp ls R D wc R' D' X a p HR HR' HC Hd L1 L1' HL L2 Hln ET; [lia|].
  set (base := ((E0 ++ R) ++ [IE IPlaceholder (Sp a a); IE IStr (Sp a (a + length (lopen img)))] ++ R')) in *.
  set (O' := O ++ [(OpLink (length (E0 ++ R) + 1) img true, length (E0 ++ R) + 2 + length R' + 1)]).
  assert (Hmb : forall lx1 sp1 X1, must_buffer (IS (In lx1 (is_nil ls) line [] sp1) O' X1 None None (cow0 ++ wc) []) = true).
  { intros. unfold must_buffer. cbn [s_events s_openers s_verb s_attr is_none negb]. assert (is_nil O' = false) as -> by (unfold O'; destruct O; reflexivity). cbn. rewrite !orb_true_r. reflexivity. }
  apply Out_step; [apply Hmb|]. rewrite pe_eq. destruct t as [|c t].
  - (* the closing parenthesis *)
    cbn [app] in ET. destruct (lns_split _ [")"%char] T _ _ Hln ET) as (r' & Er & ET' & Hr'); [intros [K|[]]; discriminate K|].
    destruct (slice_prefix _ _ _ _ _ Er L2) as (B1 & B2 & B3). change (length [")"%char]) with 1 in *. cbn [app] in Er.
    rewrite Er in HL. rewrite app_nil_r in Hd.
    assert (Esc : scan false false (")"%char :: r') = (Some (Tok (LClose Paren) 1), false)) by (rewrite scan_special by reflexivity; reflexivity).
    destruct (lex_special _ _ _ _ _ HL Esc eq_refl) as (l1 & E1 & H1). rewrite E1. cbn [bind tlen]. cbn [tlen skipn] in H1.
    rewrite handle_container by reflexivity.
    refine (pc_result (fun y => Out y ls _) _ _). refine (pc_first (fun y => Out y ls _) _ _ _).
    unfold iparse_container. cbn [s_openers tk]. unfold O'. rewrite rpos_last by reflexivity.
    eapply pc_bind with (P := fun y => fst y = Some FContinue /\ Out (snd y) ls (join (pre ++ D ++ Start (lcont img dest) [] :: D' ++ End_ (lcont img dest) :: post)));
      [|intros [f s'] [A1 A2]; cbn in A1, A2; subst f; apply pc_ok; auto].
    unfold try_close. cbn [s_openers]. rewrite get_mid by reflexivity. cbn [bind].
    eapply pc_bind_eq. intros [e_attr e_op] He. apply bind_ok in He as (a0 & He & He'). injection He' as <- <-. clear He.
    eapply pc_bind_eq. intros last _. rewrite andb_false_r. cbn [bidirectional andb].
    rewrite firstn_app, firstn_all, Nat.sub_diag. cbn [firstn]. rewrite app_nil_r. cbn [delim_kind_of].
    assert (Hlb : length base = length (E0 ++ R) + 2 + length R') by (unfold base; rewrite !app_length; cbn; lia).
    ist. unfold close_link. cbn [s_events]. rewrite get_mid by (rewrite (app_length base), Hlb; reflexivity). cbn [bind isp ss se negb].
    rewrite andb_false_r. ist. cbn [ss se].
    assert (Nat.ltb (p + 1) (ss line) = false) as -> by (apply Nat.ltb_ge; lia).
    eapply pc_bind with (P := fun s' => s' = IS (In l1 (is_nil ls) line [] (Sp (se sp) (se sp + 1))) O
        ((E0 ++ R) ++ [IE IPlaceholder (Sp a a); IE (IEnter (licont img (length (cow0 ++ wc)))) (Sp a (a + length (lopen img)))] ++ R' ++ [IE (IExit (licont img (length (cow0 ++ wc)))) (Sp p (se sp + 1))]) None None ((cow0 ++ wc) ++ [dest]) []).
    { eapply pc_bind; [apply pc_ssub|]. intros spec Hspec. rewrite Hd in Hspec. subst spec.
      assert (match img, true with
              | false, false => CReferenceLink (length (cow0 ++ wc)) | false, true => CInlineLink (length (cow0 ++ wc))
              | true, false => CReferenceImage (length (cow0 ++ wc)) | true, true => CInlineImage (length (cow0 ++ wc)) end = licont img (length (cow0 ++ wc))) as -> by (destruct img; reflexivity).
      unfold set_kind.
      set (C := licont img (length (cow0 ++ wc))).
      replace ((base ++ [IE IStr (Sp p (p + 1))]) ++ IE IStr (Sp (p + 1) (p + 2)) :: X)
        with (((E0 ++ R) ++ [IE IPlaceholder (Sp a a)]) ++ IE IStr (Sp a (a + length (lopen img))) :: (R' ++ [IE IStr (Sp p (p + 1))] ++ IE IStr (Sp (p + 1) (p + 2)) :: X))
        by (unfold base; rewrite <- !app_assoc; reflexivity).
      rewrite get_mid by (rewrite (app_length (E0 ++ R)); reflexivity). cbn [bind isp].
      replace (length (E0 ++ R) + 1) with (length ((E0 ++ R) ++ [IE IPlaceholder (Sp a a)])) by (rewrite (app_length (E0 ++ R)); reflexivity).
      rewrite upd_mid. cbn [bind].
      eapply pc_bind_eq. intros i Hi. apply usub_ok in Hi as [_ Hi].
      replace (((E0 ++ R) ++ [IE IPlaceholder (Sp a a)]) ++ IE (IEnter C) (Sp a (a + length (lopen img))) :: (R' ++ [IE IStr (Sp p (p + 1))] ++ IE IStr (Sp (p + 1) (p + 2)) :: X))
        with (((E0 ++ R) ++ [IE IPlaceholder (Sp a a); IE (IEnter C) (Sp a (a + length (lopen img)))] ++ R') ++ IE IStr (Sp p (p + 1)) :: IE IStr (Sp (p + 1) (p + 2)) :: X)
        by (rewrite <- !app_assoc; reflexivity).
      assert (Hi' : i = length ((E0 ++ R) ++ [IE IPlaceholder (Sp a a); IE (IEnter C) (Sp a (a + length (lopen img)))] ++ R')) by (subst i; rewrite !app_length; cbn; lia).
      rewrite get_mid by exact Hi'. cbn [bind isp ss]. rewrite set_at_yes by (rewrite Hi', !app_length; cbn; lia).
      rewrite Hi', upd_mid. cbn [bind]. apply pc_ok. f_equal.
      rewrite firstn_mid by (rewrite !app_length; cbn; lia). rewrite <- !app_assoc. reflexivity. }
    intros s' ->. ist.
    destruct (peek_quiet src l1 r' T ls (or_introl H1)) as (t2 & l2 & E2 & H2 & Ho); [exact ET'|exact Hr'|exact Hk|].
    rewrite E2, Ho. apply pc_ok. split; [reflexivity|]. cbn [snd].
    set (C := licont img (length (cow0 ++ wc))).
    replace (join _) with (join (pre ++ D ++ ([Start (lcont img dest) []] ++ D' ++ [End_ (lcont img dest)]) ++ post)) by (rewrite <- !app_assoc; reflexivity).
    rewrite <- (app_assoc cow0).
    assert (Hic : ic pp (cow0 ++ wc ++ [dest]) C = Ok (lcont img dest, [])).
    { pose proof (lic img (cow0 ++ wc) dest []) as K. rewrite app_nil_r, <- app_assoc in K. exact K. }
    eapply push_moreB with (b := ba) (R := R) (D := D) (w := wc ++ [dest])
      (new := [IE IPlaceholder (Sp a a); IE (IEnter C) (Sp a (a + length (lopen img)))] ++ R' ++ [IE (IExit C) (Sp p (se sp + 1))])
      (d := [Start (lcont img dest) []] ++ D' ++ [End_ (lcont img dest)]); [exact HF| | | | | | |].
    + rewrite app_assoc. apply Den_grow. exact HR.
    + change ([?p; ?q] ++ ?r) with ([p] ++ [q] ++ r). rewrite <- (app_nil_l ([Start (lcont img dest) []] ++ _)).
      apply Den_app; [apply Den_one; split; reflexivity|]. apply Den_app; [apply Den_one; exists (lcont img dest), []; auto|].
      apply Den_app; [rewrite app_assoc; apply Den_grow; exact HR'|]. apply Den_one. exists (lcont img dest), []; auto.
    + assert (Hh : here ls T r' line (se sp) [")"%char]) by (repeat split; auto; lia).
      apply (St_mk src _ _ _ _ _ _ _ _ [")"%char] _ _ _ Hh H2).
    + rewrite !app_assoc. eapply chain_push with (p := p); [|intros K; discriminate K].
      eapply chain_weak; [|exact HC]. unfold base. rewrite <- !app_assoc. apply Forall2_app; [apply Forall2_same; auto|].
      apply Forall2_app; [apply Forall2_same; auto|]. cbn [app]. constructor; [auto|]. constructor; [intros K; discriminate K|]. apply Forall2_same; auto.
    + rewrite !app_assoc. apply lastok_push. exact I.
    + discriminate.
    + assert (Hh : here ls T r' line (se sp) [")"%char]) by (repeat split; auto; lia).
      intros _. apply (ws_before_last src (se sp) [")"%char]); [discriminate|apply Hh|reflexivity].
  - (* some of the destination *)
    assert (Hn : no_nl (c :: t)). { intros K. rewrite forallb_forall in Ht. specialize (Ht _ K). discriminate Ht. }
    destruct (lns_split _ _ _ _ _ Hln ET) as (r1 & Er & ET1 & Hr1); [exact Hn|].
    destruct (lns_split _ [")"%char] T _ _ Hr1 ET1) as (r' & Er' & ET' & Hr'); [intros [K|[]]; discriminate K|].
    subst r1. rewrite Er in HL. cbn [app] in HL.
    eapply pc_bind; [apply (dlex lx (c :: t) r' Ht ltac:(discriminate) HL)|].
    intros [t1 l1] (k & m & A1 & A2 & A3 & A4 & A5). cbn [fst snd] in *. subst t1. cbn [tlen].
    assert (Hsub : forall j, forallb dest_byte (skipn j (c :: t)) = true).
    { intros j. rewrite forallb_forall in *. intros y Hy. apply Ht. rewrite <- (firstn_skipn j (c :: t)). apply in_or_app. right. exact Hy. }
    eapply pc_weaken; [apply (dest_step (skipn m (c :: t)) r'); auto|].
    intros y (Y1 & l' & j & Y & a' & Y2 & Y3 & Y4). split; [exact Y1|]. rewrite Y4.
    rewrite skipn_length in Y2.
    rewrite (skipn_skipn) in Y3.
    set (x := firstn (m + j) (c :: t)) in *. set (t' := skipn (m + j) (c :: t)) in *.
    assert (Ex : c :: t = x ++ t') by (symmetry; apply firstn_skipn).
    assert (Hlx : length x = m + j) by (unfold x; rewrite firstn_length; lia).
    assert (Er2 : slice src (Sp (se sp) (se line)) = x ++ (t' ++ ")"%char :: r')) by (rewrite Er, Ex, <- app_assoc; reflexivity).
    destruct (slice_prefix _ _ _ _ _ Er2 L2) as (B1 & B2 & B3). rewrite Hlx in B1, B2, B3.
    replace (se sp + m + j) with (se sp + (m + j)) by lia.
    rewrite <- app_assoc. cbn [app]. unfold O', base.
    apply (IH t'); cbn [se]; auto; try lia.
    + assert (length (c :: t) = length x + length t') by (rewrite Ex; apply app_length). lia.
    + apply Hsub.
    + rewrite <- Hd, Ex, app_assoc. f_equal. rewrite <- B1 at 1. symmetry. rewrite B1. rewrite <- B1. apply slice_app; lia.
    + rewrite B2. exact Y3.
    + rewrite B2. apply (lns_skip src x); [|rewrite <- Er2; exact Hln].
      rewrite Ex in Hn. apply no_nl_app in Hn. tauto.
    + rewrite B2, <- app_assoc. cbn [app]. rewrite ET'. reflexivity.
Qed.
End Canon.
