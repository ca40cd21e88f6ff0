(** * PCan4: text, escapes, line breaks, punctuation *)
From Verif Require Import Base Lex Attr Inline Block Doc Lib PSafe PCan1 PCan2 PCan3.
From Verif Require Import SpecCanon.
Local Open Scope nat_scope.

(** The kind of the first token. *)
Definition kind (T : bytes) : option lkind := option_map tk (fst (scan false false T)).
Definition hd_err (r : bytes) : option ascii := match r with c :: _ => Some c | [] => None end.
Lemma hd_is_err f r : hd_is f r = match hd_err r with Some c => f c | None => false end.
Proof. destruct r; reflexivity. Qed.
Lemma special_kind v c r r' : hd_err r = hd_err r' -> tk (fst (special_token v c r)) = tk (fst (special_token v c r')).
Proof.
  intros H. destruct r as [|d r], r' as [|d' r']; cbn in H; try discriminate H; [reflexivity|].
  injection H as <-. unfold special_token, maybe_close. cbn [hd_is].
  destruct (is_ws d || is_punct d), (beq d "}"), (beq d "["), (open_brace d);
    repeat (match goal with |- context [if ?b then _ else _] => destruct b end); reflexivity.
Qed.

Ltac noclose := intros [[|[]|[]|[]|[]| | | | | |? ? []] ?] _; reflexivity.

Section Canon.
Variables (src : bytes) (pp : prepass).
Notation St := (PCan3.St src). Notation From := (PCan3.From src pp). Notation Out := (PCan2.Out src pp).
Notation cat := (PCan3.cat src). Notation lns := (PCan3.lns src). Notation here := (PCan3.here src).

Lemma kind_line T r ls : T = r ++ cat ls -> lns r ls -> kind r = kind T.
Proof.
  intros -> H. destruct r as [|c r]; [apply lns_nil in H; subst; reflexivity|].
  destruct (is_special c) eqn:E.
  - cbn [app]. unfold kind. rewrite !scan_special by exact E. cbn [fst option_map]. apply (f_equal (@Some lkind)).
    destruct ls as [|l ls]; [unfold PCan3.cat; cbn; rewrite app_nil_r; reflexivity|].
    destruct r as [|d r]; [|apply special_kind; reflexivity].
    destruct H as [(r0 & H & _) _]. destruct r0 as [|c0 r0]; [|destruct r0; discriminate H]. injection H as ->. reflexivity.
  - unfold kind. rewrite !scan_plain by (cbn; rewrite E; reflexivity). reflexivity.
Qed.
Lemma kind_text T : kind T <> Some LText -> is_text (fst (scan false false T)) = false.
Proof. unfold kind. destruct (scan false false T) as [[[k n]|] e]; cbn; auto. destruct k; auto. congruence. Qed.

(** Tokens that are neither verbatim, attributes, autolinks, symbols nor footnote references. *)
Definition nonsyn (k : lkind) : bool :=
  match k with LSeq Backtick | LOpen Brace | LSym Lt | LSym Colon | LOpen Bracket => false | _ => true end.
Lemma handle_container i O E cow ats t : nonsyn (tk t) = true ->
  handle src (IS i O E None None cow ats) t
  = or_else (iparse_container src (IS i O E None None cow ats) t) (fun s => parse_atom s t).
Proof.
  intros H. unfold handle, parse_verbatim, parse_attributes, parse_autolink, parse_symbol, parse_footnote_reference.
  cbn [s_verb s_attr is_none assert bind].
  destruct t as [k n]. cbn [tk] in *.
  destruct k as [| | | | |[]|[]|[]|[]]; try discriminate H; reflexivity.
Qed.
Lemma handle_atom i O E cow ats t : nonsyn (tk t) = true -> opener_of (tk t) = None ->
  (forall o, List.In o O -> closed_by (fst o) (tk t) = false) ->
  handle src (IS i O E None None cow ats) t = parse_atom (IS i O E None None cow ats) t.
Proof.
  intros H1 H2 H3. rewrite handle_container by exact H1. unfold iparse_container. cbn [s_openers].
  rewrite rpos_none by exact H3. unfold try_open. rewrite H2. reflexivity.
Qed.

(** Push events and go on. *)
Lemma push_more L cow0 O E0 T pre post ne R D w new d s' ls : From L cow0 O E0 T pre post ne ->
  Den src pp (cow0 ++ w) R D -> Den src pp (cow0 ++ w) new d ->
  St L O ((E0 ++ R) ++ new) (cow0 ++ w) s' ls T -> chain ((E0 ++ R) ++ new) (pos s') -> lastok src ((E0 ++ R) ++ new) ->
  new <> [] -> Out s' ls (join (pre ++ D ++ d ++ post)).
Proof.
  intros HF H1 H2 H3 H4 H5 H6. rewrite <- app_assoc in H3, H4, H5. rewrite (app_assoc D). apply (HF s' ls (R ++ new) (D ++ d) w); auto.
  - apply Den_app; auto.
  - intros _ _ K. apply app_eq_nil in K as [_ K]. contradiction.
Qed.
(** The same, if moreover the next byte does not follow white space. *)
Definition FromB (b : bool) (L : lexer -> bytes -> Prop) (cow0 : list bytes) (O : list (opener * nat)) (E0 : list iev) (T : bytes)
           (pre post : list event) (ne : bool) : Prop :=
  forall s ls R D (w : list bytes),
    St L O (E0 ++ R) (cow0 ++ w) s ls T -> Den src pp (cow0 ++ w) R D -> chain (E0 ++ R) (pos s) -> lastok src (E0 ++ R) ->
    (O <> [] -> ne = true -> R <> []) -> (b = true -> ws_before src (pos s) = false) ->
    Out s ls (join (pre ++ D ++ post)).
Lemma From_B b L cow0 O E0 T pre post ne : From L cow0 O E0 T pre post ne -> FromB b L cow0 O E0 T pre post ne.
Proof. intros H s ls R D w H1 H2 H3 H4 H5 _. eapply H; eauto. Qed.
Lemma FromB_From L cow0 O E0 T pre post ne : FromB false L cow0 O E0 T pre post ne -> From L cow0 O E0 T pre post ne.
Proof. intros H s ls R D w H1 H2 H3 H4 H5. eapply H; eauto. discriminate. Qed.
Lemma FromB_at b L cow0 O E0 T pre post ne s : FromB b L cow0 O E0 T pre post ne -> (b = true -> ws_before src (pos s) = false) ->
  forall ls R D (w : list bytes), St L O (E0 ++ R) (cow0 ++ w) s ls T -> Den src pp (cow0 ++ w) R D -> chain (E0 ++ R) (pos s) -> lastok src (E0 ++ R) ->
    (O <> [] -> ne = true -> R <> []) -> Out s ls (join (pre ++ D ++ post)).
Proof. intros H G ls R D w H1 H2 H3 H4 H5. eapply H; eauto. Qed.
Lemma push_oneB b L cow0 O E0 T pre post ne R D w e d s' ls p q : FromB b L cow0 O E0 T pre post ne ->
  Den src pp (cow0 ++ w) R D -> chain (E0 ++ R) p -> ev1 src pp (cow0 ++ w) e d ->
  (strl e = true -> ss (isp e) = p /\ se (isp e) = q) -> pos s' = q ->
  match ik e with
  | IStr => nth_error src (se (isp e) - 1) <> Some "$"%char
  | IPlaceholder => False
  | _ => True
  end ->
  St L O ((E0 ++ R) ++ [e]) (cow0 ++ w) s' ls T -> (b = true -> ws_before src (pos s') = false) ->
  Out s' ls (join (pre ++ D ++ d ++ post)).
Proof.
  intros HF H1 H2 H3 H4 H5 H6 H7 H8. rewrite (app_assoc D). rewrite <- app_assoc in H7. apply (HF s' ls (R ++ [e]) (D ++ d) w); auto.
  - apply Den_app; [exact H1|]. apply Den_one. exact H3.
  - rewrite H5, app_assoc. eapply chain_push; eauto.
  - rewrite app_assoc. apply lastok_push. unfold ev1 in H3. destruct (ik e); auto. split; [apply H3|exact H6].
  - intros _ _ K. apply app_eq_nil in K as [_ K]. discriminate K.
Qed.
Lemma push_moreB b L cow0 O E0 T pre post ne R D (w : list bytes) new d s' ls : FromB b L cow0 O E0 T pre post ne ->
  Den src pp (cow0 ++ w) R D -> Den src pp (cow0 ++ w) new d ->
  St L O ((E0 ++ R) ++ new) (cow0 ++ w) s' ls T -> chain ((E0 ++ R) ++ new) (pos s') -> lastok src ((E0 ++ R) ++ new) ->
  new <> [] -> (b = true -> ws_before src (pos s') = false) -> Out s' ls (join (pre ++ D ++ d ++ post)).
Proof.
  intros HF H1 H2 H3 H4 H5 H6 H7. rewrite <- app_assoc in H3, H4, H5. rewrite (app_assoc D). apply (HF s' ls (R ++ new) (D ++ d) w); auto.
  - apply Den_app; auto.
  - intros _ _ K. apply app_eq_nil in K as [_ K]. contradiction.
Qed.
Lemma push_one L cow0 O E0 T pre post ne R D w e d s' ls p q : From L cow0 O E0 T pre post ne ->
  Den src pp (cow0 ++ w) R D -> chain (E0 ++ R) p -> ev1 src pp (cow0 ++ w) e d ->
  (strl e = true -> ss (isp e) = p /\ se (isp e) = q) -> pos s' = q ->
  match ik e with
  | IStr => nth_error src (se (isp e) - 1) <> Some "$"%char
  | IPlaceholder => False
  | _ => True
  end ->
  St L O ((E0 ++ R) ++ [e]) (cow0 ++ w) s' ls T -> Out s' ls (join (pre ++ D ++ d ++ post)).
Proof.
  intros HF H1 H2 H3 H4 H5 H6 H7. eapply push_more; eauto.
  - apply Den_one. exact H3.
  - rewrite H5. eapply chain_push; eauto.
  - apply lastok_push. unfold ev1 in H3. destruct (ik e); auto. split; [apply H3|exact H6].
  - discriminate.
Qed.

Lemma str_ev cow sp x : slice src sp = x -> x <> [] -> ev1 src pp cow (IE IStr sp) [Str x].
Proof.
  intros <- H. unfold ev1. cbn [ik isp].
  assert (ss sp < se sp) as L. { destruct (Nat.lt_ge_cases (ss sp) (se sp)); auto. exfalso. apply H. unfold slice. replace (se sp - ss sp) with 0 by lia. reflexivity. }
  split; [lia|]. unfold sp_empty. apply Nat.ltb_lt in L. rewrite L. reflexivity.
Qed.

Lemma last_nth {A} (x : list A) d : x <> [] -> nth_error x (length x - 1) = Some (last x d).
Proof.
  intros H. destruct (rev_case x) as [-> |(y & c & ->)]; [congruence|]. rewrite last_last, app_length. cbn.
  rewrite nth_error_app2 by lia. replace (length y + 1 - 1 - length y) with 0 by lia. reflexivity.
Qed.
Lemma slice_last p n x d : slice src (Sp p (p + n)) = x -> length x = n -> x <> [] -> nth_error src (p + n - 1) = Some (last x d).
Proof.
  intros H Hn Hx. assert (0 < n) by (destruct x; [congruence|cbn in Hn; lia]).
  pose proof (slice_nth src (Sp p (p + n)) (n - 1)) as K. cbn [ss se] in K. rewrite <- Nat.add_sub_assoc by lia. rewrite <- K by lia.
  rewrite H, <- Hn. apply last_nth. exact Hx.
Qed.

Lemma ws_before_last p x : x <> [] -> slice src (Sp p (p + length x)) = x -> is_ws (last x "a"%char) = false ->
  ws_before src (p + length x) = false.
Proof.
  intros Hx Hs Hl. unfold ws_before. rewrite (slice_last p (length x) x "a"%char) by (auto; reflexivity). exact Hl.
Qed.

Definition top (O : list (opener * nat)) (E0 : list iev) (pre : list event) : Prop := O = [] -> E0 = [] /\ pre = [].

(** *** Text *)
Definition plain (c : ascii) : bool := negb (is_special c) && negb (beq c "$").
Lemma plain_no_nl x : forallb plain x = true -> no_nl x.
Proof.
  intros H K. rewrite forallb_forall in H. specialize (H _ K). discriminate H.
Qed.
Lemma plain_special x : forallb plain x = true -> forallb (fun c => negb (is_special c)) x = true.
Proof. rewrite !forallb_forall. intros H c K. specialize (H c K). apply andb_prop in H as [H _]. exact H. Qed.
Lemma plain_last x d : forallb plain x = true -> x <> [] -> last x d <> "$"%char.
Proof.
  intros H Hx E. destruct (rev_case x) as [-> |(y & c & ->)]; [congruence|]. rewrite last_last in E. subst c.
  rewrite forallb_app in H. apply andb_prop in H as [_ H]. discriminate H.
Qed.

Lemma From_text b cow0 O E0 x T pre post ne : top O E0 pre -> FromB b (LV false) cow0 O E0 T pre post true ->
  (b = true -> is_ws (last x "a"%char) = false) ->
  forallb plain x = true -> x <> [] -> hd_is (fun c => negb (is_special c)) T = false -> kind T <> Some LText ->
  From (LV false) cow0 O E0 (x ++ T) pre (Str x :: post) ne.
Proof.
  intros Htop HF Hb Hp Hx Hhd Hk. apply From_wlog; [exact Htop|].
  intros s ls R D w M HS HD HC HL _. eapply step_text; eauto using plain_no_nl, plain_special.
  - intros r' ET Hr. apply kind_text. erewrite kind_line by eauto. exact Hk.
  - intros l' line r' HV Hh. unfold result. rewrite handle_atom by (auto; noclose). cbn.
    apply pc_ok. split; [reflexivity|]. cbn [snd].
    eapply (push_oneB b _ _ _ _ _ _ _ true R D w (IE IStr (Sp (pos s) (pos s + length x))) [Str x]); eauto.
    + apply str_ev; auto. apply Hh.
    + cbn [ik isp se]. rewrite (slice_last _ _ x "a"%char); [|apply Hh|reflexivity|exact Hx].
      intros [= K]. apply (plain_last x "a"%char Hp Hx K).
    + apply (St_mk src _ _ _ _ _ _ _ _ _ _ _ _ Hh HV).
    + intros Eb. apply ws_before_last; [exact Hx|apply Hh|auto].
Qed.

(** *** Parentheses and bars in text *)
Definition nolink (O : list (opener * nat)) : Prop :=
  forall o, List.In o O -> match fst o with OpLink _ _ _ => false | _ => true end = true.
Lemma From_par b cow0 O E0 c T pre post ne : top O E0 pre -> nolink O -> FromB b (LV false) cow0 O E0 T pre post true ->
  (c = "(" \/ c = ")" \/ c = "|")%char ->
  From (LV false) cow0 O E0 (c :: T) pre (Str [c] :: post) ne.
Proof.
  intros Htop HO HF Hc. apply From_wlog; [exact Htop|].
  intros s ls R D w M HS HD HC HL _.
  eapply (step_tok _ _ _ _ _ _ _ [c] T (Tok (if beq c "(" then LOpen Paren else if beq c ")" then LClose Paren else LSym Pipe) 1) false); eauto.
  - intros [K|[]]. destruct Hc as [-> |[-> | ->]]; discriminate K.
  - destruct Hc as [-> |[-> | ->]]; reflexivity.
  - intros r' _ _. cbn [app]. rewrite scan_special by (destruct Hc as [-> |[-> | ->]]; reflexivity).
    destruct Hc as [-> |[-> | ->]]; reflexivity.
  - intros l' line r' HV Hh. unfold result. rewrite handle_atom.
    + replace (parse_atom _ _) with (Ok (@None flow, IS (In l' (is_nil ls) line [] (Sp (pos s) (pos s + length [c]))) O (E0 ++ R) None None (cow0 ++ w) []))
        by (destruct Hc as [-> |[-> | ->]]; reflexivity).
      cbn. apply pc_ok. split; [reflexivity|]. cbn [snd].
      eapply (push_oneB b _ _ _ _ _ _ _ true R D w (IE IStr (Sp (pos s) (pos s + 1))) [Str [c]]); eauto.
      * apply str_ev; [apply Hh|discriminate].
      * cbn [ik isp se]. rewrite (slice_last _ _ [c] "a"%char); [|apply Hh|reflexivity|discriminate]. cbn.
        destruct Hc as [-> |[-> | ->]]; discriminate.
      * apply (St_mk src _ _ _ _ _ _ _ _ [c] _ _ _ Hh). left. exact HV.
      * intros _. apply (ws_before_last (pos s) [c]); [discriminate|apply Hh|destruct Hc as [-> |[-> | ->]]; reflexivity].
    + destruct Hc as [-> |[-> | ->]]; reflexivity.
    + destruct Hc as [-> |[-> | ->]]; reflexivity.
    + intros [o n] Hi. specialize (HO _ Hi). cbn in *. destruct Hc as [-> |[-> | ->]]; destruct o as [|[]|[]|[]|[]| | | | | |? ? []]; try reflexivity; discriminate.
Qed.

(** *** Backslash *)
Lemma From_bsl cow0 O E0 c T pre post ne : top O E0 pre -> From (LX false true) cow0 O E0 (c :: T) pre post true ->
  is_ws c || is_punct c = true ->
  From (LV false) cow0 O E0 (BSL :: c :: T) pre (Escape :: post) ne.
Proof.
  intros Htop HF Hc. apply From_wlog; [exact Htop|].
  intros s ls R D w M HS HD HC HL _.
  eapply (step_tok _ _ _ _ _ _ _ [BSL] (c :: T) (Tok LEscape 1) true); eauto.
  - intros [K|[]]. discriminate K.
  - intros r' ET Hr. cbn [app]. rewrite scan_special by reflexivity.
    assert (hd_is (fun c => is_ws c || is_punct c) r' = true) as H by (rewrite <- (lns_hd src r' ls _ Hr), <- ET; exact Hc).
    unfold special_token. rewrite H. reflexivity.
  - intros l' line r' HV Hh. unfold result. rewrite handle_atom by (auto; noclose). cbn.
    apply pc_ok. split; [reflexivity|]. cbn [snd].
    eapply push_one with (p := pos s) (e := IE (IAtom IEscape) (Sp (pos s) (pos s + 1))) (d := [Escape]); [exact HF|exact HD|exact HC| | |reflexivity| |].
    + reflexivity.
    + cbn. discriminate.
    + exact I.
    + apply (St_mk src _ _ _ _ _ _ _ _ [BSL] _ _ _ Hh HV).
Qed.

Lemma From_esc b cow0 O E0 c x T pre post ne : top O E0 pre -> FromB b (LV false) cow0 O E0 T pre post true ->
  (b = true -> is_ws (last (c :: x) "a"%char) = false) ->
  is_punct c = true -> c <> "$"%char -> forallb plain x = true ->
  hd_is (fun c => negb (is_special c)) T = false -> kind T <> Some LText ->
  From (LX false true) cow0 O E0 ((c :: x) ++ T) pre (Str (c :: x) :: post) ne.
Proof.
  intros Htop HF Hbl Hc Hd Hp Hhd Hk. apply From_wlog; [exact Htop|].
  intros s ls R D w M HS HD HC HL _.
  assert (Hn : no_nl (c :: x)).
  { apply no_nl_cons. split; [|apply plain_no_nl; exact Hp]. intros ->. discriminate Hc. }
  eapply (step_gen _ _ _ (LV false) _ _ _ _ _ (c :: x) T (Tok LText (1 + length x))); eauto.
  - intros lx r' HX ET Hr.
    assert (Hc' : count_while (fun c => negb (is_special c)) (x ++ r') = length x).
    { rewrite ET, lns_hd in Hhd by exact Hr. destruct r' as [|c' r'].
      - rewrite app_nil_r. apply count_while_all. apply plain_special, Hp.
      - cbn in Hhd. rewrite count_while_stop; auto using plain_special. }
    eapply pc_weaken.
    + eapply (lex_escaped lx c (x ++ r') (length x)); [exact HX| | |].
      * unfold escaped_token. assert (beq c NL = false /\ is_blank c = false /\ beq c SP = false) as (-> & -> & ->) by (revert Hc; clear; destruct c as [[][][][][][][][]]; intros Hc; try discriminate Hc; repeat split; reflexivity).
        reflexivity.
      * destruct x as [|y x]; [left; reflexivity|]. right. split; [|reflexivity].
        rewrite scan_plain; [rewrite Hc'; reflexivity|]. cbn in Hp. apply andb_prop in Hp as [Hp _]. apply andb_prop in Hp as [Hp _]. exact Hp.
      * rewrite skipn_app, skipn_all, Nat.sub_diag. cbn [app skipn]. apply kind_text. erewrite kind_line by eauto. exact Hk.
    + intros y [C1 C2]. rewrite skipn_app, skipn_all, Nat.sub_diag in C2. auto.
  - intros l' line r' HV Hh. unfold result. rewrite handle_atom by (auto; noclose). cbn [parse_atom tk bind].
    apply pc_ok. split; [reflexivity|]. cbn [snd].
    eapply push_oneB with (b := b) (p := pos s) (e := IE IStr (Sp (pos s) (pos s + length (c :: x)))) (d := [Str (c :: x)]); [exact HF|exact HD|exact HC| | |reflexivity| | |].
    + apply str_ev; [apply Hh|discriminate].
    + cbn. intros _. split; reflexivity.
    + cbn [ik isp se]. rewrite (slice_last _ _ (c :: x) "a"%char); [|apply Hh|reflexivity|discriminate].
      intros [= K]. destruct x as [|y x]; [cbn in K; congruence|].
      change (last (y :: x) "a"%char = "$"%char) in K. apply (plain_last (y :: x) "a"%char Hp ltac:(discriminate) K).
    + apply (St_mk src _ _ _ _ _ _ _ _ (c :: x) _ _ _ Hh HV).
    + intros Eb. apply (ws_before_last (pos s) (c :: x)); [discriminate|apply Hh|auto].
Qed.

Lemma count_blank_line r ls : lns r ls -> hd_is (fun c => beq c NL) (skipn (count_while is_blank r) r) = true ->
  hd_is (fun c => beq c NL) (skipn (count_while is_blank (r ++ cat ls)) (r ++ cat ls)) = true.
Proof.
  intros _. induction r as [|c r IH]; cbn; [discriminate|].
  destruct (is_blank c) eqn:E; cbn; auto.
Qed.
Lemma From_nbsp cow0 O E0 T pre post ne : top O E0 pre -> From (LV false) cow0 O E0 T pre post true ->
  hd_is (fun c => beq c NL) (skipn (count_while is_blank T) T) = false ->
  From (LX false true) cow0 O E0 (SP :: T) pre (NonBreakingSpace :: post) ne.
Proof.
  intros Htop HF Hb. apply From_wlog; [exact Htop|].
  intros s ls R D w M HS HD HC HL _.
  eapply (step_gen _ _ _ (LV false) _ _ _ _ _ [SP] T (Tok LNbsp 1)); eauto.
  - intros [K|[]]. discriminate K.
  - intros lx r' HX ET Hr. cbn [app] in HX.
    assert (hd_is (fun c => beq c NL) (skipn (count_while is_blank r') r') = false) as H.
    { destruct (hd_is (fun c => beq c NL) (skipn (count_while is_blank r') r')) eqn:K; [|reflexivity].
      rewrite ET, count_blank_line in Hb by auto. exact Hb. }
    assert (E : scan false true (SP :: r') = (Some (Tok LNbsp 1), false)).
    { cbn [scan]. unfold escaped_token. rewrite H. reflexivity. }
    pose proof HX as (HN & _). unfold lex_next. rewrite HN. unfold next_token. rewrite (LX_token _ _ _ _ HX _ _ E).
    apply pc_ok. cbn [fst snd]. split; [reflexivity|]. left. apply (LX_after _ _ _ _ _ _ HX E).
  - intros l' line r' HV Hh. unfold result. rewrite handle_atom by (auto; noclose). cbn.
    apply pc_ok. split; [reflexivity|]. cbn [snd].
    eapply push_one with (p := pos s) (e := IE (IAtom INbsp) (Sp (pos s) (pos s + 1))) (d := [NonBreakingSpace]); [exact HF|exact HD|exact HC| | |reflexivity| |].
    + reflexivity.
    + cbn. discriminate.
    + exact I.
    + apply (St_mk src _ _ _ _ _ _ _ _ [SP] _ _ _ Hh HV).
Qed.

(** *** Line breaks *)
Lemma From_brk (L : lexer -> bytes -> Prop) k a cow0 O E0 T pre post ne : top O E0 pre -> From (LV false) cow0 O E0 T pre post true ->
  (k = LNewline /\ a = ISoftbreak \/ k = LHardbreak /\ a = IHardbreak) ->
  (forall lx, L lx [NL] -> exists l', lex_next lx = Ok (Some (Tok k 1), l') /\ LX false false l' []) ->
  From L cow0 O E0 (NL :: T) pre (atom_event a :: post) ne.
Proof.
  intros Htop HF Hk Hlex. apply From_wlog; [exact Htop|].
  intros s ls R D w M HS HD HC HL _.
  eapply (step_nl _ _ _ _ _ _ _ _ T (Tok k 1)); eauto.
  intros l' line l ls' HX -> ET Hl. unfold result.
  rewrite handle_atom by (destruct Hk as [[-> ->]|[-> ->]]; auto; noclose).
  replace (parse_atom _ _) with (Ok (Some FContinue, IS (In l' false line [] (Sp (pos s) (pos s + 1))) O ((E0 ++ R) ++ [IE (IAtom a) (Sp (pos s) (pos s + 1))]) None None (cow0 ++ w) []))
    by (destruct Hk as [[-> ->]|[-> ->]]; reflexivity).
  cbn [bind]. apply pc_ok. split; [reflexivity|]. cbn [snd].
  replace (pre ++ D ++ atom_event a :: post) with (pre ++ (D ++ [atom_event a]) ++ post) by (rewrite <- app_assoc; reflexivity).
  rewrite <- app_assoc. apply (From_line src pp _ _ _ _ _ _ _ Htop HF); auto.
  - apply Den_app; auto. apply Den_one. reflexivity.
  - rewrite app_assoc. eapply chain_push; [exact HC|]. intros K. discriminate K.
  - intros A e K. rewrite app_assoc in K. apply app_inj_tail in K as [_ <-]. reflexivity.
  - intros _ _ K. apply app_eq_nil in K as [_ K]. discriminate K.
Qed.
Lemma From_soft cow0 O E0 T pre post ne : top O E0 pre -> From (LV false) cow0 O E0 T pre post true ->
  From (LV false) cow0 O E0 (NL :: T) pre (Softbreak :: post) ne.
Proof.
  intros Htop HF. apply (From_brk (LV false) LNewline ISoftbreak); auto.
  intros lx HV. destruct (lex_special _ _ _ (Tok LNewline 1) false HV eq_refl eq_refl) as (l' & A & B). exists l'. split; auto.
Qed.
Lemma From_hard cow0 O E0 T pre post ne : top O E0 pre -> From (LV false) cow0 O E0 T pre post true ->
  From (LX false true) cow0 O E0 (NL :: T) pre (Hardbreak :: post) ne.
Proof.
  intros Htop HF. apply (From_brk (LX false true) LHardbreak IHardbreak); auto.
  intros lx HX. assert (E : scan false true [NL] = (Some (Tok LHardbreak 1), false)) by reflexivity.
  pose proof HX as (HN & _). unfold lex_next. rewrite HN. unfold next_token. rewrite (LX_token _ _ _ _ HX _ _ E).
  eexists. split; [reflexivity|]. apply (LX_after _ _ _ _ _ _ HX E).
Qed.
End Canon.
