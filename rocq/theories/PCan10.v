(** * PCan10: links and images, opening and closing *)
From Verif Require Import Base Lex Attr Inline Block Doc Lib PSafe PCan1 PCan2 PCan3 PCan4 PCan5 PCan6 PCan7 PCan8 PCan9.
From Verif Require Import SpecCanon.
Local Open Scope nat_scope.

Section Canon.
Variables (src : bytes) (pp : prepass).
Notation St := (PCan3.St src). Notation From := (PCan3.From src pp). Notation FromB := (PCan4.FromB src pp). Notation Out := (PCan2.Out src pp).
Notation cat := (PCan3.cat src). Notation lns := (PCan3.lns src). Notation here := (PCan3.here src).
Notation Den := (PCan2.Den src pp). Notation ev1 := (PCan2.ev1 src pp).

Lemma From_lclose ba img dest cow0 O E0 T pre post R D wc a : top O E0 pre -> FromB ba (LV false) cow0 O E0 T pre post true ->
  kind T <> Some (LOpen Brace) -> Den (cow0 ++ wc) R D -> forallb dest_byte dest = true ->
  From (LV false) (cow0 ++ wc) (O ++ [(lop img, length (E0 ++ R))])
       ((E0 ++ R) ++ [IE IPlaceholder (Sp a a); IE IStr (Sp a (a + length (lopen img)))])
       (B "](" ++ dest ++ B ")" ++ T) (pre ++ D ++ [Start (lcont img dest) []]) (End_ (lcont img dest) :: post) false.
Proof.
  intros Htop HF Hk HR Hdest. apply From_wlog; [intros K; apply app_eq_nil in K as [_ K]; discriminate K|].
  intros s ls R' D' w' M HS HD HC HL _.
  eapply (step_tok _ _ _ _ _ _ _ (B "]") (B "(" ++ dest ++ B ")" ++ T) (Tok (LClose Bracket) 1) false); [exact HS|exact M| |reflexivity|reflexivity| |].
  - intros [K|[]]; discriminate K.
  - intros r' _ _. change (B "]" ++ r') with ("]"%char :: r'). rewrite scan_special by reflexivity. reflexivity.
  - intros l' line r1 HV Hh. change (length (B "]")) with 1 in *.
    destruct (here_more src _ _ _ _ _ _ (B "(") Hh) as (r' & -> & Hh' & _); [intros [K|[]]; discriminate K|].
    change (B "(" ++ r') with ("("%char :: r') in HV.
    rewrite handle_container by reflexivity.
    refine (pc_result (fun y => Out y ls _) _ _). refine (pc_first (fun y => Out y ls _) _ _ _).
    unfold iparse_container. cbn [s_openers tk]. rewrite rpos_last by (destruct img; reflexivity).
    eapply pc_bind with (P := fun y => fst y = Some FContinue /\ Out (snd y) ls (join ((pre ++ D ++ [Start (lcont img dest) []]) ++ D' ++ End_ (lcont img dest) :: post)));
      [|intros [f s'] [A1 A2]; cbn in A1, A2; subst f; apply pc_ok; auto].
    unfold try_close. cbn [s_openers]. rewrite get_mid by reflexivity. cbn [bind].
    unfold lop at 1 2 3 4. cbn [bind bidirectional delim_kind_of andb].
    eapply pc_bind_eq. intros last _. rewrite andb_false_r.
    rewrite firstn_app, firstn_all, Nat.sub_diag. cbn [firstn]. rewrite app_nil_r.
    assert (Esc : scan false false ("("%char :: r') = (Some (Tok (LOpen Paren) 1), false)) by (rewrite scan_special by reflexivity; reflexivity).
    ist. destruct (lex_peek_is false l' _ _ _ (or_introl HV) Esc) as (l2 & P2 & H2 & _). rewrite P2.
    unfold in_reset_span, in_eat. ist.
    destruct (lex_special false l2 _ _ _ H2 Esc eq_refl) as (l3 & P3 & H3). rewrite P3. cbn [tlen skipn] in H3. cbn [bind]. ist. cbn [ss se tlen].
    apply pc_ok. split; [reflexivity|]. cbn [snd].
    assert (match (if img then SpImage else SpGeneral) with SpImage => true | SpGeneral => false end = img) as -> by (destruct img; reflexivity).
    replace (join _) with (join (pre ++ D ++ Start (lcont img dest) [] :: D' ++ End_ (lcont img dest) :: post)) by (rewrite <- !app_assoc; reflexivity).
    rewrite <- !(app_assoc (E0 ++ R) [_; _] R').
    rewrite <- (app_assoc cow0) in *.
    assert (Hlen : length (((E0 ++ R) ++ [IE IPlaceholder (Sp a a); IE IStr (Sp a (a + length (lopen img)))] ++ R') ++ [IE IStr (Sp (pos s) (pos s + 1))]) = length (E0 ++ R) + 2 + length R' + 1)
      by (rewrite !app_length; cbn; lia).
    rewrite Hlen. destruct Hh' as (Q1 & Q2 & Q3 & Q4 & Q5 & Q6). change (length (B "]" ++ B "(")) with 2 in *.
    replace (pos s + 1 + 1) with (pos s + 2) by lia.
    apply (dest_loop src pp ba img dest cow0 O E0 T pre post Htop HF Hk (S (length dest)) dest); cbn [se]; auto; try lia.
    + rewrite app_assoc. apply Den_grow. exact HR.
    + rewrite <- (app_assoc (E0 ++ R)) in HC. exact HC.
    + replace (slice src (Sp (pos s + 2) (pos s + 2))) with (@nil ascii); [reflexivity|]. unfold slice. cbn [ss se]. rewrite Nat.sub_diag. reflexivity.
    + rewrite Q4. left. exact H3.
    + rewrite Q4. exact Q2.
    + rewrite Q4. exact Q1.
Qed.

Lemma From_link ba img dest x evs cow0 O E0 T pre post ne : top O E0 pre -> FromB ba (LV false) cow0 O E0 T pre post true ->
  kind T <> Some (LOpen Brace) -> forallb dest_byte dest = true ->
  kind (x ++ B "](" ++ dest ++ B ")" ++ T) <> Some (LSym Caret) ->
  (forall cow0' O' E0' pre', top O' E0' pre' -> (forall P : opener -> Prop, (forall o, List.In o O -> P (fst o)) -> P (lop img) -> forall o, List.In o O' -> P (fst o)) ->
     From (LV false) cow0' O' E0' (B "](" ++ dest ++ B ")" ++ T) pre' (End_ (lcont img dest) :: post) false ->
     From (LV false) cow0' O' E0' (x ++ B "](" ++ dest ++ B ")" ++ T) pre' (evs ++ End_ (lcont img dest) :: post) false) ->
  From (LV false) cow0 O E0 (lopen img ++ x ++ B "](" ++ dest ++ B ")" ++ T) pre (Start (lcont img dest) [] :: evs ++ End_ (lcont img dest) :: post) ne.
Proof.
  intros Htop HF Hk Hdest Hcar Hin. apply From_wlog; [exact Htop|].
  intros s ls R D wc M HS HD HC HL _.
  set (tok := if img then Tok (LSym ExclaimBracket) 2 else Tok (LOpen Bracket) 1).
  eapply (step_tok _ _ _ _ _ _ _ (lopen img) (x ++ B "](" ++ dest ++ B ")" ++ T) tok false); [exact HS|exact M| | | | |].
  - destruct img; [intros [K|[K|[]]]; discriminate K|intros [K|[]]; discriminate K].
  - destruct img; reflexivity.
  - destruct img; reflexivity.
  - intros r' _ _. destruct img; [change (lopen true ++ r') with ("!"%char :: "["%char :: r')|change (lopen false ++ r') with ("["%char :: r')];
      rewrite scan_special by reflexivity; reflexivity.
  - intros l' line r' HV Hh.
    (* after the footnote alternative, nothing has changed but the peek *)
    assert (Hcont : forall l2, LV false l2 r' ->
      pc (fun y => fst y = Some FContinue /\ Out (snd y) ls (join (pre ++ D ++ Start (lcont img dest) [] :: evs ++ End_ (lcont img dest) :: post)))
         (or_else (iparse_container src (IS (In l2 (is_nil ls) line [] (Sp (pos s) (pos s + length (lopen img)))) O (E0 ++ R) None None (cow0 ++ wc) []) tok)
                  (fun s => parse_atom s tok))).
    { intros l2 HV2. refine (pc_first (fun y => Out y ls _) _ _ _). unfold iparse_container. cbn [s_openers].
      rewrite rpos_none by (intros [[|[]|[]|[]|[]| | | | | |? ? []] ?] _; destruct img; reflexivity).
      unfold try_open. assert (opener_of (tk tok) = Some (lop img)) as -> by (destruct img; reflexivity).
      eapply pc_bind_eq. intros ah _. assert (bidirectional (lop img) = false) as -> by reflexivity. cbn [andb].
      eapply pc_bind_eq. intros wsb _. unfold lop at 1. cbn [andb].
      unfold lop at 2. apply pc_ok. split; [reflexivity|]. cbn [snd]. ist. cbn [ss se].
      rewrite <- (app_assoc (E0 ++ R)). cbn [app].
      specialize (Hin (cow0 ++ wc) (O ++ [(lop img, length (E0 ++ R))]) ((E0 ++ R) ++ [IE IPlaceholder (Sp (pos s) (pos s)); IE IStr (Sp (pos s) (pos s + length (lopen img)))])
                      (pre ++ D ++ [Start (lcont img dest) []])).
      replace (join _) with (join ((pre ++ D ++ [Start (lcont img dest) []]) ++ [] ++ (evs ++ End_ (lcont img dest) :: post))) by (rewrite <- !app_assoc; reflexivity).
      assert (HH : forall s0 ls0 R0 D0 w0, _) by (refine (Hin _ _ _);
        [intros K; apply app_eq_nil in K as [_ K]; discriminate K
        |intros P HP1 HP2 o Ho; apply in_app_iff in Ho as [Ho|[<-|[]]]; [apply HP1; exact Ho|exact HP2]
        |apply (From_lclose ba); auto]).
      eapply HH with (R0 := []) (w0 := []); rewrite ?app_nil_r.
      + apply (St_mk src _ _ _ _ _ _ _ _ (lopen img) _ _ _ Hh HV2).
      + constructor.
      + change [IE IPlaceholder (Sp (pos s) (pos s)); ?z] with ([IE IPlaceholder (Sp (pos s) (pos s))] ++ [z]).
        rewrite app_assoc. eapply chain_push with (p := pos s); [|cbn; auto]. eapply chain_push; [exact HC|]. cbn; auto.
      + change [IE IPlaceholder (Sp (pos s) (pos s)); ?z] with ([IE IPlaceholder (Sp (pos s) (pos s))] ++ [z]).
        rewrite app_assoc. apply lastok_push. cbn [ik isp ss se]. split; [lia|]. rewrite (slice_last _ _ _ (lopen img) "a"%char); [|apply Hh|reflexivity|destruct img; discriminate].
        destruct img; discriminate.
      + discriminate. }
    refine (pc_result (fun y => Out y ls _) _ _). unfold handle.
    destruct img.
    + exact (Hcont l' (or_introl HV)).
    + unfold parse_verbatim, parse_attributes, parse_autolink, parse_symbol, parse_footnote_reference. cbn [tk tok s_verb s_attr is_none assert bind or_else].
      ist. destruct (scan false false r') as [t2 e2] eqn:E2.
      destruct (lex_peek_is false l' _ _ _ (or_introl HV) E2) as (l2 & P2 & H2 & _). rewrite P2.
      rewrite <- (kind_line src _ r' ls) in Hcar by apply Hh. unfold kind in Hcar. rewrite E2 in Hcar. cbn [fst option_map] in Hcar.
      assert (Hq : forall A (yes no : A), match t2 with Some (Tok (LSym Caret) _) => yes | _ => no end = no).
      { intros A yes no. destruct t2 as [[[| | | | | | |[]|] ?]|]; try reflexivity. cbn in Hcar. congruence. }
      rewrite Hq. cbn [bind or_else]. exact (Hcont l2 H2).
Qed.
End Canon.
