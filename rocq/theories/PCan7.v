(** * PCan7: containers written with braces *)
From Verif Require Import Base Lex Attr Inline Block Doc Lib PSafe PCan1 PCan2 PCan3 PCan4 PCan5 PCan6.
From Verif Require Import SpecCanon.
Local Open Scope nat_scope.

Definition wrap_delim (w : wrap) : delim :=
  match w with
  | WEmphasis => BraceUnderscore | WStrong => BraceAsterisk | WMark => BraceEqual | WInsert => BracePlus
  | WDelete => BraceHyphen | WSuperscript => BraceCaret | WSubscript => BraceTilde
  | WUnderscore => BraceUnderscore | WAsterisk => BraceAsterisk
  end.
Definition wrap_opener (w : wrap) : opener :=
  match w with
  | WEmphasis => OpEmphasis Uni | WStrong => OpStrong Uni | WMark => OpMark | WInsert => OpInsert
  | WDelete => OpDelete | WSuperscript => OpSuperscript Uni | WSubscript => OpSubscript Uni
  | WUnderscore => OpEmphasis Bi | WAsterisk => OpStrong Bi
  end.
Definition wrap_icont (w : wrap) : icont :=
  match w with
  | WEmphasis => CEmphasis | WStrong => CStrong | WMark => CMark | WInsert => CInsert
  | WDelete => CDelete | WSuperscript => CSuperscript | WSubscript => CSubscript
  | WUnderscore => CEmphasis | WAsterisk => CStrong
  end.
Definition wrap_otok (w : wrap) : token :=
  match w with WUnderscore => Tok (LSym Underscore) 1 | WAsterisk => Tok (LSym Asterisk) 1 | _ => Tok (LOpen (wrap_delim w)) 2 end.
Definition wrap_ctok (w : wrap) : token :=
  match w with WUnderscore => Tok (LSym Underscore) 1 | WAsterisk => Tok (LSym Asterisk) 1 | _ => Tok (LClose (wrap_delim w)) 2 end.
Notation wopen := wrap_open.
Notation wclose := wrap_close.
Lemma wopen_scan w r : hd_is (fun c => beq c "}") r = false -> scan false false (wopen w ++ r) = (Some (wrap_otok w), false).
Proof. intros H. destruct w; cbn [wrap_open bare wrap_char app]; rewrite scan_special by reflexivity; try reflexivity;
  unfold special_token, maybe_close; rewrite H; reflexivity. Qed.
Lemma wclose_scan w r : hd_is (fun c => beq c "}") r = false -> scan false false (wclose w ++ r) = (Some (wrap_ctok w), false).
Proof. intros H. destruct w; cbn [wrap_close bare wrap_char app]; rewrite scan_special by reflexivity; try reflexivity;
  unfold special_token, maybe_close; rewrite H; reflexivity. Qed.

Lemma upd_mid {A} (l r : list A) x y : upd (l ++ x :: r) (length l) y = l ++ y :: r.
Proof. induction l as [|a l IH]; cbn; [reflexivity|]. rewrite IH. reflexivity. Qed.
Lemma get_mid {A} (l r : list A) x i w : i = length l -> get_at (l ++ x :: r) i w = Ok x.
Proof. intros ->. unfold get_at. rewrite nth_error_app2, Nat.sub_diag by lia. reflexivity. Qed.

Lemma Forall2_same {A} (P : A -> A -> Prop) l : (forall x, P x x) -> Forall2 P l l.
Proof. intros H. induction l; constructor; auto. Qed.

Ltac ist := unfold push, push_sp, s_peek, in_peek, s_set_events, s_set_openers, s_set_span, s_set_lex, s_set_in, s_set_cow, s_set_verb, s_set_attr, in_set_span, in_set_lex, s_span;
  cbn [bind s_in s_openers s_events s_verb s_attr s_cow s_attrs i_lex i_complete i_line i_ahead i_span].

Section Canon.
Variables (src : bytes) (pp : prepass).
Notation St := (PCan3.St src). Notation FromB := (PCan4.FromB src pp). Notation From := (PCan3.From src pp). Notation Out := (PCan2.Out src pp).
Notation cat := (PCan3.cat src). Notation lns := (PCan3.lns src). Notation here := (PCan3.here src).
Notation Den := (PCan2.Den src pp). Notation ev1 := (PCan2.ev1 src pp).

(** Peeking at a token that does not open attributes. *)
Lemma peek_quiet l r T ls : LV false l r -> T = r ++ cat ls -> lns r ls -> kind T <> Some (LOpen Brace) ->
  exists t l', lex_peek l = (t, l') /\ LV false l' r /\ peek_is_open t Brace = false.
Proof.
  intros HV ET Hr Hk. destruct (scan false false r) as [t e] eqn:E.
  destruct (lex_peek_is _ _ _ _ _ HV E) as (l' & A & B & _). exists t, l'. repeat split; auto.
  rewrite <- (kind_line src T r ls ET Hr) in Hk. unfold kind in Hk. rewrite E in Hk. cbn in Hk.
  destruct t as [[[] n]|]; try reflexivity. destruct d; try reflexivity. cbn in Hk. congruence.
Qed.

(** The closing brace. *)
Lemma From_wclose b w cow0 O E0 T pre post R D wc a : top O E0 pre -> FromB b (LV false) cow0 O E0 T pre post true ->
  kind T <> Some (LOpen Brace) -> hd_is (fun c => beq c "}") T = false -> Den (cow0 ++ wc) R D ->
  FromB (bare w) (LV false) (cow0 ++ wc) (O ++ [(wrap_opener w, length (E0 ++ R))])
       ((E0 ++ R) ++ [IE IPlaceholder (Sp a a); IE IStr (Sp a (a + length (wopen w)))])
       (wclose w ++ T) (pre ++ D ++ [Start (wrap_cont w) []]) (End_ (wrap_cont w) :: post) true.
Proof.
  intros Htop HF Hk Hhd HR s ls R' D' w' HS HD HC HL Hne Hws.
  assert (M : must_buffer s = true).
  { destruct HS as (lx & line & sp & r & -> & _). unfold must_buffer. cbn [s_events s_openers]. destruct (O ++ _) eqn:K; [apply app_eq_nil in K as [_ K]; discriminate K|].
    cbn [is_nil negb]. rewrite orb_true_r. reflexivity. }
  assert (R' <> []) as HR'. { apply Hne; auto. intros K. apply app_eq_nil in K as [_ K]. discriminate K. }
  eapply (step_tok _ _ _ _ _ _ _ (wclose w) T (wrap_ctok w) false); eauto.
  - destruct w; intros K; repeat destruct K as [K|K]; try discriminate K; destruct K.
  - destruct w; reflexivity.
  - destruct w; reflexivity.
  - intros r' ET Hr. apply wclose_scan. rewrite ET, lns_hd in Hhd by exact Hr. exact Hhd.
  - intros l' line r' HV Hh. set (i := In l' (is_nil ls) line [] (Sp (pos s) (pos s + length (wclose w)))).
    rewrite handle_container by (destruct w; reflexivity).
    refine (pc_result (fun y => Out y ls _) _ _). refine (pc_first (fun y => Out y ls _) _ _ _).
    unfold iparse_container. cbn [s_openers tk]. rewrite rpos_last by (destruct w; reflexivity).
    eapply pc_bind with (P := fun y => fst y = Some FContinue /\ Out (snd y) ls (join ((pre ++ D ++ [Start (wrap_cont w) []]) ++ D' ++ End_ (wrap_cont w) :: post)));
      [|intros [f s'] [A1 A2]; cbn in A1, A2; subst f; apply pc_ok; auto].
    unfold try_close. cbn [s_openers]. rewrite get_mid by reflexivity. cbn [bind].
    assert (match wrap_opener w with OpLink es _ _ => let! a0 := usub es 1 "inline.rs:700" in Ok (a0, length (E0 ++ R)) | _ => Ok (length (E0 ++ R), length (E0 ++ R) + 1) end
            = Ok (length (E0 ++ R), length (E0 ++ R) + 1)) as -> by (destruct w; reflexivity).
    cbn [bind s_events].
    eapply pc_bind_eq. intros last Hlast. apply usub_ok in Hlast as [_ Hlast].
    assert (Nat.eqb (length (E0 ++ R) + 1) last = false) as ->.
    { apply Nat.eqb_neq. subst last. rewrite !app_length. cbn. destruct R'; [congruence|]. cbn. lia. }
    cbn [andb]. assert (bidirectional (wrap_opener w) && ws_before src (pos s) = false) as Hbw.
    { destruct w; try reflexivity; cbn [bidirectional wrap_opener andb]; apply Hws; reflexivity. }
    cbn [s_span s_in i i_span ss]. rewrite Hbw. cbn [andb].
    rewrite firstn_app, firstn_all, Nat.sub_diag. cbn [firstn]. rewrite app_nil_r.
    assert (delim_kind_of (wrap_opener w) = DKContainer (wrap_icont w)) as -> by (destruct w; reflexivity).
    cbn [s_set_openers s_events s_in s_openers s_verb s_attr s_cow s_attrs].
    unfold set_kind.
    replace (((E0 ++ R) ++ [IE IPlaceholder (Sp a a); IE IStr (Sp a (a + length (wopen w)))]) ++ R')
      with (((E0 ++ R) ++ [IE IPlaceholder (Sp a a)]) ++ IE IStr (Sp a (a + length (wopen w))) :: R') by (rewrite <- !app_assoc; reflexivity).
    rewrite get_mid by (rewrite (app_length (E0 ++ R)); reflexivity). cbn [bind isp].
    replace (length (E0 ++ R) + 1) with (length ((E0 ++ R) ++ [IE IPlaceholder (Sp a a)])) by (rewrite (app_length (E0 ++ R)); reflexivity).
    rewrite upd_mid.
    set (ev := (((E0 ++ R) ++ [IE IPlaceholder (Sp a a)]) ++ IE (IEnter (wrap_icont w)) (Sp a (a + length (wopen w))) :: R')).
    unfold i. ist.
    destruct (peek_quiet l' r' T ls (or_introl HV)) as (t2 & l2 & E2 & H2 & Ho); [apply Hh|apply Hh|exact Hk|].
    rewrite E2, Ho. apply pc_ok. split; [reflexivity|].
    cbn [snd]. clear i.
    set (NEW := [IE IPlaceholder (Sp a a); IE (IEnter (wrap_icont w)) (Sp a (a + length (wopen w)))] ++ R' ++ [IE (IExit (wrap_icont w)) (Sp (pos s) (pos s + length (wclose w)))]).
    assert (EN : ev ++ [IE (IExit (wrap_icont w)) (Sp (pos s) (pos s + length (wclose w)))] = (E0 ++ R) ++ NEW)
      by (unfold ev, NEW; rewrite <- !app_assoc; reflexivity).
    rewrite EN. replace (join _) with (join (pre ++ D ++ ([Start (wrap_cont w) []] ++ D' ++ [End_ (wrap_cont w)]) ++ post)) by (rewrite <- !app_assoc; reflexivity).
    rewrite <- (app_assoc cow0 wc w').
    assert (Hic : forall cw, ic pp cw (wrap_icont w) = Ok (wrap_cont w, [])) by (intros; destruct w; reflexivity).
    eapply push_moreB with (b := b) (new := NEW); [exact HF| | | | | | |].
    + rewrite app_assoc. apply Den_grow. exact HR.
    + rewrite app_assoc. unfold NEW. change ([?p; ?q] ++ ?r) with ([p] ++ [q] ++ r). rewrite <- (app_nil_l ([Start (wrap_cont w) []] ++ _)).
      apply Den_app; [apply Den_one; split; reflexivity|]. apply Den_app; [apply Den_one; exists (wrap_cont w), []; auto|].
      apply Den_app; [exact HD|]. apply Den_one. exists (wrap_cont w), []; auto.
    + apply (St_mk src _ _ _ _ _ _ _ _ (wclose w) _ _ _ Hh H2).
    + rewrite <- EN. eapply chain_push with (p := pos s); [|intros K; discriminate K].
      eapply chain_weak; [|exact HC]. unfold ev. rewrite <- !app_assoc. apply Forall2_app; [apply Forall2_same; auto|].
      apply Forall2_app; [apply Forall2_same; auto|]. cbn [app]. constructor; [auto|]. constructor; [intros K; discriminate K|]. apply Forall2_same; auto.
    + unfold NEW. rewrite !app_assoc. apply lastok_push. exact I.
    + discriminate.
    + intros _. apply (ws_before_last src (pos s) (wclose w)); [destruct w; discriminate|apply Hh|destruct w; reflexivity].
Qed.

(** A container written with braces. *)
Lemma From_wrap b w x evs cow0 O E0 T pre post ne : top O E0 pre -> FromB b (LV false) cow0 O E0 T pre post true ->
  kind T <> Some (LOpen Brace) -> hd_is (fun c => beq c "}") T = false ->
  (bare w = true -> hd_is (fun c => negb (beq c "}" || is_ws c)) (x ++ wclose w ++ T) = true /\ forall o, List.In o O -> fst o <> wrap_opener w) ->
  (forall cow0' O' E0' pre', top O' E0' pre' ->
     (forall P : opener -> Prop, (forall o, List.In o O -> P (fst o)) -> P (wrap_opener w) -> forall o, List.In o O' -> P (fst o)) ->
     FromB (bare w) (LV false) cow0' O' E0' (wclose w ++ T) pre' (End_ (wrap_cont w) :: post) true ->
     From (LV false) cow0' O' E0' (x ++ wclose w ++ T) pre' (evs ++ End_ (wrap_cont w) :: post) false) ->
  From (LV false) cow0 O E0 (wopen w ++ x ++ wclose w ++ T) pre (Start (wrap_cont w) [] :: evs ++ End_ (wrap_cont w) :: post) ne.
Proof.
  intros Htop HF Hk Hhd Hbare Hin. apply From_wlog; [exact Htop|].
  intros s ls R D wc M HS HD HC HL _.
  eapply (step_tok _ _ _ _ _ _ _ (wopen w) (x ++ wclose w ++ T) (wrap_otok w) false); eauto.
  - destruct w; intros K; repeat destruct K as [K|K]; try discriminate K; destruct K.
  - destruct w; reflexivity.
  - destruct w; reflexivity.
  - intros r' ET Hr. destruct (bare w) eqn:Eb.
    + apply wopen_scan. destruct (Hbare eq_refl) as [Hx _]. rewrite ET, lns_hd in Hx by exact Hr.
      destruct r' as [|c r']; [reflexivity|]. cbn in *. apply negb_true_iff, orb_false_iff in Hx. apply Hx.
    + destruct w; try discriminate Eb; cbn [wrap_open bare wrap_char app]; rewrite scan_special by reflexivity; reflexivity.
  - intros l' line r' HV Hh. rewrite handle_container by (destruct w; reflexivity).
    refine (pc_result (fun y => Out y ls _) _ _). refine (pc_first (fun y => Out y ls _) _ _ _).
    unfold iparse_container. cbn [s_openers tk].
    rewrite rpos_none by (intros [o n] Ho; destruct w; try (destruct o as [|[]|[]|[]|[]| | | | | |? ? []]; reflexivity);
      destruct (Hbare eq_refl) as [_ Hno]; specialize (Hno _ Ho); cbn in Hno; destruct o as [|[]|[]|[]|[]| | | | | |? ? []]; try reflexivity; congruence).
    unfold try_open. assert (opener_of (tk (wrap_otok w)) = Some (wrap_opener w)) as -> by (destruct w; reflexivity).
    cbn [s_in i_lex]. rewrite (lex_ahead_is false l' r') by (left; exact HV). cbn [bind].
    assert (bidirectional (wrap_opener w) && hd_none_or is_ws r' = false) as ->.
    { destruct (bare w) eqn:Eb; [|destruct w; try discriminate Eb; reflexivity]. destruct (Hbare eq_refl) as [Hx _].
      destruct Hh as (ET & Hr & _). rewrite ET, lns_hd in Hx by exact Hr.
      destruct r' as [|c r']; [discriminate Hx|]. cbn in *. apply negb_true_iff, orb_false_iff in Hx as [_ ->]. apply andb_false_r. }
    eapply pc_bind_eq. intros wsb _. assert (match wrap_opener w with OpSingleQuoted => true | _ => false end = false) as -> by (destruct w; reflexivity). cbn [andb].
    assert (match wrap_opener w with OpSingleQuoted => IAtom (IQuote QSingle false) | OpDoubleQuoted => IAtom (IQuote QDouble true) | _ => IStr end = IStr) as -> by (destruct w; reflexivity).
    apply pc_ok. split; [reflexivity|]. cbn [snd].
    unfold push, push_sp, s_set_events, s_set_openers, s_span.
    cbn [s_in s_openers s_events s_verb s_attr s_cow s_attrs i_span ss se].
    rewrite <- (app_assoc (E0 ++ R)). cbn [app]. 
    specialize (Hin (cow0 ++ wc) (O ++ [(wrap_opener w, length (E0 ++ R))]) ((E0 ++ R) ++ [IE IPlaceholder (Sp (pos s) (pos s)); IE IStr (Sp (pos s) (pos s + length (wopen w)))])
                    (pre ++ D ++ [Start (wrap_cont w) []])).
    replace (join _) with (join ((pre ++ D ++ [Start (wrap_cont w) []]) ++ [] ++ (evs ++ End_ (wrap_cont w) :: post))) by (rewrite <- !app_assoc; reflexivity).
    assert (HH : forall s0 ls0 R0 D0 w0, _) by (refine (Hin _ _ _);
      [intros K; apply app_eq_nil in K as [_ K]; discriminate K
      |intros P HP1 HP2 o Ho; apply in_app_iff in Ho as [Ho|[<-|[]]]; [apply HP1; exact Ho|exact HP2]
      |apply (From_wclose b); auto]).
    eapply HH with (R0 := []) (w0 := []); rewrite ?app_nil_r.
    + apply (St_mk src _ _ _ _ _ _ _ _ (wopen w) _ _ _ Hh (or_introl HV)).
    + constructor.
    + change [IE IPlaceholder (Sp (pos s) (pos s)); IE IStr (Sp (pos s) (pos s + length (wopen w)))] with ([IE IPlaceholder (Sp (pos s) (pos s))] ++ [IE IStr (Sp (pos s) (pos s + length (wopen w)))]).
      rewrite app_assoc. eapply chain_push with (p := pos s); [|cbn; auto]. eapply chain_push; [exact HC|]. cbn; auto.
    + change [IE IPlaceholder (Sp (pos s) (pos s)); IE IStr (Sp (pos s) (pos s + length (wopen w)))] with ([IE IPlaceholder (Sp (pos s) (pos s))] ++ [IE IStr (Sp (pos s) (pos s + length (wopen w)))]).
      rewrite app_assoc. apply lastok_push. cbn [ik isp ss se]. split; [lia|]. rewrite (slice_last _ _ _ (wopen w) "a"%char); [|apply Hh|reflexivity|destruct w; discriminate].
      destruct w; discriminate.
    + discriminate.
Qed.
End Canon.
