(** * PInl2: sequences of inline events *)
From Verif Require Import Base Lex Attr Block Inline Doc Lib SpecAttr SpecSrc PAttr PSafe PBlock2.
Local Open Scope nat_scope.

(** A pending attribute event: none, for the next container with these attributes, or for a standalone [IEmpty]. *)
Inductive pnd := PNone | PCont (a : attrs) | PWord (sp : span).
(** Reading position, open containers with the attributes written after them and their text so far, pending attributes. *)
Notation ifr := (icont * attrs * bytes)%type.
Record es := ES { e_lo : nat; e_stk : list ifr; e_pnd : pnd }.
(** More text in the open containers. *)
Definition add {A} (t : bytes) (stk : list (A * bytes)) : list (A * bytes) := map (fun f => (fst f, snd f ++ t)) stk.
(** The text of an event. *)
Definition atext (a : iatom) (t : bytes) : bytes :=
  match a with ISoftbreak | IHardbreak => [SP] | IEscape => [] | _ => t end.
Definition itext (src : bytes) (e : iev) : bytes :=
  match ik e with IStr => slice src (isp e) | IAtom a => atext a (slice src (isp e)) | _ => [] end.
Definition itexts (src : bytes) (E : list iev) : bytes := flat_map (itext src) E.
Lemma add_add {A} t u (stk : list (A * bytes)) : add u (add t stk) = add (t ++ u) stk.
Proof. unfold add. rewrite map_map. apply map_ext. intros [f x]. cbn. rewrite app_assoc. reflexivity. Qed.
Lemma add_nil {A} (stk : list (A * bytes)) : add [] stk = stk.
Proof. unfold add. rewrite <- (map_id stk) at 2. apply map_ext. intros [f x]. cbn. rewrite app_nil_r. reflexivity. Qed.
Lemma add_app {A} t (s u : list (A * bytes)) : add t (s ++ u) = add t s ++ add t u.
Proof. apply map_app. Qed.
Lemma add_none {A} t (stk : list (A * bytes)) : add t stk = [] -> stk = [].
Proof. destruct stk; [auto|discriminate]. Qed.
Definition patt (p : pnd) : attrs := match p with PCont a => a | _ => [] end.

(** Containers that hold nothing but text. *)
Definition texty_cont (c : icont) : bool := match c with CAutolink _ => true | _ => is_verb_cont c end.
Definition open_stk (stk : list ifr) : Prop := match stk with (c, _, _) :: _ => texty_cont c = false | [] => True end.
(** The index of a link's destination exists. *)
Definition cidx (c : icont) (cw : list bytes) : Prop :=
  match c with
  | CReferenceLink i | CReferenceImage i | CInlineLink i | CInlineImage i => i < length cw
  | _ => True
  end.
(** The attributes exist, and are those written at the range [sp]. *)
Definition aval (src : bytes) (al : list attrs) (i : nat) (sp : span) (a : attrs) : Prop :=
  nth_error al i = Some a /\ a <> [] /\ set_on src sp a /\ braced (slice src sp).
Definition aidx (src : bytes) (al : list attrs) (i : nat) (sp : span) : Prop := exists a, aval src al i sp a.
(** A public container spelled like an inline container. *)
Definition pub (cw : list bytes) (c : icont) : container :=
  match c with
  | CSpan => Span_ | CVerbatim => Verbatim | CInlineMath => Math false | CDisplayMath => Math true | CRawFormat f => RawInline f
  | CSubscript => Subscript | CSuperscript => Superscript | CInsert => Insert | CDelete => Delete | CEmphasis => Emphasis
  | CStrong => Strong | CMark => Mark
  | CInlineLink i => Link (nth i cw []) (LSpan LInline) | CInlineImage i => Image (nth i cw []) LInline
  | CReferenceLink i => Link [] (LSpan LReference) | CReferenceImage i => Image [] LReference
  | CAutolink url => Link url (if existsb (fun c => beq c "@") url then LEmail else LAutoLink)
  end.

(** The text of a verbatim container begins with its opening delimiter and a line break. *)
Definition vopen (c : icont) (t : bytes) : bytes := if is_verb_cont c then t ++ [NL] else [].
(** The closing delimiter of an inline container: that of a reference link has the label, or is [\]\[\]]. *)
Definition ilabel (src : bytes) (nc : list bytes) (c : icont) (txt x : bytes) : Prop :=
  match c with
  | CReferenceLink i | CReferenceImage i => forall m, x = B "][" ++ m ++ B "]" -> (m = [] -> nth i nc [] = txt) /\ (m <> [] -> nth i nc [] = m \/ List.In NL m \/ two_sets src)
  | CVerbatim | CInlineMath | CDisplayMath | CRawFormat _ => exists o t, txt = o ++ NL :: t /\ fenced_by o x
  | _ => True
  end.
Definition icloser (src : bytes) (nc : list bytes) (c : icont) (txt x : bytes) : Prop := closer src (pub nc c) x /\ ilabel src nc c txt x.
Definition iattr (c : icont) : bool := match c with CRawFormat _ | CAutolink _ => false | _ => true end.
Definition iauto (src : bytes) (c : icont) (q : nat) : Prop :=
  match c with CAutolink d => exists p, p + 1 + length d = q /\ slice src (Sp p q) = B "<" ++ d | _ => True end.
Definition iends (src : bytes) (nc : list bytes) (c : icont) (a : attrs) (txt : bytes) (sp : span) : Prop :=
  exists m, ss sp <= m /\ m <= se sp /\ icloser src nc c txt (slice src (Sp (ss sp) m)) /\ iauto src c (ss sp) /\
    ((m = se sp /\ a = [] /\ c <> CSpan) \/
     (iattr c = true /\ set_on src (Sp m (se sp)) a /\ braced (slice src (Sp m (se sp))))).

Lemma vopen_open c t : texty_cont c = false -> vopen c t = [].
Proof. destruct c; auto; discriminate. Qed.
Section Runs.
Variable src : bytes.
Variable nc : list bytes.
Variable al : list attrs.

Inductive estep : es -> iev -> es -> Prop :=
| e_str lo stk sp : lo <= ss sp -> span_ok src sp -> estep (ES lo stk PNone) (IE IStr sp) (ES (se sp) (add (slice src sp) stk) PNone)
| e_ph lo stk sp : open_stk stk -> lo <= ss sp -> span_ok src sp -> ss sp = se sp ->
    estep (ES lo stk PNone) (IE IPlaceholder sp) (ES (se sp) stk PNone)
| e_atom lo stk a sp : open_stk stk -> lo <= ss sp -> span_ok src sp -> spelled src (atom_event a) (slice src sp) ->
    estep (ES lo stk PNone) (IE (IAtom a) sp) (ES (se sp) (add (atext a (slice src sp)) stk) PNone)
| e_cattr lo stk i sp a : open_stk stk -> aval src al i sp a -> span_ok src sp ->
    estep (ES lo stk PNone) (IE (IAttributes true i) sp) (ES lo stk (PCont a))
| e_wattr lo stk i sp : open_stk stk -> aidx src al i sp -> lo <= ss sp -> span_ok src sp ->
    estep (ES lo stk PNone) (IE (IAttributes false i) sp) (ES lo stk (PWord sp))
| e_empty lo stk sp : lo <= ss sp -> span_ok src sp ->
    estep (ES lo stk (PWord sp)) (IE IEmpty sp) (ES (se sp) stk PNone)
| e_enter lo stk p c sp : (forall w, p <> PWord w) -> open_stk stk -> cidx c nc -> lo <= ss sp -> span_ok src sp -> opens_with (pub nc c) (slice src sp) ->
    estep (ES lo stk p) (IE (IEnter c) sp) (ES (se sp) ((c, patt p, vopen c (slice src sp)) :: stk) PNone)
| e_exit lo stk c a x sp : lo <= ss sp -> span_ok src sp -> iends src nc c a x sp ->
    estep (ES lo ((c, a, x) :: stk) PNone) (IE (IExit c) sp) (ES (se sp) stk PNone).

Inductive runs : es -> list iev -> es -> Prop :=
| r_nil s : runs s [] s
| r_cons s e s' E s'' : estep s e s' -> runs s' E s'' -> runs s (e :: E) s''.

Lemma runs_app s E s' F s'' : runs s E s' -> runs s' F s'' -> runs s (E ++ F) s''.
Proof. induction 1; intros; cbn; [auto|econstructor; eauto]. Qed.
Lemma runs_one s e s' : estep s e s' -> runs s [e] s'.
Proof. intros. econstructor; [eauto|constructor]. Qed.
Lemma runs_split s E F s'' : runs s (E ++ F) s'' -> exists s', runs s E s' /\ runs s' F s''.
Proof.
  revert s; induction E as [|e E IH]; intros s H; cbn in H.
  - exists s. split; [constructor|auto].
  - inversion H as [|? ? s1 ? ? H1 H2]; subst. apply IH in H2. destruct H2 as (s' & A1 & A2). exists s'. split; [econstructor; eauto|auto].
Qed.
Lemma estep_lo s e s' : estep s e s' -> e_lo s <= e_lo s'.
Proof. intros H; inversion H; subst; cbn; try lia; match goal with H : span_ok _ _ |- _ => destruct H end; lia. Qed.
Lemma runs_lo s E s' : runs s E s' -> e_lo s <= e_lo s'.
Proof. induction 1; [lia|]. apply estep_lo in H. lia. Qed.
Lemma estep_span s e s' : estep s e s' -> span_ok src (isp e).
Proof. intros H; inversion H; subst; auto. Qed.
Lemma runs_spans s E s' : runs s E s' -> Forall (fun e => span_ok src (isp e)) E.
Proof. induction 1; constructor; auto. eapply estep_span; eauto. Qed.

(** Start earlier. *)
Lemma estep_down lo lo' stk p e s' : estep (ES lo stk p) e s' -> lo' <= lo ->
  exists lo2, lo2 <= e_lo s' /\ estep (ES lo' stk p) e (ES lo2 (e_stk s') (e_pnd s')) /\ (lo2 = e_lo s' \/ lo2 = lo').
Proof.
  intros H Hl. inversion H; subst; cbn;
    (eexists; split; [|split; [econstructor; eauto; lia|auto]]; lia).
Qed.
Lemma runs_down lo stk p E s' : runs (ES lo stk p) E s' -> forall lo', lo' <= lo ->
  exists lo2, lo2 <= e_lo s' /\ runs (ES lo' stk p) E (ES lo2 (e_stk s') (e_pnd s')).
Proof.
  remember (ES lo stk p) as s eqn:Es. intros H. revert lo stk p Es.
  induction H as [s|s e s1 E s2 H1 H2 IH]; intros lo stk p -> lo' Hl.
  - exists lo'. cbn. split; [auto|constructor].
  - destruct (estep_down _ _ _ _ _ _ H1 Hl) as (lo2 & A1 & A2 & _). destruct s1 as [l1 k1 p1]. cbn in *.
    destruct (IH _ _ _ eq_refl lo2 A1) as (lo3 & A3 & A4). exists lo3. split; [auto|]. econstructor; eauto.
Qed.
(** Run inside more containers. *)
Lemma open_stk_app stk S : open_stk stk -> open_stk S -> open_stk (stk ++ S).
Proof. destruct stk as [|[[]]]; cbn; auto. Qed.
Lemma open_add t stk : open_stk stk -> open_stk (add t stk).
Proof. destruct stk as [|[[]]]; cbn; auto. Qed.
Lemma estep_frame s e s' S : open_stk S -> estep s e s' ->
  estep (ES (e_lo s) (e_stk s ++ S) (e_pnd s)) e (ES (e_lo s') (e_stk s' ++ add (itext src e) S) (e_pnd s')).
Proof. intros HS H; inversion H; subst; unfold itext; cbn [e_lo e_stk e_pnd ik isp]; rewrite <- ?add_app, ?add_nil; econstructor; eauto using open_stk_app. Qed.
Lemma runs_frame s E s' S : open_stk S -> runs s E s' ->
  runs (ES (e_lo s) (e_stk s ++ S) (e_pnd s)) E (ES (e_lo s') (e_stk s' ++ add (itexts src E) S) (e_pnd s')).
Proof.
  intros HS H; revert S HS; induction H; intros S HS; [rewrite add_nil; constructor|].
  econstructor; [apply estep_frame; eauto|]. cbn [itexts flat_map]. rewrite <- add_add. apply IHruns. apply open_add. exact HS.
Qed.

(** ** Balanced sequences *)
Definition bal (lo : nat) (E : list iev) (hi : nat) : Prop :=
  exists m, m <= hi /\ runs (ES lo [] PNone) E (ES m [] PNone).
Lemma bal_nil a b : a <= b -> bal a [] b.
Proof. intros H. exists a. split; [auto|constructor]. Qed.
Lemma bal_app a E b F c : bal a E b -> bal b F c -> bal a (E ++ F) c.
Proof.
  intros (m & H1 & H2) (n & H3 & H4). destruct (runs_down _ _ _ _ _ H4 m H1) as (n' & H5 & H6). cbn in *.
  exists n'. split; [lia|]. eapply runs_app; eauto.
Qed.
Lemma bal_weaken a E b a' b' : bal a E b -> a' <= a -> b <= b' -> bal a' E b'.
Proof.
  intros (m & H1 & H2) Ha Hb. destruct (runs_down _ _ _ _ _ H2 a' Ha) as (n & H5 & H6). cbn in *. exists n. split; [lia|auto].
Qed.
Lemma bal_le a E b : bal a E b -> a <= b.
Proof. intros (m & H1 & H2). apply runs_lo in H2. cbn in H2. lia. Qed.
Lemma bal_spans a E b : bal a E b -> Forall (fun e => span_ok src (isp e)) E.
Proof. intros (m & _ & H). eapply runs_spans; eauto. Qed.
Lemma bal_str a sp b : a <= ss sp -> span_ok src sp -> se sp <= b -> bal a [IE IStr sp] b.
Proof. intros. exists (se sp). split; [auto|]. apply runs_one. constructor; auto. Qed.
Lemma bal_atom a x sp b : a <= ss sp -> span_ok src sp -> spelled src (atom_event x) (slice src sp) -> se sp <= b -> bal a [IE (IAtom x) sp] b.
Proof. intros. exists (se sp). split; [auto|]. apply runs_one. constructor; cbn; auto. Qed.
Lemma bal_ph a sp b : a <= ss sp -> span_ok src sp -> se sp <= b -> ss sp = se sp -> bal a [IE IPlaceholder sp] b.
Proof. intros. exists (se sp). split; [auto|]. apply runs_one. constructor; cbn; auto. Qed.
Lemma bal_word a sp i b : a <= ss sp -> span_ok src sp -> se sp <= b -> aidx src al i sp ->
  bal a [IE (IAttributes false i) sp; IE IEmpty sp] b.
Proof. intros. exists (se sp). split; [auto|]. econstructor; [constructor; cbn; auto|]. apply runs_one. constructor; auto. Qed.
(** A container around a balanced sequence. *)
Lemma bal_cont a c sp1 E b sp2 d : a <= ss sp1 -> span_ok src sp1 -> cidx c nc -> texty_cont c = false ->
  opens_with (pub nc c) (slice src sp1) -> iends src nc c [] (vopen c (slice src sp1) ++ itexts src E) sp2 ->
  bal (se sp1) E b -> b <= ss sp2 -> span_ok src sp2 -> se sp2 <= d ->
  bal a (IE (IEnter c) sp1 :: E ++ [IE (IExit c) sp2]) d.
Proof.
  intros H1 H2 H3 H4 Ho Hc (m & H5 & H6) H7 H8 H9. rewrite (vopen_open c (slice src sp1) H4) in Hc. cbn [app] in Hc. exists (se sp2). split; [auto|].
  apply (r_cons _ _ (ES (se sp1) [(c, [], [])] PNone)); [rewrite <- (vopen_open c (slice src sp1) H4); apply (e_enter a [] PNone); cbn; auto; discriminate|].
  apply (runs_frame _ _ _ [(c, [], [])]) in H6; [|cbn; auto]. cbn in H6. eapply runs_app; [exact H6|].
  apply runs_one. constructor; auto; lia.
Qed.
Lemma bal_acont a i sp0 w c sp1 E b sp2 d : aval src al i sp0 w -> span_ok src sp0 -> a <= ss sp1 -> span_ok src sp1 -> cidx c nc -> texty_cont c = false ->
  opens_with (pub nc c) (slice src sp1) -> iends src nc c w (vopen c (slice src sp1) ++ itexts src E) sp2 ->
  bal (se sp1) E b -> b <= ss sp2 -> span_ok src sp2 -> se sp2 <= d ->
  bal a (IE (IAttributes true i) sp0 :: IE (IEnter c) sp1 :: E ++ [IE (IExit c) sp2]) d.
Proof.
  intros Hi Hsp H1 H2 H3 H4 Ho Hc (m & H5 & H6) H7 H8 H9. rewrite (vopen_open c (slice src sp1) H4) in Hc. cbn [app] in Hc. exists (se sp2). split; [auto|].
  apply (r_cons _ _ (ES a [] (PCont w))); [constructor; cbn; auto|].
  apply (r_cons _ _ (ES (se sp1) [(c, w, [])] PNone)); [rewrite <- (vopen_open c (slice src sp1) H4); apply (e_enter a [] (PCont w)); cbn; auto; discriminate|].
  apply (runs_frame _ _ _ [(c, w, [])]) in H6; [|cbn; auto]. cbn in H6. eapply runs_app; [exact H6|].
  apply runs_one. constructor; auto; lia.
Qed.
(** The same for containers of text. *)
Definition strs (E : list iev) : Prop := Forall (fun e => ik e = IStr) E.
Lemma runs_strs lo stk E s' : strs E -> runs (ES lo stk PNone) E s' -> exists m, s' = ES m (add (itexts src E) stk) PNone.
Proof.
  revert lo stk; induction E as [|e E IH]; intros lo stk Hs H; inversion H as [|? ? s1 ? ? H1 H2]; subst; [cbn; rewrite add_nil; eauto|].
  inversion Hs as [|? ? Hk Hs']; subst. destruct e as [k sp]. cbn in Hk. subst k. inversion H1; subst.
  destruct (IH _ _ Hs' H2) as (m & ->). exists m. cbn [itexts flat_map]. unfold itext at 2. cbn [ik isp]. rewrite add_add. reflexivity.
Qed.
Lemma runs_strs_frame lo E m stk stk1 stk2 : strs E -> runs (ES lo stk PNone) E (ES m stk1 PNone) ->
  runs (ES lo stk2 PNone) E (ES m (add (itexts src E) stk2) PNone).
Proof.
  revert lo stk stk2; induction E as [|e E IH]; intros lo stk stk2 Hs H; inversion H as [|? ? s1 ? ? H1 H2]; subst; [cbn; rewrite add_nil; constructor|].
  inversion Hs as [|? ? Hk Hs']; subst. destruct e as [k sp]. cbn in Hk. subst k. inversion H1; subst.
  econstructor; [constructor; auto|]. cbn [itexts flat_map]. unfold itext at 1. cbn [ik isp]. rewrite <- add_add. eapply IH; eauto.
Qed.
Lemma bal_tcont a w c sp1 E b sp2 d (pre : list iev) : strs E ->
  (pre = [] /\ w = [] \/ exists i sp0, pre = [IE (IAttributes true i) sp0] /\ aval src al i sp0 w /\ span_ok src sp0) ->
  a <= ss sp1 -> span_ok src sp1 -> cidx c nc -> opens_with (pub nc c) (slice src sp1) -> iends src nc c w (vopen c (slice src sp1) ++ itexts src E) sp2 ->
  bal (se sp1) E b -> b <= ss sp2 -> span_ok src sp2 -> se sp2 <= d ->
  bal a (pre ++ IE (IEnter c) sp1 :: E ++ [IE (IExit c) sp2]) d.
Proof.
  intros Hs Hpre H1 H2 H3 Ho Hc (m & H5 & H6) H7 H8 H9. exists (se sp2). split; [auto|].
  assert (Hr : forall q, patt q = w -> (forall x, q <> PWord x) -> runs (ES a [] q) (IE (IEnter c) sp1 :: E ++ [IE (IExit c) sp2]) (ES (se sp2) [] PNone)).
  { intros q Hq Hq2. apply (r_cons _ _ (ES (se sp1) [(c, w, vopen c (slice src sp1))] PNone)); [rewrite <- Hq; apply (e_enter a [] q); cbn; auto|].
    apply (runs_strs_frame _ _ _ _ _ [(c, w, vopen c (slice src sp1))] Hs) in H6. eapply runs_app; [exact H6|]. apply runs_one. constructor; auto; lia. }
  destruct Hpre as [[-> ->]|(i & sp0 & -> & Hi & Hsp)]; cbn; [apply Hr; [auto|discriminate]|].
  apply (r_cons _ _ (ES a [] (PCont w))); [constructor; cbn; auto|]. apply Hr; [auto|discriminate].
Qed.

(** ** Events with unclosed openers *)
Definition is_link (o : opener) : bool := match o with OpLink _ _ _ => true | _ => false end.
(** The text of an opener; [\[] may have swallowed a [^]. *)
Definition op_text (op : opener) (t : bytes) : Prop :=
  match op with
  | OpSpan SpImage => t = B "!["
  | OpSpan SpGeneral => t = B "[" \/ t = B "[^"
  | OpStrong Bi => t = B "*" | OpStrong Uni => t = B "{*"
  | OpEmphasis Bi => t = B "_" | OpEmphasis Uni => t = B "{_"
  | OpSuperscript Bi => t = B "^" | OpSuperscript Uni => t = B "{^"
  | OpSubscript Bi => t = B "~" | OpSubscript Uni => t = B "{~"
  | OpMark => t = B "{=" | OpDelete => t = B "{-" | OpInsert => t = B "{+"
  | OpSingleQuoted => t = B "'" \/ t = B "{'"
  | OpDoubleQuoted => t = [DQ] \/ t = B "{" ++ [DQ]
  | OpLink _ _ _ => False
  end.
(** [ls]: the start of the current line.  A link's second opener is on this line or a line break follows it. *)
Variable ls : nat.
Definition soa (k : ikind) (t : bytes) : Prop := k = IStr \/ exists a, k = IAtom a /\ spelled src (atom_event a) t.
(** The events of opener [op], recorded with event index [e], when [n] events precede. *)
Inductive hdr : opener -> nat -> nat -> nat -> list iev -> nat -> Prop :=
| h_plain op n a p k sp b : is_link op = false -> a <= p -> span_ok src (Sp p p) -> soa k (slice src sp) -> op_text op (slice src sp) ->
    p <= ss sp -> span_ok src sp -> se sp <= b -> (forall t, op = OpSpan t -> k = IStr) ->
    hdr op n n a [IE IPlaceholder (Sp p p); IE k sp] b
| h_link (im il : bool) es e n a p s0 T t s1 s2 b : es = n + 1 -> e = n + length T + 3 -> a <= p -> span_ok src (Sp p p) ->
    p <= ss s0 -> span_ok src s0 -> bal (se s0) T t -> t <= ss s1 -> span_ok src s1 -> se s1 <= ss s2 -> span_ok src s2 -> se s2 <= b ->
    op_text (OpSpan (if im then SpImage else SpGeneral)) (slice src s0) -> slice src s1 = B "]" -> slice src s2 = (if il then B "(" else B "[") ->
    se s1 = ss s2 -> (ls <= ss s2 \/ (exists q, ss s2 <= q < ls /\ nth_error src q = Some NL) \/ two_sets src) ->
    hdr (OpLink es im il) e n a (IE IPlaceholder (Sp p p) :: IE IStr s0 :: T ++ [IE IStr s1; IE IStr s2]) b.
Lemma bal_soa a k sp b : soa k (slice src sp) -> a <= ss sp -> span_ok src sp -> se sp <= b -> bal a [IE k sp] b.
Proof. intros [->|(x & -> & Hx)]; auto using bal_str, bal_atom. Qed.
Lemma hdr_bal op e n a H b : hdr op e n a H b -> bal a H b.
Proof.
  intros Hh. inversion Hh; subst.
  - apply (bal_app _ [_] p [_]); [apply bal_ph; cbn; auto|apply bal_soa; auto].
  - apply (bal_app _ [_] p); [apply bal_ph; cbn; auto|].
    apply (bal_app _ [_] (se s0)); [apply bal_str; auto|]. eapply bal_app; [eauto|].
    apply (bal_app _ [_] (se s1) [_]); apply bal_str; auto.
Qed.

Inductive zip : nat -> list (opener * nat) -> list iev -> nat -> Prop :=
| z_base lo E hi : bal lo E hi -> zip lo [] E hi
| z_op lo ops A a op e H b body hi : zip lo ops A a -> hdr op e (length A) a H b -> bal b body hi ->
    zip lo (ops ++ [(op, e)]) (A ++ H ++ body) hi.

Lemma zip_bal lo ops E hi : zip lo ops E hi -> bal lo E hi.
Proof. induction 1; [auto|]. eapply bal_app; [eauto|]. eapply bal_app; [eapply hdr_bal; eauto|auto]. Qed.
Lemma zip_nil lo E hi : zip lo [] E hi -> bal lo E hi.
Proof. apply zip_bal. Qed.
Lemma zip_app lo ops E a F b : zip lo ops E a -> bal a F b -> zip lo ops (E ++ F) b.
Proof.
  intros H HF. inversion H; subst.
  - constructor. eapply bal_app; eauto.
  - rewrite <- !app_assoc. eapply z_op; eauto. eapply bal_app; eauto.
Qed.
Lemma zip_weaken lo ops E a b : zip lo ops E a -> a <= b -> zip lo ops E b.
Proof. intros H Hb. rewrite <- (app_nil_r E). eapply zip_app; eauto. apply bal_nil. auto. Qed.
Lemma zip_open lo ops A a op e H b : zip lo ops A a -> hdr op e (length A) a H b -> zip lo (ops ++ [(op, e)]) (A ++ H) b.
Proof. intros H1 H2. rewrite <- (app_nil_r H). eapply z_op; eauto. apply bal_nil. auto. Qed.
Lemma zip_split lo ops E hi : zip lo ops E hi -> forall o op e, nth_error ops o = Some (op, e) ->
  exists A a H b body, E = A ++ H ++ body /\ zip lo (firstn o ops) A a /\ hdr op e (length A) a H b /\ bal b body hi.
Proof.
  induction 1 as [lo E hi HE|lo ops A a op e H b body hi HA IH Hh Hb]; intros o op' e' Ho.
  - destruct o; discriminate.
  - destruct (Nat.lt_ge_cases o (length ops)) as [Hlt|Hge].
    + rewrite nth_error_app1 in Ho by auto. destruct (IH _ _ _ Ho) as (A' & a' & H' & b' & body' & -> & H1 & H2 & H3).
      exists A', a', H', b', (body' ++ H ++ body). split; [rewrite <- !app_assoc; reflexivity|]. split.
      * rewrite firstn_app. replace (o - length ops) with 0 by lia. rewrite app_nil_r. exact H1.
      * split; [exact H2|]. eapply bal_app; [exact H3|]. eapply bal_app; [eapply hdr_bal; eauto|exact Hb].
    + rewrite nth_error_app2 in Ho by auto. destruct (o - length ops) as [|[|x]] eqn:Eo; cbn in Ho; try discriminate.
      injection Ho as <- <-. exists A, a, H, b, body. split; [reflexivity|]. split; [|auto].
      rewrite firstn_app, Eo, app_nil_r. rewrite firstn_all2 by lia. exact HA.
Qed.
Lemma zip_le lo ops E hi : zip lo ops E hi -> lo <= hi.
Proof. intros H. apply zip_bal in H. eapply bal_le; eauto. Qed.
Lemma zip_drop lo ops E hi n : zip lo ops E hi -> exists A B m, E = A ++ B /\ zip lo (firstn n ops) A m /\ bal m B hi.
Proof.
  intros H. destruct (nth_error ops n) as [[op e]|] eqn:En.
  - destruct (zip_split _ _ _ _ H _ _ _ En) as (A & a & H' & b & body & -> & H1 & H2 & H3). exists A, (H' ++ body), a.
    split; [auto|]. split; [auto|]. eapply bal_app; [eapply hdr_bal; eauto|auto].
  - exists E, [], hi. rewrite app_nil_r. split; [auto|]. apply nth_error_None in En. rewrite firstn_all2 by auto. split; [auto|apply bal_nil; auto].
Qed.
(** Shorten the last event, a text. *)
Lemma bal_shrink lo E a b hi b' : bal lo (E ++ [IE IStr (Sp a b)]) hi -> a <= b' <= b -> boundary src b' = true ->
  bal lo (E ++ [IE IStr (Sp a b')]) b'.
Proof.
  intros (m & H1 & H2) Hb Hbd. apply runs_split in H2. destruct H2 as (s & H2 & H3).
  inversion H3 as [|? ? ? ? ? H4 H5]; subst. inversion H5; subst. inversion H4; subst. match goal with H : add _ ?k = [] |- _ => apply add_none in H; subst k end. cbn [e_lo e_stk e_pnd ss se] in *.
  exists b'. split; [auto|]. eapply runs_app; [exact H2|]. apply runs_one.
  match goal with |- estep ?s ?e _ => assert (Hx : estep s e (ES (se (Sp a b')) [] PNone)); [|exact Hx] end.
  match goal with H : span_ok _ _ |- _ => destruct H as (S1 & S2 & S3 & S4) end. cbn in *.
  constructor; cbn; auto. repeat split; cbn; auto; lia.
Qed.
Lemma app_snoc_inv {A} (X Y : list A) E x : X ++ Y = E ++ [x] ->
  (Y = [] /\ X = E ++ [x]) \/ exists Y', Y = Y' ++ [x] /\ E = X ++ Y'.
Proof.
  intros H. destruct (rev_case Y) as [->|(Y' & y & ->)].
  - rewrite app_nil_r in H. auto.
  - rewrite app_assoc in H. apply app_inj_tail in H. destruct H as [<- ->]. right. eauto.
Qed.
Lemma slice_last_nth a b x t : slice src (Sp a b) = t -> a < b -> b <= length src -> nth_error src (b - 1) = Some x -> last t "000"%char = x.
Proof.
  intros <- Hl Hs H. assert (E : slice src (Sp a b) = slice src (Sp a (b - 1)) ++ [x]).
  { replace (Sp a b) with (Sp a (S (b - 1))) by (f_equal; lia). apply slice_snoc; [lia|auto]. }
  rewrite E. apply last_last.
Qed.
Lemma zip_shrink lo ops E a b hi b' : zip lo ops (E ++ [IE IStr (Sp a b)]) hi -> a < b -> b <= length src -> nth_error src (b - 1) = Some "$"%char ->
  a <= b' <= b -> boundary src b' = true -> zip lo ops (E ++ [IE IStr (Sp a b')]) b'.
Proof.
  remember (E ++ [IE IStr (Sp a b)]) as E0 eqn:EE. intros H Hab Hlen Hdol Hb Hbd. destruct H as [lo E0 hi HE|lo ops A x op e H y body hi HA Hh Hbody].
  - subst. constructor. eapply bal_shrink; eauto.
  - rewrite app_assoc in EE. apply app_snoc_inv in EE. destruct EE as [[-> EE]|(Y & -> & ->)].
    + exfalso.
      assert (HH : exists H', H = H' ++ [IE IStr (Sp a b)]).
      { apply app_snoc_inv in EE. destruct EE as [[-> _]|(Y & -> & ->)]; [inversion Hh|]. eauto. }
      destruct HH as (H' & ->).
      inversion Hh as [op0 n0 a0 p k sp b0 I1 I2 I3 I4 It I5 I6 I7 I8 J1 J2 J3 J4 J5 J6|im il es0 e0 n0 a0 p s0 T t s1 s2 b0 I1 I2 I3 I4 I5 I6 I7 I8 I9 I10 I11 I12 K1 K2 K3 K4 K5 J1 J2 J3 J4 J5 J6]; subst.
      * change [IE IPlaceholder (Sp p p); IE k sp] with ([IE IPlaceholder (Sp p p)] ++ [IE k sp]) in J5. apply app_inj_tail in J5.
        destruct J5 as [_ J5]. injection J5 as -> ->.
        destruct op as [[]|[]|[]|[]|[]| | | | | |]; cbn in It; try destruct It as [It|It]; try contradiction; apply (slice_last_nth _ _ _ _ It Hab Hlen) in Hdol; discriminate Hdol.
      * match type of J5 with ?u :: ?v :: T ++ [?w; ?z] = _ => change (u :: v :: T ++ [w; z]) with ((u :: v :: T) ++ [w] ++ [z]) in J5 end.
        rewrite app_assoc in J5. apply app_inj_tail in J5. destruct J5 as [_ J5]. injection J5 as ->.
        apply (slice_last_nth _ _ _ _ K3 Hab Hlen) in Hdol. destruct il; discriminate Hdol.
    + replace ((A ++ H) ++ Y) with (A ++ H ++ Y) by (rewrite app_assoc; reflexivity). rewrite <- !app_assoc. eapply z_op; eauto. eapply bal_shrink; eauto.
Qed.
End Runs.

(** More destinations and attribute sets. *)
Lemma aidx_mono src al al' i sp : aidx src al i sp -> aidx src (al ++ al') i sp.
Proof. intros (a & H1 & H2). exists a. split; [|auto]. rewrite nth_error_app1; [auto|]. apply nth_error_Some. congruence. Qed.
Lemma aval_mono src al al' i sp a : aval src al i sp a -> aval src (al ++ al') i sp a.
Proof. intros (H1 & H2). split; [|auto]. rewrite nth_error_app1; [auto|]. apply nth_error_Some. congruence. Qed.
Lemma cidx_mono c nc nc' : cidx c nc -> cidx c (nc ++ nc').
Proof. destruct c; cbn; auto; rewrite app_length; lia. Qed.
Lemma opens_mono nc nc' c t : opens_with (pub nc c) t -> opens_with (pub (nc ++ nc') c) t.
Proof. destruct c; cbn; auto. Qed.
Lemma iauto_attr src c q : iattr c = true -> iauto src c q.
Proof. destruct c; try discriminate; intros; exact I. Qed.
Lemma icloser_mono src nc nc' c x t : cidx c nc -> icloser src nc c x t -> icloser src (nc ++ nc') c x t.
Proof. destruct c; unfold icloser; cbn; auto; intros H; rewrite app_nth1 by auto; auto. Qed.
Lemma iends_mono src nc nc' c a x sp : cidx c nc -> iends src nc c a x sp -> iends src (nc ++ nc') c a x sp.
Proof. intros H (m & H1 & H2 & H3 & H4). exists m. split; [auto|]. split; [auto|]. split; [auto using icloser_mono|]. exact H4. Qed.
Lemma estep_mono src nc al nc' al' s e s' : Forall (fun c => cidx (fst (fst c)) nc) (e_stk s) -> estep src nc al s e s' -> estep src (nc ++ nc') (al ++ al') s e s'.
Proof.
  intros Hk H; inversion H; subst; econstructor; eauto using aidx_mono, aval_mono, cidx_mono, opens_mono. apply iends_mono; auto. cbn in Hk. inversion Hk; auto.
Qed.
Lemma estep_stk src nc al s e s' : Forall (fun c => cidx (fst (fst c)) nc) (e_stk s) -> estep src nc al s e s' -> Forall (fun c => cidx (fst (fst c)) nc) (e_stk s').
Proof.
  intros Hk H; inversion H; subst; cbn in *; auto; try (inversion Hk; auto; fail); unfold add; apply Forall_map; eapply Forall_impl; try exact Hk; intros [[]]; auto.
Qed.
Lemma runs_mono src nc al nc' al' s E s' : Forall (fun c => cidx (fst (fst c)) nc) (e_stk s) -> runs src nc al s E s' -> runs src (nc ++ nc') (al ++ al') s E s'.
Proof. intros Hk H; induction H; [constructor|]. econstructor; eauto using estep_mono, estep_stk. Qed.
Lemma bal_mono src nc al nc' al' a E b : bal src nc al a E b -> bal src (nc ++ nc') (al ++ al') a E b.
Proof. intros (m & H1 & H2). exists m. split; [auto|]. eapply runs_mono; eauto. constructor. Qed.
Lemma hdr_mono src nc al nc' al' ls op e n a H b : hdr src nc al ls op e n a H b -> hdr src (nc ++ nc') (al ++ al') ls op e n a H b.
Proof. intros Hh; inversion Hh; subst; econstructor; eauto using bal_mono. Qed.
Lemma zip_mono src nc al nc' al' ls lo ops E hi : zip src nc al ls lo ops E hi -> zip src (nc ++ nc') (al ++ al') ls lo ops E hi.
Proof. intros H; induction H; econstructor; eauto using bal_mono, hdr_mono. Qed.
Lemma zip_mono_a src nc al al' ls lo ops E hi : zip src nc al ls lo ops E hi -> zip src nc (al ++ al') ls lo ops E hi.
Proof. intros H. apply (zip_mono _ _ _ [] al') in H. rewrite app_nil_r in H. exact H. Qed.
Lemma bal_mono_a src nc al al' a E b : bal src nc al a E b -> bal src nc (al ++ al') a E b.
Proof. intros H. apply (bal_mono _ _ _ [] al') in H. rewrite app_nil_r in H. exact H. Qed.
(** The next line becomes the current one. *)
Lemma zip_line src nc al ls ls' lo ops E hi : zip src nc al ls lo ops E hi ->
  (ls' = ls \/ ls' = 0 \/ exists e, hi <= e /\ e <= ls' /\ 0 < e /\ nth_error src (e - 1) = Some NL) -> zip src nc al ls' lo ops E hi.
Proof.
  intros H [->|Hl]; [exact H|revert Hl]. induction H as [lo E hi HE|lo ops A a op e H b body hi HA IH Hh Hb]; intros Hl; [constructor; auto|].
  pose proof (bal_le _ _ _ _ _ _ Hb) as B1. pose proof (hdr_bal _ _ _ _ _ _ _ _ _ _ Hh) as B2. apply bal_le in B2.
  eapply z_op; [apply IH|  |exact Hb].
  - destruct Hl as [->|(x & X1 & X2)]; [auto|right; exists x; split; [lia|auto]].
  - inversion Hh; subst; econstructor; eauto. destruct Hl as [->|(x & X1 & X2 & X3 & X4)]; [left; lia|].
    right. left. exists (x - 1). split; [|auto]. match goal with H : slice src s2 = _, K : span_ok src s2 |- _ => assert (ss s2 < se s2) end; [|lia].
    match goal with K : span_ok src s2 |- _ => pose proof (span_ok_len _ _ K) as Hlen; destruct K as (K & _) end.
    match goal with H : slice src s2 = _ |- _ => rewrite H in Hlen end. destruct il; cbn in Hlen; lia.
Qed.
