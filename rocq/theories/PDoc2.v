(** * PDoc2: the public events of one leaf block *)
From Verif Require Import Base Lex Attr Block Inline Doc Lib SpecAttr SpecSrc PAttr PSafe PBlock2 PBlock3 PBlock4 PInl1 PInl2 PInl3 PInl6 PInl10 PInl11 PInl12 PGram PDoc1.
Local Open Scope nat_scope.

(** Inline containers that hold only text. *)
Definition textual (c : container) : bool :=
  match c with Verbatim | Math _ | RawInline _ | Link _ LAutoLink | Link _ LEmail => true | _ => false end.
Definition inline_cont (c : container) : bool :=
  match c with
  | Span_ | Link _ _ | Image _ _ | Verbatim | Math _ | RawInline _ | Subscript | Superscript | Insert | Delete
  | Strong | Emphasis | Mark => true
  | _ => false
  end.
Definition inline_atom (e : event) : bool :=
  match e with
  | FootnoteReference _ | Symbol _ | LeftSingleQuote | RightSingleQuote | LeftDoubleQuote | RightDoubleQuote
  | Ellipsis | EnDash | EmDash | NonBreakingSpace | Softbreak | Hardbreak | Escape => true
  | _ => false
  end.
Definition popen (st : list container) : Prop := match st with c :: _ => textual c = false | [] => True end.

Lemma written_app src a b : written src a -> written src b -> written src (a ++ b).
Proof. intros H Hb. induction H; cbn [app]; [auto|]. rewrite <- app_assoc. econstructor; eauto. Qed.
Definition ref_cont (c : container) : bool := match c with Link _ (LSpan LReference) | Image _ LReference => true | _ => false end.
(** The attributes of an inline container: those of its link definition, and those written after it. *)
Definition start_attrs (src : bytes) (c : container) (a : attrs) : Prop :=
  exists da wa, a = da ++ wa /\ written src da /\ (ref_cont c = false -> da = []) /\ (wa = [] \/ exists sp, span_ok src sp /\ set_on src sp wa /\ braced (slice src sp)).

Notation qfr := (container * attrs * bytes)%type.
Section PI.
Variable src : bytes.
(** The automaton of inline events: reading position and open containers. *)
Inductive pstep : nat * list container -> event * span -> nat * list container -> Prop :=
| ps_str lo st sp : lo <= ss sp -> span_ok src sp -> ss sp < se sp ->
    pstep (lo, st) (Str (slice src sp), sp) (se sp, st)
| ps_atom lo st e sp : inline_atom e = true -> popen st -> lo <= ss sp -> span_ok src sp -> spelled src e (slice src sp) -> pstep (lo, st) (e, sp) (se sp, st)
| ps_attr lo st a sp : a <> [] -> popen st -> lo <= ss sp -> span_ok src sp -> braced (slice src sp) -> set_on src sp a -> pstep (lo, st) (Attributes a, sp) (se sp, st)
| ps_start lo st c a sp : inline_cont c = true -> popen st -> lo <= ss sp -> span_ok src sp -> spelled src (Start c a) (slice src sp) ->
    start_attrs src c a -> pstep (lo, st) (Start c a, sp) (se sp, c :: st)
| ps_end lo st c sp : inline_cont c = true -> lo <= ss sp -> span_ok src sp -> spelled src (End_ c) (slice src sp) -> pstep (lo, c :: st) (End_ c, sp) (se sp, st).
Inductive psteps : nat * list container -> list (event * span) -> nat * list container -> Prop :=
| pz_nil s : psteps s [] s
| pz_cons s e s' E s'' : pstep s e s' -> psteps s' E s'' -> psteps s (e :: E) s''.
Lemma psteps_app s E s' F s'' : psteps s E s' -> psteps s' F s'' -> psteps s (E ++ F) s''.
Proof. induction 1; intros; cbn; [auto|econstructor; eauto]. Qed.
Lemma pstep_down lo lo' st e s' : pstep (lo, st) e s' -> lo' <= lo -> pstep (lo', st) e s'.
Proof. intros H Hl. inversion H; subst; constructor; auto; lia. Qed.
Lemma psteps_down lo lo' st E m st' : psteps (lo, st) E (m, st') -> lo' <= lo -> exists m', m' <= m /\ psteps (lo', st) E (m', st').
Proof.
  intros H Hl. inversion H as [|? ? s1 ? ? H1 H2]; subst.
  - exists lo'. split; [auto|constructor].
  - exists m. split; [auto|]. econstructor; [eapply pstep_down; eauto|auto].
Qed.

Variable pp : prepass.
(** What a container refers to: the definition or heading that its label denotes. *)
Definition target (c : container) (l : bytes) (da : attrs) : Prop :=
  match c with
  | Link _ (LSpan LInline) | Image _ LInline => da = []
  | Link u (LSpan ty) | Image u ty => resolve pp l = (u, ty, da)
  | _ => da = []
  end.
(** The text of a verbatim container begins with its opening delimiter and a line break. *)
Definition bopen (c : container) (o : bytes) : bytes := if verb_box c then o ++ [NL] else [].
Definition end_ok (c : container) (a : attrs) (txt : bytes) (sp : span) : Prop :=
  exists l da wa o t, txt = bopen c o ++ t /\ a = da ++ wa /\ ends src c l o t wa sp /\ target c l da.
Definition edge (e : event) : bool := match e with Start _ _ | End_ _ => true | _ => false end.
(** The automaton with the attributes of the open containers, and their text so far. *)
Definition fcs (st : list qfr) : list container := map (fun f => fst (fst f)) st.
Lemma fcs_add t st : fcs (add t st) = fcs st.
Proof. unfold fcs, add. rewrite map_map. reflexivity. Qed.
Inductive qstep : nat * list qfr -> event * span -> nat * list qfr -> Prop :=
| q_other lo lo' st e sp : edge e = false -> pstep (lo, fcs st) (e, sp) (lo', fcs st) -> qstep (lo, st) (e, sp) (lo', add (text_of src e sp) st)
| q_start lo lo' st c a sp : pstep (lo, fcs st) (Start c a, sp) (lo', c :: fcs st) -> qstep (lo, st) (Start c a, sp) (lo', (c, a, bopen c (slice src sp)) :: st)
| q_end lo lo' st c a x sp : pstep (lo, c :: fcs st) (End_ c, sp) (lo', fcs st) -> end_ok c a x sp -> qstep (lo, (c, a, x) :: st) (End_ c, sp) (lo', st).
Inductive qsteps : nat * list qfr -> list (event * span) -> nat * list qfr -> Prop :=
| qz_nil s : qsteps s [] s
| qz_cons s e s' E s'' : qstep s e s' -> qsteps s' E s'' -> qsteps s (e :: E) s''.
Lemma qstep_pstep s e s' : qstep s e s' -> pstep (fst s, fcs (snd s)) e (fst s', fcs (snd s')).
Proof. intros H; inversion H; subst; cbn [fst snd]; rewrite ?fcs_add; auto. Qed.
Lemma qsteps_psteps s E s' : qsteps s E s' -> psteps (fst s, fcs (snd s)) E (fst s', fcs (snd s')).
Proof. induction 1; econstructor; eauto using qstep_pstep. Qed.
Lemma qstep_down lo lo' st e s' : qstep (lo, st) e s' -> lo' <= lo -> qstep (lo', st) e s'.
Proof. intros H Hl. inversion H; subst; constructor; auto; eapply pstep_down; eauto. Qed.
Lemma qsteps_down lo lo' st E m st' : qsteps (lo, st) E (m, st') -> lo' <= lo -> exists m', m' <= m /\ qsteps (lo', st) E (m', st').
Proof.
  intros H Hl. inversion H as [|? ? s1 ? ? H1 H2]; subst.
  - exists lo'. split; [auto|constructor].
  - exists m. split; [auto|]. econstructor; [eapply qstep_down; eauto|auto].
Qed.
Lemma qsteps_strs lo m E : Forall (fun e => edge (fst e) = false) E -> psteps (lo, []) E (m, []) -> qsteps (lo, []) E (m, []).
Proof.
  revert lo; induction E as [|[e sp] E IH]; intros lo He H; inversion H as [|? ? [l1 k1] ? ? H1 H2]; subst; [constructor|].
  inversion He; subst. assert (k1 = []) by (inversion H1; subst; auto; discriminate). subst k1. econstructor; [apply (q_other lo l1 []); eauto|]. auto.
Qed.
Definition defs_written : Prop := forall l u a, List.In (l, (u, a)) (pp_defs pp) -> written src a.
Definition crel (s : istate) (ic : ifr) (c : qfr) : Prop :=
  exists da, inline_container pp s (fst (fst ic)) = Ok (fst (fst c), da) /\ snd (fst c) = da ++ snd (fst ic) /\ snd c = snd ic.
Definition srel (s : istate) : list ifr -> list qfr -> Prop := Forall2 (crel s).
Lemma srel_add s t a b : srel s a b -> srel s (add t a) (add t b).
Proof. induction 1 as [|x y a b (da & H1 & H2 & H3) _ IH]; constructor; [|exact IH]. exists da. destruct x as [[]], y as [[]]. cbn [fst snd] in *. subst. auto. Qed.

Lemma get_ext {A} (l x : list A) i m v : get_at l i m = Ok v -> get_at (l ++ x) i m = Ok v.
Proof.
  unfold get_at. destruct (nth_error l i) eqn:E; [|discriminate]. intros H; injection H as <-.
  rewrite nth_error_app1, E by (apply nth_error_Some; congruence). reflexivity.
Qed.
Lemma crel_ext s s' ic c : ext s s' -> crel s ic c -> crel s' ic c.
Proof.
  intros [[x Hx] _] (a & H & Ha). exists a. split; [|exact Ha]. destruct ic as [[ic w] x0], c as [[c a0] x1]. cbn [fst] in *. unfold inline_container in *. rewrite Hx. destruct ic; auto.
  all: destruct (get_at (s_cow s) i _) as [v| |] eqn:E; cbn [bind] in H; try discriminate; rewrite (get_ext _ _ _ _ _ E); exact H.
Qed.
Lemma srel_ext s s' a b : ext s s' -> srel s a b -> srel s' a b.
Proof. intros He. induction 1; constructor; eauto using crel_ext. Qed.
Lemma inline_container_ok s ic : cidx ic (s_cow s) -> exists c a, inline_container pp s ic = Ok (c, a).
Proof.
  intros H. unfold inline_container. destruct ic; eauto.
  all: cbn in H; rewrite (get_at_yes (s_cow s) i _ (nth i (s_cow s) [])) by (apply nth_error_nth'; auto); cbn [bind].
  all: try (destruct (resolve _ _) as [[? ?] ?]); eauto.
Qed.
Lemma crel_kind s ic c a : inline_container pp s ic = Ok (c, a) -> inline_cont c = true /\ textual c = texty_cont ic.
Proof.
  intros H. unfold inline_container in H. destruct ic; try (injection H as <- <-; auto);
    try (destruct (get_at (s_cow s) i _) as [v| |]; cbn [bind] in H; try discriminate); try (destruct (resolve _ _) as [[? ?] ?]); try (injection H as <- <-; auto).
  destruct (existsb _ _); auto.
Qed.
Lemma srel_open s a b : srel s a b -> open_stk a -> popen (fcs b).
Proof. intros H. destruct H as [|[[ic w] x0] [[c a0] x1] a b (da & H1 & _) _]; cbn in *; auto. intros. destruct (crel_kind _ _ _ _ H1) as [_ ->]. auto. Qed.

Lemma get_nth s i m v : get_at (s_cow s) i m = Ok v -> v = nth i (s_cow s) [].
Proof. unfold get_at. destruct (nth_error (s_cow s) i) eqn:E; [|discriminate]. intros H; injection H as <-. symmetry. apply nth_error_nth. exact E. Qed.
Lemma crel_opens s ic c a t : inline_container pp s ic = Ok (c, a) -> opens_with (pub (s_cow s) ic) t -> opens_with c t.
Proof.
  intros H. unfold inline_container in H. destruct ic; try (injection H as <- <-; auto; fail);
    try (destruct (get_at (s_cow s) i _) as [v| |]; cbn [bind] in H; try discriminate); try (destruct (resolve _ _) as [[? ?] ?]); try (injection H as <- <-; auto).
Qed.
Definition ilab (s : istate) (ic : icont) : bytes := match ic with CReferenceLink i | CReferenceImage i => nth i (s_cow s) [] | _ => [] end.
Lemma resolve_kind tag u ty da : resolve pp tag = (u, ty, da) -> ty = LReference \/ ty = LUnresolved.
Proof.
  unfold resolve. destruct (lookup_def _ _) as [[? ?]|]; [intros [= <- <- <-]; auto|]. destruct (heading_id_by_tag _ _); intros [= <- <- <-]; auto.
Qed.
Lemma crel_closes s ic c da : inline_container pp s ic = Ok (c, da) ->
  target c (ilab s ic) da /\ (c = Span_ -> ic = CSpan) /\ takes_attrs c = iattr ic /\
  (forall q, iauto src ic q -> auto_url src c q) /\
  forall x t, icloser src (s_cow s) ic x t -> closer src c t /\ exists o y, x = bopen c o ++ y /\ paired src c (ilab s ic) o y t.
Proof.
  assert (Hno : forall c x t l, verb_box c = false -> (forall o, paired src c l o x t) -> exists o y, x = bopen c o ++ y /\ paired src c l o y t).
  { intros c1 x t l Hv X. exists [], x. unfold bopen. rewrite Hv. auto. }
  intros H. unfold inline_container in H. destruct ic;
    try (injection H as <- <-; split; [reflexivity|]; split; [congruence|]; split; [reflexivity|]; split; [intros q X; exact X|]; intros x t [H1 H2]; split; [exact H1|];
      first [destruct H2 as (o & y & -> & H2); exists o, y; split; [unfold bopen; cbn [verb_box]; rewrite <- app_assoc; reflexivity|exact H2] | apply Hno; [reflexivity|intros; exact I]]);
    try (destruct (get_at (s_cow s) i _) as [v| |] eqn:Eg; cbn [bind] in H; try discriminate; apply get_nth in Eg).
  - destruct (resolve _ _) as [[u ty] d] eqn:Er. injection H as <- <-. subst v. destruct (resolve_kind _ _ _ _ Er) as [-> | ->]; cbn [target ilab];
      (split; [exact Er|]; split; [discriminate|]; split; [reflexivity|]; split; [intros q X; exact X|]; intros x t [[m H1] H2]; split; [exists m; exact H1|]; apply Hno; [reflexivity|]; intros o; exists m; split; [exact H1|exact (H2 m H1)]).
  - destruct (resolve _ _) as [[u ty] d] eqn:Er. injection H as <- <-. subst v. destruct (resolve_kind _ _ _ _ Er) as [-> | ->]; cbn [target ilab];
      (split; [exact Er|]; split; [discriminate|]; split; [reflexivity|]; split; [intros q X; exact X|]; intros x t [[m H1] H2]; split; [exists m; exact H1|]; apply Hno; [reflexivity|]; intros o; exists m; split; [exact H1|exact (H2 m H1)]).
  - injection H as <- <-. subst v. split; [reflexivity|]. split; [discriminate|]. split; [reflexivity|]. split; [intros q X; exact X|]. intros x t [H1 _]. split; [exact H1|apply Hno; [reflexivity|intros; exact I]].
  - injection H as <- <-. subst v. split; [reflexivity|]. split; [discriminate|]. split; [reflexivity|]. split; [intros q X; exact X|]. intros x t [H1 _]. split; [exact H1|apply Hno; [reflexivity|intros; exact I]].
  - injection H as <- <-. set (b := existsb _ _). assert (Hb : forall t, closer src (pub (s_cow s) (CAutolink url)) t -> closer src (Link url (if b then LEmail else LAutoLink)) t) by (intros t X; exact X).
    clearbody b. destruct b; (split; [reflexivity|]; split; [discriminate|]; split; [reflexivity|]; split; [intros q X; exact X|]; intros x t [H1 _]; split; [apply Hb; exact H1|]; apply Hno; [reflexivity|intros; exact I]).
Qed.
Lemma crel_open s ic c da o : inline_container pp s ic = Ok (c, da) -> bopen c o = vopen ic o.
Proof.
  intros H. unfold inline_container in H. destruct ic; try (injection H as <- <-; reflexivity);
    try (destruct (get_at (s_cow s) i _) as [v| |]; cbn [bind] in H; try discriminate); try (destruct (resolve _ _) as [[? ?] ?]); try (injection H as <- <-; reflexivity).
Qed.
Lemma crel_ends s ic c da w x sp : inline_container pp s ic = Ok (c, da) -> iends src (s_cow s) ic w x sp -> end_ok c (da ++ w) x sp.
Proof.
  intros H (m & H1 & H2 & H3 & Hau & H4). destruct (crel_closes _ _ _ _ H) as (C1 & C2 & C3 & Cau & C4). apply Cau in Hau. destruct (C4 _ _ H3) as [C5 (o & y & C6 & C7)].
  exists (ilab s ic), da, w, o, y. split; [exact C6|]. split; [reflexivity|]. split; [|exact C1]. exists m. repeat (split; [assumption|]).
  destruct H4 as [(H4 & H5 & H6)|(H4 & H5)]; [left|right; rewrite C3; auto]. split; [auto|]. split; [auto|]. intros X. apply H6, C2, X.
Qed.
Lemma end_closes c a x sp : end_ok c a x sp -> closes_with src c (slice src sp).
Proof.
  intros (l & da & wa & o & y & _ & _ & (m & H1 & H2 & H3 & _ & _ & H4) & _). exists (slice src (Sp (ss sp) m)). split; [exact H3|].
  destruct H4 as [(-> & _ & H4)|(H4 & H5 & H6)]; [left; rewrite span_eta; auto|right]. split; [auto|]. eexists. split; [|exact H6].
  rewrite slice_app by auto. rewrite span_eta. reflexivity.
Qed.
Lemma lookup_def_in tag v : lookup_def pp tag = Some v -> exists l, List.In (l, v) (pp_defs pp).
Proof.
  unfold lookup_def. destruct (find _ (pp_defs pp)) as [[l w]|] eqn:E; [|discriminate]. intros H; injection H as <-. apply find_some in E. destruct E. eauto.
Qed.
Lemma def_attrs s ic c da : defs_written -> inline_container pp s ic = Ok (c, da) -> written src da /\ (ref_cont c = false -> da = []).
Proof.
  intros Hd H. unfold inline_container in H. destruct ic; try (injection H as <- <-; split; [constructor|auto]; fail);
    try (destruct (get_at (s_cow s) i _) as [v| |] eqn:Eg; cbn [bind] in H; try discriminate); try (injection H as <- <-; split; [constructor|auto]; fail);
  destruct (resolve _ _) as [[u ty] a] eqn:Er; injection H as <- <-; unfold resolve in Er;
    (destruct (lookup_def _ _) as [[u' a']|] eqn:El; [injection Er as <- <- <-; split; [|discriminate]; apply lookup_def_in in El; destruct El; eapply Hd; eauto|]);
    destruct (heading_id_by_tag _ _); injection Er as <- <- <-; (split; [constructor|auto]).
Qed.

(** The translation of one inline event. *)
Lemma ssub_ok sp m : span_ok src sp -> ssub src sp m = Ok (slice src sp).
Proof. apply span_ok_ssub. Qed.

Lemma atom_event_inline a : inline_atom (atom_event a) = true.
Proof. destruct a; try reflexivity; destruct ty, left; reflexivity. Qed.

(** An event without pending attributes. *)
Lemma inline_event_ok s al lo stk e est' st : defs_written -> ostep src (s_cow s) al (ES lo stk PNone) e est' ->
  (forall b i, ik e <> IAttributes b i) -> srel s stk st ->
  exists r st', inline_event src pp s e [] = Ok r /\ qstep (lo, st) r (e_lo est', st') /\ e_pnd est' = PNone /\ srel s (e_stk est') st'.
Proof.
  intros Hdw Ho Hna Hs. unfold inline_event.
  inversion Ho as [s0 e0 s1 He Hne Hph| ]; subst; [|cbn in Hna; exfalso; eapply Hna; reflexivity].
  inversion He; subst; cbn [ik isp e_lo e_stk e_pnd] in *; try (exfalso; eapply Hna; reflexivity); try congruence.
  - rewrite span_ok_ssub by auto. cbn [bind assert is_nil]. exists (Str (slice src sp), sp), (add (slice src sp) st). split; [reflexivity|]. split; [apply (q_other lo (se sp) st (Str (slice src sp)) sp); [reflexivity|constructor; auto]|]. split; [reflexivity|apply srel_add; auto].
  - cbn [bind assert is_nil]. exists (atom_event a, sp), (add (text_of src (atom_event a) sp) st). split; [reflexivity|].
    replace (text_of src (atom_event a) sp) with (atext a (slice src sp)) by (destruct a; try reflexivity; destruct ty, left; reflexivity). split; [|split; [reflexivity|apply srel_add; auto]].
    replace (atext a (slice src sp)) with (text_of src (atom_event a) sp) by (destruct a; try reflexivity; destruct ty, left; reflexivity).
    apply q_other; [pose proof (atom_event_inline a) as X; destruct (atom_event a); auto; discriminate X|]. apply ps_atom; auto using atom_event_inline. eapply srel_open; eauto.
  - destruct (inline_container_ok s c) as (t & da & Hc); [auto|]. rewrite Hc. cbn [bind patt]. exists (Start t (da ++ []), sp), ((t, da ++ [], bopen t (slice src sp)) :: st). split; [reflexivity|].
    split; [|split; [auto|constructor; [exists da; cbn [fst snd]; rewrite (crel_open _ _ _ _ (slice src sp) Hc)|]; auto]]. destruct (def_attrs _ _ _ _ Hdw Hc) as [D1 D2].
    apply q_start, ps_start; auto; [apply (crel_kind _ _ _ _ Hc)|eapply srel_open; eauto|eapply crel_opens; eauto|exists da, []; auto].
  - inversion Hs as [|? [[t ta] tx] ? st0 (da & Hc & Hta & Htx) Hs0]; subst. cbn [fst snd] in *. subst ta tx. pose proof (crel_kind _ _ _ _ Hc) as [K1 K2].
    assert (Hcl : end_ok t (da ++ a) x sp) by (eapply crel_ends; eauto). rewrite Hc. cbn [bind assert is_nil].
    exists (End_ t, sp), st0. split; [reflexivity|]. split; [|auto]. apply q_end; [|exact Hcl]. apply ps_end; auto. eapply end_closes; eauto.
Qed.
(** The event after attributes. *)
Lemma inline_event_attr s al lo stk p e est' st a asp : defs_written -> ostep src (s_cow s) al (ES lo stk p) e est' ->
  p = PCont a \/ p = PWord asp -> a <> [] -> span_ok src asp -> set_on src asp a -> braced (slice src asp) -> open_stk stk -> srel s stk st ->
  exists r st', inline_event src pp s e a = Ok r /\ qstep (lo, st) r (e_lo est', st') /\ e_pnd est' = PNone /\ srel s (e_stk est') st'.
Proof.
  intros Hdw Ho Hp Ha Hsp Hset Hbr Hop Hs. unfold inline_event.
  inversion Ho as [s0 e0 s1 He Hne Hph| ]; subst; [|destruct Hp; discriminate].
  inversion He; subst; cbn [ik isp e_lo e_stk e_pnd] in *; try (exfalso; destruct Hp; congruence).
  - replace (is_nil a) with false by (destruct a; [congruence|reflexivity]). cbn [negb assert bind]. exists (Attributes a, sp), st. split; [reflexivity|]. rewrite <- (add_nil st) at 2.
    assert (sp = asp) by (destruct Hp as [Hp|Hp]; [discriminate|injection Hp; auto]). subst sp. split; [|auto]. apply (q_other lo (se asp) st (Attributes a) asp); [reflexivity|]. apply ps_attr; auto. eapply srel_open; eauto.
  - destruct (inline_container_ok s c) as (t & da & Hc); [auto|]. rewrite Hc. cbn [bind].
    assert (Hpa : patt p = a) by (destruct Hp as [-> |Hp]; [reflexivity|exfalso; match goal with X : forall w, p <> PWord w |- _ => exact (X _ Hp) end]). rewrite Hpa.
    exists (Start t (da ++ a), sp), ((t, da ++ a, bopen t (slice src sp)) :: st). split; [reflexivity|].
    split; [|split; [auto|constructor; [exists da; cbn [fst snd]; rewrite (crel_open _ _ _ _ (slice src sp) Hc)|]; auto]]. destruct (def_attrs _ _ _ _ Hdw Hc) as [D1 D2].
    apply q_start, ps_start; auto; [apply (crel_kind _ _ _ _ Hc)|eapply srel_open; eauto|eapply crel_opens; eauto|exists da, a; eauto 10].
Qed.

Definition POut P hi W (est : es) (st : list qfr) (s s' : istate) (o : option (event * span)) : Prop :=
  ext s s' /\
  match o with
  | None => exists lo, e_stk est = [] /\ e_lo est <= lo /\
      (Wait src P lo hi W s' \/ (P = [] /\ Emt src P hi W (ES lo [] PNone) s' /\ s_events s' = []))
  | Some r => exists est' st' W', qstep (e_lo est, st) r (e_lo est', st') /\ e_pnd est' = PNone /\ srel s' (e_stk est') st' /\
      W' < W /\ Run src P hi W' est' s'
  end.
Lemma p_inline_ok p P hi W est st : wfb src -> defs_written -> Run src P hi W est (p_inl p) -> e_pnd est = PNone -> srel (p_inl p) (e_stk est) st ->
  exists o s', p_inline src pp p = Ok (o, p_set_inl p s') /\ POut P hi W est st (p_inl p) s' o.
Proof.
  intros Hw Hdw HR Hp Hs. unfold p_inline. destruct (inline_next_ok _ _ _ _ _ _ Hw HR) as ([o s1] & -> & X1 & _ & X2). cbn [bind].
  destruct o as [e|].
  2: { exists None, s1. split; [reflexivity|]. split; [auto|]. destruct X2 as (lo & A1 & A2 & A3 & A4). exists lo. auto. }
  destruct X2 as (lo1 & est1 & W1 & A1 & A2 & A3 & A4). rewrite Hp in A2. pose proof (srel_ext _ _ _ _ X1 Hs) as Hs1.
  assert (Hdef : (forall b i, ik e <> IAttributes b i) -> exists o s', (let! r := inline_event src pp s1 e [] in Ok (Some r, p_set_inl p s1)) = Ok (o, p_set_inl p s') /\
    POut P hi W est st (p_inl p) s' o).
  { intros Hna. destruct (inline_event_ok _ _ _ _ _ _ _ Hdw A2 Hna Hs1) as (r & st' & -> & B2 & B3 & B4). cbn [bind]. exists (Some r), s1. split; [reflexivity|]. split; [auto|].
    exists est1, st', W1. split; [eapply qstep_down; eauto|]. auto. }
  destruct (ik e) as [| | | | |b i|] eqn:Ek; try (apply Hdef; intros; congruence).
  clear Hdef. destruct (inline_next_ok _ _ _ _ _ _ Hw A4) as ([o2 s2] & -> & Y1 & _ & Y2). cbn [bind].
  assert (Hest : e_stk est1 = e_stk est /\ e_lo est1 = lo1 /\ open_stk (e_stk est) /\ span_ok src (isp e) /\ (exists a, aval src (s_attrs s1) i (isp e) a /\ (e_pnd est1 = PCont a \/ e_pnd est1 = PWord (isp e)))).
  { destruct e as [k sp]. cbn in Ek. subst k. inversion A2 as [? ? ? He _ _|]; subst; [inversion He|]; subst; cbn; repeat (split; [auto; fail|]); [eexists; split; [eassumption|auto]|match goal with X : aidx _ _ _ _ |- _ => destruct X as (a & X); exists a; auto end|eexists; split; [eassumption|auto]]. }
  destruct Hest as (E1 & E2 & E3 & Es & a & (E4 & E5 & Eg & Eb) & E6).
  assert (Ha : nth_error (s_attrs s2) i = Some a).
  { destruct Y1 as [_ [x Hx]]. rewrite Hx, nth_error_app1; auto. apply nth_error_Some. congruence. }
  rewrite (get_at_yes _ _ _ _ Ha). cbn [bind].
  destruct o2 as [e2|].
  2: { exfalso. destruct Y2 as (lo & _ & A5 & _). destruct E6; congruence. }
  destruct Y2 as (lo2 & est2 & W2 & B1 & B2 & B3 & B4).
  pose proof (srel_ext _ _ _ _ Y1 Hs1) as Hs2. rewrite E1 in B2.
  destruct (inline_event_attr s2 (s_attrs s2) lo2 (e_stk est) (e_pnd est1) e2 est2 st a (isp e)) as (r & st' & -> & C1 & C2 & C3);auto.
  cbn [bind]. exists (Some r), s2. split; [reflexivity|]. split; [eapply ext_trans; eauto|].
  exists est2, st', W2. split; [eapply qstep_down; eauto; lia|]. repeat (split; [auto; lia|]). auto.
Qed.

Lemma p_set_inl_id p s : p_set_inl p s = PS (p_blocks p) (p_battr p) (p_headrow p) (p_verb p) s.
Proof. reflexivity. Qed.

Lemma is_nil_flag P rest : (forall e r, rest = e :: r -> is_binline e = false) ->
  negb (match inl_evs P ++ rest with e :: _ => is_binline e | [] => false end) = is_nil P.
Proof. intros H. destruct P as [|x P]; cbn; [|auto]. destruct rest as [|e r]; auto. rewrite (H _ _ eq_refl). reflexivity. Qed.

(** A leaf's lines from some point on. *)
Lemma leaf_trace hi rest ba hr : wfb src -> defs_written -> (forall e r, rest = e :: r -> is_binline e = false) ->
  forall P W est st s, Run src P hi W est s -> e_pnd est = PNone -> srel s (e_stk est) st ->
  exists O s' m, (forall O', Tb src pp (PS rest ba hr false s') O' -> T src pp (PS (inl_evs P ++ rest) ba hr false s) (O ++ O')) /\
    Idle s' /\ qsteps (e_lo est, st) O (m, []) /\ m <= hi /\ length O <= W.
Proof.
  intros Hw Hdw Hrest. induction P as [|x P IHP].
  - intros W. induction W as [W IH] using lt_wf_ind. intros est st s HR Hp Hs.
    destruct (p_inline_ok (PS rest ba hr false s) [] hi W est st Hw Hdw HR Hp Hs) as (o & s' & E & HO). destruct HO as [X1 X2].
    destruct o as [r|].
    + destruct X2 as (est' & st' & W' & A1 & A2 & A3 & A4 & A5). destruct (IH W' A4 est' st' s' A5 A2 A3) as (O & s2 & m & B1 & B2 & B3 & B4 & B5).
      exists (r :: O), s2, m. split; [|split; [auto|split; [econstructor; eauto|split; [auto|cbn; lia]]]].
      intros O' HT. cbn [app inl_evs map]. eapply t_inl; [exact E|]. apply (B1 O' HT).
    + destruct X2 as (lo & A1 & A2 & [[A3 _]|(_ & A3 & A4)]); [congruence|]. destruct est as [l stk pd]. cbn in *. subst stk.
      inversion Hs; subst. exists [], s', l. split; [|split; [eapply Emt_Idle; eauto|split; [constructor|split; [|cbn; lia]]]].
      * intros O' HT. cbn [app]. eapply t_blk; [exact E|]. exact HT.
      * destruct A3 as [E1 _ _ (m & E4 & E5) _ _]. rewrite A4 in E4. inversion E4; subst. destruct E1 as [L1 _ _ _ L5 _ _ _]. apply chain_le in L5. destruct L1 as (L1 & _). cbn in L1.
        change (pos s') with (se (i_span (s_in s'))) in E5. lia.
  - intros W. induction W as [W IH] using lt_wf_ind. intros est st s HR Hp Hs.
    destruct (p_inline_ok (PS (inl_evs (x :: P) ++ rest) ba hr false s) (x :: P) hi W est st Hw Hdw HR Hp Hs) as (o & s' & E & HO). destruct HO as [X1 X2].
    destruct o as [r|].
    + destruct X2 as (est' & st' & W' & A1 & A2 & A3 & A4 & A5). destruct (IH W' A4 est' st' s' A5 A2 A3) as (O & s2 & m & B1 & B2 & B3 & B4 & B5).
      exists (r :: O), s2, m. split; [|split; [auto|split; [econstructor; eauto|split; [auto|cbn; lia]]]].
      intros O' HT. cbn [app inl_evs map]. eapply t_inl; [exact E|]. apply (B1 O' HT).
    + destruct X2 as (lo & A1 & A2 & [A3|(A3 & _)]); [|discriminate]. destruct est as [l stk pd]. cbn in *. subst stk. inversion Hs; subst.
      destruct (wait_feed _ _ _ _ _ _ _ Hw A3) as (s2 & F1 & F2 & F3).
      destruct (IHP W (ES lo [] PNone) [] s2) as (O & s3 & m & B1 & B2 & B3 & B4 & B5); auto.
      { left. exists lo. auto. }
      { constructor. }
      cbn [e_lo] in B3. destruct (qsteps_down _ l _ _ _ _ B3 A2) as (m' & Hm & B3').
      exists O, s3, m'. split; [|split; [auto|split; [auto|split; [lia|auto]]]].
      * intros O' HT. eapply t_blk; [exact E|]. eapply t_fed; [|apply (B1 O' HT)].
        unfold block_step. cbn [p_blocks p_verb p_inl p_set_inl inl_evs map app]. fold (inl_evs P). rewrite is_nil_flag by auto. rewrite F1. reflexivity.
Qed.

(** All lines of a leaf, from the point where its start has been reported. *)
Lemma leaf_lines hi rest ba hr lo P s : wfb src -> defs_written -> (forall e r, rest = e :: r -> is_binline e = false) -> Fresh s -> fed src lo P hi ->
  exists O s' m, (forall O', Tb src pp (PS rest ba hr false s') O' -> T src pp (PS (inl_evs P ++ rest) ba hr false s) (O ++ O')) /\
    Idle s' /\ qsteps (lo, []) O (m, []) /\ m <= hi /\ length O <= 4 * length src.
Proof.
  intros Hw Hdw Hrest HF HP. destruct (Idle_next src s (fr_idle _ HF)) as (s1 & E1 & E2 & E3). specialize (E3 HF).
  assert (Ei : forall bl, p_inline src pp (PS bl ba hr false s) = Ok (None, PS bl ba hr false s1)).
  { intros. unfold p_inline. cbn [p_inl]. rewrite E1. reflexivity. }
  destruct P as [|x P].
  - exists [], s1, lo. split; [|split; [auto|split; [constructor|split; [|cbn; lia]]]].
    + intros O' HT. cbn [app inl_evs map]. eapply t_blk; [apply Ei|exact HT].
    + destruct HP as (_ & HP & _). apply chain_le in HP. auto.
  - destruct (fresh_feed _ _ _ _ _ _ E3 HP) as (s2 & F1 & F2 & _).
    destruct (leaf_trace hi rest ba hr Hw Hdw Hrest P (4 * length src) (ES lo [] PNone) [] s2) as (O & s3 & m & B1 & B2 & B3 & B4 & B5); auto.
    { left. exists lo. auto. }
    { constructor. }
    exists O, s3, m. split; [|auto]. intros O' HT. eapply t_blk; [apply Ei|]. eapply t_fed; [|apply (B1 O' HT)].
    unfold block_step. cbn [p_blocks p_verb p_inl p_set_inl inl_evs map app]. fold (inl_evs P). rewrite is_nil_flag by auto. rewrite F1. reflexivity.
Qed.
End PI.
