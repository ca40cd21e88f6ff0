(** * PGram: the grammar of block events and the stack of open blocks *)
From Verif Require Import Base Lex Attr Block Lib PSafe SpecAttr PAttr SpecBlock SpecOpen SpecView PBlock1 PBlock2 PBlock3.
Local Open Scope nat_scope.

(** Where an event stands: at the very beginning or end, directly in the document or a section of
    level [l] ([m] is the level of the subsection closed last), where the heading of a section must
    come, among the blocks of a container, among list items, in a table before ([cap]) or after its
    caption, in a table row.  [als] are the alignments of the columns in a table, those of the cells to
    come in a row; a separator row is [due] after a head row ([TDue]), may stand before the first row
    ([T0]) and nowhere else. *)
Inductive tst := T0 | TDue | TNone.
Inductive ctx :=
| XRoot | XDone | XTop (l : nat) (m : option nat) | XSec (l : nat) (pos : N) | XFlow
| XList (c : lclass) | XTable (cap : bool) (als : list align) (due : tst) | XRow (als : list align).
Definition flow (x : ctx) : Prop := x = XFlow \/ exists l, x = XTop l None.
Definition okend (x : ctx) : Prop := match x with XSec _ _ | XRoot | XTable _ _ TDue => False | _ => True end.
Definition no_table (x : ctx) : Prop := match x with XTable _ _ _ => False | _ => True end.

Definition inl_evs (l : list span) : list bev := map (BE BInline) l.
Definition inls (src : bytes) (lo : nat) (l : list span) (hi : nat) : Prop := Forall (ispan src) l /\ chain lo l hi.

Definition atom_ok (src : bytes) (a : batom) (sp : span) : Prop :=
  span_ok src sp /\ (a = BAttributes -> attrs_text (slice src sp)) /\
  (a = BBlankline -> blanks_only (slice src sp)) /\ (a = BThematicBreak -> break_text (slice src sp)) /\
  exists e, line_ok src (Sp (se sp) e) /\ blanks_only (slice src (Sp (se sp) e)) /\ (a <> BThematicBreak -> e = se sp).
Definition atom_in (x : ctx) (a : batom) : Prop :=
  flow x \/ (a = BAttributes /\ exists l m, x = XTop l m).
(** A leaf block allowed at [x], and where its successor stands. *)
Inductive leaf_in : ctx -> leaf -> span -> list span -> ctx -> Prop :=
| li_para x sp inl : flow x -> leaf_in x FParagraph sp inl x
| li_def x l sp inl : flow x -> leaf_in x (FLinkDefinition l) sp inl x
| li_code x l sp inl : flow x -> leaf_in x (FCodeBlock l) sp inl x
| li_head lv sp inl : 1 <= lv -> ss sp < se sp -> leaf_in XFlow (FHeading lv false (to_u32 (ss sp))) sp inl XFlow
| li_sec L sp inl : 1 <= L -> ss sp < se sp -> leaf_in (XSec L (to_u32 (ss sp))) (FHeading L true (to_u32 (ss sp))) sp inl (XTop L None)
| li_cell als sp i : leaf_in (XRow als) (FTableCell (hd AlUnspecified als)) sp [i] (XRow (tl als)).

Definition item_ok (c : lclass) (k : item_kind) : Prop :=
  match c, k with
  | LcUnordered _, IList | LcOrdered _, IList | LcTask _, ITask _ => True
  | _, _ => False
  end.
(** A container allowed at [x], the place inside it, and where its successor stands. *)
Inductive cont_in : ctx -> bcont -> span -> ctx -> ctx -> Prop :=
| ci_doc sp : cont_in XRoot BDocument sp (XTop 0 None) XDone
| ci_quote x sp : flow x -> ss sp < se sp -> cont_in x BBlockquote sp XFlow x
| ci_div x c sp : flow x -> ss sp < se sp -> cont_in x (BDiv c) sp XFlow x
| ci_note x l sp : flow x -> ss sp < se sp -> cont_in x (BFootnote l) sp XFlow x
| ci_list x ty t sp : flow x -> lt_ok ty -> cont_in x (BList ty t) sp (XList (lt_class ty)) x
| ci_item c k sp : item_ok c k -> ss sp < se sp -> cont_in (XList c) (BListItem k) sp XFlow (XList c)
| ci_table x sp : flow x -> cont_in x BTable sp (XTable true [] T0) x
| ci_row b als d h als' sp : (h = false -> als' = als) -> d <> TDue -> cont_in (XTable b als d) (BTableRow h) sp (XRow als') (XTable false als' (if h then TDue else TNone))
| ci_sec l m L sp : l < L -> (forall k, m = Some k -> L <= k) ->
    cont_in (XTop l m) (BSection (to_u32 (ss sp))) sp (XSec L (to_u32 (ss sp))) (XTop l (Some L)).

(** The text of a container's markers: [sp] is the range of its Enter event, [sp'] that of its Exit. *)
Definition point (sp : span) : Prop := ss sp = se sp.
(** It takes up whole lines to the end. *)
Definition lined (src : bytes) (sp sp' : span) : Prop := eol src (se sp') /\ ss sp < se sp'.
(** What the line of a marker looks like: [P] holds of the marker and of the rest of the line. *)
Definition opened (src : bytes) (P : bytes -> bytes -> Prop) (sp : span) : Prop :=
  exists e, line_ok src (Sp (se sp) e) /\ P (slice src sp) (slice src (Sp (se sp) e)).
Definition colon (src : bytes) (sp : span) : Prop := slice src sp = B ":" /\ opened src (fun _ r => gapped r) sp.
Definition cont_text (src : bytes) (x : ctx) (c : bcont) (sp sp' : span) : Prop :=
  match c with
  | BBlockquote => slice src sp = B ">" /\ point sp' /\ lined src sp sp' /\ opened src (fun _ r => gapped r) sp
  | BDiv cl => exists n, 3 <= n /\ fence_text ":"%char n cl (slice src sp) /\ Forall (fun c => is_name c = true) cl /\
               (point sp' \/ closing_fence ":"%char n (slice src sp')) /\ lined src sp sp'
  | BFootnote l => label_text ("^"%char :: l) (slice src sp) /\ point sp' /\ lined src sp sp'
  | BList ty _ => item_at src (ss sp) ty /\ point sp /\ point sp'
  | BListItem IDescription => point sp' /\ eol src (se sp')
  | BListItem k => (exists ty, x = XList (lt_class ty) /\ item_text ty (slice src sp) /\
       forall b, k = ITask b -> exists ch y, slice src sp = [ch; SP; "["%char; y; "]"%char] /\ b = negb (beq y SP)) /\ point sp' /\ lined src sp sp' /\ opened src item_rest sp
  | BTable => lined src sp sp' /\ opened src (fun _ r => row_text r) sp
  | BSection _ => point sp /\ point sp'
  | _ => True
  end.
Definition node_text (src : bytes) (x : ctx) (nd : node) (sp sp' : span) : Prop :=
  match nd with NCont c => cont_text src x c sp sp' | NLeaf _ => True end.
(** The text of a leaf's markers and, for code, of its lines. *)
Definition leaf_text (src : bytes) (v : view) (lf : leaf) (sp : span) (inl : list span) (sp' : span) : Prop :=
  match lf with
  | FParagraph => slice src sp = [] /\ point sp' /\ lined src sp sp' /\ opened src (fun _ r => inked r /\ ~ opener r) sp
  | FHeading lv _ _ => slice src sp = repeat "#"%char lv /\ point sp' /\ lined src sp sp' /\ opened src (fun _ r => gapped r) sp
  | FLinkDefinition l => label_text l (slice src sp) /\ starts_c l "^" = false /\ point sp' /\ lined src sp sp'
  | FCodeBlock w => exists c n, (c = "`"%char \/ c = "~"%char) /\ 3 <= n /\ fence_text c n w (slice src sp) /\
      Forall (fun c => is_ws c = false /\ c <> "`"%char) w /\
      Forall (fun l => ~ closing_fence c n (slice src l)) inl /\ (point sp' \/ closing_fence c n (slice src sp')) /\ lined src sp sp' /\
      inl = code_content src v (starts_c w "=") (se sp) (ss sp')
  | _ => True
  end.
(** The view inside a container. *)
Definition bbox (c : bcont) : box :=
  match c with
  | BBlockquote => BxQuote
  | BListItem _ | BFootnote _ => BxItem
  | BDiv _ => BxDiv
  | _ => BxNone
  end.
Definition nbox (nd : node) : box := match nd with NCont c => bbox c | NLeaf _ => BxNone end.

Definition blank_evs (l : list span) : list bev := map (BE (BAtom BBlankline)) l.
Definition stale_evs (st : option (span * span)) : list bev :=
  match st with None => [] | Some (a, b) => [BE BStale a; BE BStale b] end.

(** Among the events there is a blank line. *)
Definition hasb (l : list bev) : Prop := exists sp, List.In (BE (BAtom BBlankline) sp) l.
(** A loose list contains a blank line. *)
Definition loose_ok (c : bcont) (inner : list bev) : Prop := match c with BList _ false => hasb inner | _ => True end.
Definition nloose (nd : node) (inner : list bev) : Prop := match nd with NCont c => loose_ok c inner | NLeaf _ => True end.
Lemma hasb_app a b : hasb (a ++ b) <-> hasb a \/ hasb b.
Proof.
  unfold hasb. split.
  - intros [sp H]. apply in_app_or in H. destruct H; [left|right]; eauto.
  - intros [[sp H]|[sp H]]; exists sp; apply in_or_app; auto.
Qed.

(** ** Which blocks may follow each other *)
(** Beginning and end of a section and unused events are not looked at. *)
Definition seen (k : bkind_ev) : bool :=
  match k with BEnter (NCont (BSection _)) | BExit (NCont (BSection _)) | BStale => false | _ => true end.
Definition vis (l : list bev) : list bkind_ev := filter seen (map bk l).
Definition ordered_lt (ty : list_type) : bool := match ty with LOrdered _ _ => true | _ => false end.
(** A paragraph ends at a blank line or with its container, a heading is not followed by a paragraph or
    a heading of the same level, a quote by a paragraph or a quote, a table by a table, a list by a list
    of the same kind. *)
Definition apart (a b : bkind_ev) : Prop :=
  match b with
  | BExit _ => True
  | _ =>
      match a with
      | BExit (NLeaf FParagraph) => b = BAtom BBlankline
      | BExit (NLeaf (FHeading lv _ _)) => b <> BEnter (NLeaf FParagraph) /\ forall h p, b <> BEnter (NLeaf (FHeading lv h p))
      | BExit (NCont BBlockquote) => b <> BEnter (NLeaf FParagraph) /\ b <> BEnter (NCont BBlockquote)
      | BExit (NCont BTable) => b <> BEnter (NCont BTable)
      | BExit (NCont (BList ty _)) => forall ty' t, b = BEnter (NCont (BList ty' t)) -> ordered_lt ty = false -> lt_class ty <> lt_class ty'
      | _ => True
      end
  end.
Definition opart (p : option bkind_ev) (b : bkind_ev) : Prop := match p with Some a => apart a b | None => True end.
Fixpoint walk (p : option bkind_ev) (l : list bkind_ev) : Prop :=
  match l with [] => True | k :: r => opart p k /\ walk (Some k) r end.
Fixpoint lastk (p : option bkind_ev) (l : list bkind_ev) : option bkind_ev :=
  match l with [] => p | k :: r => lastk (Some k) r end.
Definition quiet (p : option bkind_ev) : Prop := forall b, opart p b.
Lemma walk_app a : forall p b, walk p (a ++ b) <-> walk p a /\ walk (lastk p a) b.
Proof. induction a as [|k a IH]; intros p b; cbn [app walk lastk]; [tauto|]. rewrite IH. tauto. Qed.
Lemma lastk_app a : forall p b, lastk p (a ++ b) = lastk (lastk p a) b.
Proof. induction a as [|k a IH]; intros p b; cbn [app lastk]; auto. Qed.
Lemma vis_app a b : vis (a ++ b) = vis a ++ vis b.
Proof. unfold vis. rewrite map_app, filter_app. reflexivity. Qed.
Lemma opart_exit p n : opart p (BExit n).
Proof. destruct p; cbn; auto. Qed.
Lemma walk_quiet l : forall p, quiet p -> Forall (fun k => quiet (Some k)) l -> walk p l /\ quiet (lastk p l).
Proof.
  induction l as [|k l IH]; intros p Hp H; cbn [walk lastk]; [auto|]. inversion H; subst. destruct (IH (Some k)) as [Ha Hb]; auto.
Qed.
Lemma quiet_enter n : quiet (Some (BEnter n)).
Proof. intros b. destruct b; cbn; auto. Qed.
Lemma quiet_inline : quiet (Some BInline).
Proof. intros b. destruct b; cbn; auto. Qed.
Lemma quiet_atom a : quiet (Some (BAtom a)).
Proof. intros b. destruct b; cbn; auto. Qed.
Lemma quiet_none : quiet None.
Proof. intros b. exact I. Qed.
Lemma vis_inl l : vis (inl_evs l) = map (fun _ => BInline) l.
Proof. unfold vis, inl_evs. induction l as [|s l IH]; [reflexivity|]. cbn. f_equal. exact IH. Qed.
(** An event after which anything may come. *)
Definition qev (e : bev) : Prop := quiet (Some (bk e)).
Lemma walk_qev l : forall p, quiet p -> Forall qev l -> walk p (vis l) /\ quiet (lastk p (vis l)).
Proof.
  intros p Hp H. apply walk_quiet; [exact Hp|]. unfold vis. apply Forall_forall. intros k Hk. apply filter_In in Hk. destruct Hk as [Hk _].
  apply in_map_iff in Hk. destruct Hk as (e & <- & He). rewrite Forall_forall in H. exact (H e He).
Qed.
Lemma inl_qev l : Forall qev (inl_evs l).
Proof. apply Forall_map, Forall_forall. intros; apply quiet_inline. Qed.
(** A leaf: what comes before it must allow it, what comes after it sees its end. *)
Lemma walk_leaf p lf sp inl sp' : opart p (BEnter (NLeaf lf)) ->
  walk p (vis (BE (BEnter (NLeaf lf)) sp :: inl_evs inl ++ [BE (BExit (NLeaf lf)) sp'])) /\
  lastk p (vis (BE (BEnter (NLeaf lf)) sp :: inl_evs inl ++ [BE (BExit (NLeaf lf)) sp'])) = Some (BExit (NLeaf lf)).
Proof.
  intros H. change (BE (BEnter (NLeaf lf)) sp :: inl_evs inl ++ [BE (BExit (NLeaf lf)) sp']) with ([BE (BEnter (NLeaf lf)) sp] ++ inl_evs inl ++ [BE (BExit (NLeaf lf)) sp']).
  rewrite !vis_app, vis_inl. change (vis [BE (BEnter (NLeaf lf)) sp]) with [BEnter (NLeaf lf)]. change (vis [BE (BExit (NLeaf lf)) sp']) with [BExit (NLeaf lf)].
  cbn [app walk lastk]. rewrite walk_app, lastk_app. cbn [walk lastk]. split; [|reflexivity]. split; [exact H|].
  split; [apply walk_quiet; [apply quiet_enter|apply Forall_map; apply Forall_forall; intros; apply quiet_inline]|]. split; [apply opart_exit|exact I].
Qed.
Lemma walk_snoc p l k sp : walk p (vis l) -> opart (lastk p (vis l)) k -> walk p (vis (l ++ [BE k sp])).
Proof. intros H1 H2. rewrite vis_app. apply walk_app. split; [exact H1|]. unfold vis at 2. cbn [map bk filter]. destruct (seen k); [split; [exact H2|exact I]|exact I]. Qed.
Lemma last_snoc p l k sp : seen k = true -> lastk p (vis (l ++ [BE k sp])) = Some k.
Proof. intros H. rewrite vis_app, lastk_app. unfold vis at 2. cbn [map bk filter]. rewrite H. reflexivity. Qed.
(** The same events, except that the type and tightness of a list may differ. *)
Inductive ksim : bkind_ev -> bkind_ev -> Prop :=
| ks_same k : ksim k k
| ks_list ty t ty' t' : lt_class ty = lt_class ty' -> ksim (BEnter (NCont (BList ty t))) (BEnter (NCont (BList ty' t'))).
Lemma apart_ksim a b b' : apart a b -> ksim b b' -> apart a b'.
Proof.
  intros H K. destruct K as [|ty t ty' t' E]; [auto|]. destruct a as [| |[c|lf]| |]; cbn in *; auto.
  - destruct c; auto; try (split; discriminate); try discriminate. intros ty2 t2 [= <- <-] Ho. rewrite <- E. eapply H; eauto.
  - destruct lf; auto; try discriminate H. split; [discriminate|intros; discriminate].
Qed.
Lemma opart_ksim p b b' : opart p b -> ksim b b' -> opart p b'.
Proof. destruct p; cbn; auto. apply apart_ksim. Qed.
Lemma walk_ksim l l' : Forall2 ksim l l' -> forall p p', (forall b, opart p b -> opart p' b) -> walk p l -> walk p' l' /\ forall b, opart (lastk p l) b -> opart (lastk p' l') b.
Proof.
  induction 1 as [|k k' l l' H1 H2 IH]; intros p p' Hp H; cbn [walk lastk] in *; [auto|]. destruct H as [Ha Hb].
  destruct (IH (Some k) (Some k')) as [H3 H4]; [intros b Hkb; destruct H1; [exact Hkb|apply quiet_enter]|exact Hb|]. split; [split; [eapply opart_ksim; eauto|auto]|auto].
Qed.
Lemma vis_ksim a b : Forall2 ksim (map bk a) (map bk b) -> Forall2 ksim (vis a) (vis b).
Proof.
  unfold vis. generalize (map bk a), (map bk b). induction 1 as [|k k' l l' H1 H2 IH]; cbn; [constructor|].
  replace (seen k') with (seen k) by (destruct H1; reflexivity). destruct (seen k); [constructor; auto|auto].
Qed.

(** [sq src v x lo evs y hi]: at [x] come the events [evs], after which one stands at [y]; their ranges
    are ranges of [src], in order, between [lo] and [hi] (a caption apart). *)
Inductive sq (src : bytes) : view -> ctx -> nat -> list bev -> ctx -> nat -> Prop :=
| s_nil v x lo hi : lo <= hi -> sq src v x lo [] x hi
| s_atom v x lo a sp r y hi : atom_in x a -> lo <= ss sp -> atom_ok src a sp -> sq src v x (se sp) r y hi ->
    sq src v x lo (BE (BAtom a) sp :: r) y hi
| s_leaf v x lo lf sp inl sp' x' r y hi : leaf_in x lf sp inl x' -> lf_eols src lf inl -> lo <= ss sp -> span_ok src sp ->
    inls src (se sp) inl (ss sp') -> span_ok src sp' -> sq src v x' (se sp') r y hi -> leaf_text src v lf sp inl sp' ->
    sq src v x lo (BE (BEnter (NLeaf lf)) sp :: inl_evs inl ++ BE (BExit (NLeaf lf)) sp' :: r) y hi
| s_sep v b als due als' lo sp r y hi : lo <= ss sp -> span_ok src sp -> sep_row als' (slice src sp) -> (due = TDue -> als' = als) -> due <> TNone ->
    sq src v (XTable b als' TNone) (se sp) r y hi -> sq src v (XTable b als due) lo r y hi
| s_cap v als lo sp inl sp' r y hi : lo <= ss sp -> span_ok src sp -> eols src inl ->
    inls src (se sp) inl (ss sp') -> span_ok src sp' -> sq src v (XTable false als T0) lo r y hi ->
    sq src v (XTable true als T0) lo (BE (BEnter (NLeaf FCaption)) sp :: inl_evs inl ++ BE (BExit (NLeaf FCaption)) sp' :: r) y hi
| s_node v x lo c sp ic inner m q sp' x' r y hi : cont_in x c sp ic x' -> lo <= ss sp -> span_ok src sp ->
    sq src (narrow src (bbox c) (se sp) v) ic (se sp) inner m q -> okend m -> q <= ss sp' -> span_ok src sp' -> sq src v x' (se sp') r y hi -> cont_text src x c sp sp' -> loose_ok c inner ->
    sq src v x lo (BE (BEnter (NCont c)) sp :: inner ++ BE (BExit (NCont c)) sp' :: r) y hi
| s_desc v lo st sp inl sp1 bl sp2 inner m q sp3 r y hi :
    (forall a b, st = Some (a, b) -> a = sp) ->
    lo <= ss sp -> ss sp < se sp -> span_ok src sp -> eols src inl -> inls src (se sp) inl (ss sp1) -> span_ok src sp1 ->
    Forall (span_ok src) bl -> chain (se sp1) bl (ss sp2) -> span_ok src sp2 ->
    sq src (narrow src BxItem (se sp) v) XFlow (se sp2) inner m q -> q <= ss sp3 -> span_ok src sp3 -> sq src v (XList LcDescription) (se sp3) r y hi ->
    colon src sp -> point sp3 /\ eol src (se sp3) -> Forall (fun s => blanks_only (slice src s) /\ eol src (se s)) bl ->
    sq src v (XList LcDescription) lo
      (stale_evs st ++ BE (BEnter (NLeaf FDescriptionTerm)) sp :: inl_evs inl ++ BE (BExit (NLeaf FDescriptionTerm)) sp1
       :: blank_evs bl ++ BE (BEnter (NCont (BListItem IDescription))) sp2
       :: inner ++ BE (BExit (NCont (BListItem IDescription))) sp3 :: r) y hi.

Lemma sq_le src v x lo e y hi : sq src v x lo e y hi -> lo <= hi.
Proof.
  induction 1; auto;
  repeat match goal with
  | H : span_ok _ ?s |- _ => destruct H as (H & _)
  | H : inls _ _ _ _ |- _ => destruct H as [_ H]; apply chain_le in H
  | H : chain _ _ _ |- _ => apply chain_le in H
  | H : atom_ok _ _ _ |- _ => destruct H as [H _]
  end; lia.
Qed.
Lemma sq_lo src v x lo e y hi : sq src v x lo e y hi -> forall lo', lo' <= lo -> sq src v x lo' e y hi.
Proof.
  induction 1; intros lo' Hlo.
  - constructor. lia.
  - constructor; auto. lia.
  - econstructor; eauto. lia.
  - eapply s_sep; eauto. lia.
  - constructor; auto. lia.
  - eapply s_node; eauto. lia.
  - eapply s_desc; eauto. lia.
Qed.
(** The lower bound may be raised to the first event. *)
Lemma sq_lift src v x lo e es y hi : sq src v x lo (e :: es) y hi -> no_table x ->
  lo <= ss (bsp e) /\ forall lo', lo' <= ss (bsp e) -> sq src v x lo' (e :: es) y hi.
Proof.
  intros H Hx. remember (e :: es) as l eqn:El. destruct H; try discriminate El; try contradiction.
  - injection El as <- <-. cbn. split; [auto|]. intros. constructor; auto.
  - injection El as <- <-. cbn. split; [auto|]. intros. econstructor; eauto.
  - injection El as <- <-. cbn. split; [auto|]. intros. econstructor; eauto.
  - assert (He : ss (bsp e) = ss sp).
    { destruct st as [[a b]|]; cbn in El; injection El as <- _; cbn; [|auto]. rewrite (H a b); auto. }
    rewrite He. split; [auto|]. intros lo' Hlo'. eapply s_desc; eauto.
Qed.
Lemma sq_app src v x lo a y m : sq src v x lo a y m -> forall b z hi, sq src v y m b z hi -> sq src v x lo (a ++ b) z hi.
Proof.
  induction 1; intros bb z hi' Hb.
  - eapply sq_lo; eauto.
  - cbn [app]. constructor; auto.
  - cbn [app]. rewrite <- app_assoc. cbn [app]. econstructor; eauto.
  - eapply s_sep; eauto.
  - cbn [app]. rewrite <- app_assoc. cbn [app]. constructor; auto.
  - cbn [app]. rewrite <- app_assoc. cbn [app]. eapply s_node; eauto.
  - repeat (rewrite <- app_assoc; cbn [app]). eapply s_desc; eauto.
Qed.
Lemma sq_hi src v x lo a y hi : sq src v x lo a y hi -> forall hi', hi <= hi' -> sq src v x lo a y hi'.
Proof. intros H hi' Hh. rewrite <- (app_nil_r a). eapply sq_app; eauto. constructor. auto. Qed.

(** Where one can get from [x]. *)
Definition reach (x y : ctx) : Prop :=
  match x with
  | XFlow => y = XFlow
  | XList c => y = XList c
  | XTop l _ => exists m, y = XTop l m
  | XSec l p => y = XSec l p \/ exists m, y = XTop l m
  | XTable _ _ _ => exists b als due, y = XTable b als due
  | XRow _ => exists als, y = XRow als
  | XDone => y = XDone
  | XRoot => y = XRoot \/ y = XDone
  end.
Lemma reach_refl x : reach x x.
Proof. destruct x; cbn; eauto. Qed.
Lemma leaf_reach x lf sp inl x' y : leaf_in x lf sp inl x' -> reach x' y -> reach x y.
Proof. destruct 1; auto. intros [m ->]. cbn. eauto. Qed.
Lemma cont_reach x c sp ic x' y : cont_in x c sp ic x' -> reach x' y -> reach x y.
Proof. destruct 1; auto. intros ->. cbn. auto. Qed.
Lemma sq_reach src v x lo e y hi : sq src v x lo e y hi -> reach x y.
Proof.
  induction 1; auto using reach_refl.
  - eapply leaf_reach; eauto.
  - eapply cont_reach; eauto.
Qed.
Lemma sq_flow src v lo e y hi : sq src v XFlow lo e y hi -> y = XFlow.
Proof. intros H. exact (sq_reach _ _ _ _ _ _ _ H). Qed.

(** Progress: a section's heading takes at least one byte. *)
Lemma sq_sec_lt src v l p lo e m hi : sq src v (XSec l p) lo e (XTop l m) hi -> lo + 1 <= hi.
Proof.
  intros H. remember (XSec l p) as x eqn:Ex. remember (XTop l m) as y eqn:Ey. destruct H; subst; try discriminate Ey; try discriminate Ex.
  - destruct H as [[H|[l' H]]|(_ & l' & m' & H)]; discriminate.
  - repeat match goal with
    | X : sq _ _ _ _ _ _ _ |- _ => apply sq_le in X
    | X : span_ok _ _ |- _ => destruct X as (X & _)
    | X : inls _ _ _ _ |- _ => destruct X as [_ X]; apply chain_le in X
    end.
    inversion H; subst; try lia.
    all: match goal with X : flow _ |- _ => destruct X as [X|[? X]]; discriminate end.
  - inversion H; subst; match goal with X : flow _ |- _ => destruct X as [X|[? X]]; discriminate end.
Qed.

(** ** Open blocks *)
(** [f_pre] and the Enter event of [f_nd] at [f_sp] were written at [f_x], [f_lo]; inside, at [f_ic],
    [f_body] has been written so far. *)
Record frame := Fr { f_pre : list bev; f_nd : node; f_sp : span; f_ic : ctx; f_x : ctx; f_lo : nat; f_body : list bev }.
(** The same node, except that a list's type and tightness may still change. *)
Definition sim (a b : node) : Prop :=
  a = b \/ exists ty t ty' t', a = NCont (BList ty t) /\ b = NCont (BList ty' t') /\ lt_class ty = lt_class ty' /\ lt_ok ty'.
Lemma sim_refl a : sim a a.
Proof. left. auto. Qed.
Lemma sim_trans a b c : sim a b -> sim b c -> sim a c.
Proof.
  intros [->|(ty & t & ty' & t' & -> & -> & H1 & H2)]; [auto|].
  intros [<-|(ty2 & t2 & ty3 & t3 & E & -> & H3 & H4)]; [right; do 4 eexists; eauto|].
  injection E as <- <-. right. do 4 eexists. do 2 (split; [reflexivity|]). split; [congruence|auto].
Qed.
Definition aft (x : ctx) (ic : ctx) : ctx :=
  match x with
  | XRoot => XDone
  | XTop l _ => match ic with XSec L _ => XTop l (Some L) | _ => x end
  | _ => x
  end.
Definition wt (n : node) : nat :=
  match n with NCont BBlockquote | NCont (BDiv _) | NCont (BFootnote _) | NCont (BListItem _) => 1 | _ => 0 end.
(** Where its marker ends. *)
Definition f_q (f : frame) : nat := match f_pre f with e :: _ => se (bsp e) | [] => se (f_sp f) end.
(** The view inside the frame, from the one outside. *)
Definition f_view (src : bytes) (f : frame) (v : view) : view := narrow src (nbox (f_nd f)) (f_q f) v.
Definition frame_ok (src : bytes) (v : view) (f : frame) : Prop :=
  f_lo f + wt (f_nd f) <= se (f_sp f) /\
  forall nd inner m q sp', sim (f_nd f) nd -> sq src (f_view src f v) (f_ic f) (se (f_sp f)) inner m q -> okend m -> q <= ss sp' -> span_ok src sp' ->
  node_text src (f_x f) nd (f_sp f) sp' -> nloose nd inner -> sq src v (f_x f) (f_lo f) (f_pre f ++ BE (BEnter nd) (f_sp f) :: inner ++ [BE (BExit nd) sp']) (aft (f_x f) (f_ic f)) (se sp').

Lemma frame_cont src v x lo c sp ic x' : cont_in x c sp ic x' -> x' = aft x ic -> lo <= ss sp -> span_ok src sp ->
  frame_ok src v (Fr [] (NCont c) sp ic x lo []).
Proof.
  intros Hc Hx Hlo Hs. split.
  - cbn [f_nd f_sp f_lo]. assert (ss sp <= se sp) by apply Hs. destruct Hc; cbn; lia.
  - intros nd inner m q sp' Hsim Hin Hm Hq Hs' Ht Hnl. cbn [f_pre f_nd f_sp f_ic f_x f_lo app] in *.
    rewrite <- Hx. destruct Hsim as [<-|(ty & t & ty' & t' & E & -> & Hcl & Hok)].
    + eapply s_node; eauto. constructor. auto.
    + injection E as ->. inversion Hc; subst. rewrite Hcl in *. eapply s_node; eauto; [apply ci_list; auto|constructor; auto].
Qed.

(** What kind of frame it is and where it stands. *)
Definition placed (f : frame) (fs : list frame) : Prop :=
  fs = [] \/
  okend (f_x f) /\
  (wt (f_nd f) = 1 \/ (exists L p, f_ic f = XSec L p) \/
   (exists ty t, f_nd f = NCont (BList ty t) /\ f_ic f = XList (lt_class ty) /\ flow (f_x f))).
(** The view inside all of the frames. *)
Fixpoint view_of (src : bytes) (fs : list frame) : view :=
  match fs with [] => from_start | f :: fs' => f_view src f (view_of src fs') end.
(** The stack of open blocks, innermost first; [y], [pos] is where the next event goes. *)
Inductive zip (src : bytes) : list frame -> ctx -> nat -> Prop :=
| z_nil : zip src [] XRoot 0
| z_cons f fs y pos : zip src fs (f_x f) (f_lo f) -> frame_ok src (view_of src fs) f -> placed f fs ->
    sq src (view_of src (f :: fs)) (f_ic f) (se (f_sp f)) (f_body f) y pos -> zip src (f :: fs) y pos.

Definition f_evs (f : frame) : list bev := f_pre f ++ BE (BEnter (f_nd f)) (f_sp f) :: f_body f.
Fixpoint flatten (fs : list frame) : list bev :=
  match fs with [] => [] | f :: fs' => flatten fs' ++ f_evs f end.
Definition f_at (f : frame) (fs : list frame) : nat := length (flatten fs) + length (f_pre f).
Fixpoint opens (fs : list frame) : list nat :=
  match fs with [] => [] | f :: fs' => f_at f fs' :: opens fs' end.
Fixpoint secs (fs : list frame) : list nat :=
  match fs with [] => [] | f :: fs' => secs fs' ++ match f_ic f with XSec L _ => [L] | _ => [] end end.
Fixpoint lcor (src : bytes) (fs : list frame) (ls : list open_list) : Prop :=
  match fs with
  | [] => ls = []
  | f :: fs' =>
      match f_nd f with
      | NCont (BList ty _) =>
          match ls with
          | l :: ls' => ol_depth l = S (length fs') /\ ol_event l = f_at f fs' /\ lt_class (ol_start l) = lt_class ty /\
                        lt_class (ol_prev l) = lt_class ty /\ lt_ok (ol_start l) /\ lt_ok (ol_prev l) /\ lt_ok ty /\
                        lcor src fs' ls' /\ item_at src (ss (f_sp f)) (ol_start l) /\ point (f_sp f)
          | [] => False
          end
      | _ => lcor src fs' ls
      end
  end.
Definition addb (f : frame) (b : list bev) : frame := Fr (f_pre f) (f_nd f) (f_sp f) (f_ic f) (f_x f) (f_lo f) (f_body f ++ b).
Definition rename (f : frame) (nd : node) : frame := Fr (f_pre f) nd (f_sp f) (f_ic f) (f_x f) (f_lo f) (f_body f).

Definition invs (src : bytes) (s : tstate) (fs : list frame) (y : ctx) (pos : nat) : Prop :=
  zip src fs y pos /\ t_open s = opens fs /\ lcor src fs (t_lists s) /\ t_secs s = secs fs.
(** An open list that is loose, and every open list if the line before was blank ([pb]), has a blank
    line in it; [b]: there is one in the blocks opened after those of [fs]. *)
Definition lnd (pb : bool) (b : Prop) (f : frame) : Prop :=
  match f_nd f with NCont (BList _ t) => t = false \/ pb = true -> b \/ hasb (f_body f) | _ => True end.
Fixpoint lin (pb : bool) (b : Prop) (fs : list frame) : Prop :=
  match fs with [] => True | f :: fs' => lnd pb b f /\ lin pb (b \/ hasb (f_evs f)) fs' end.
Definition inv (src : bytes) (s : tstate) (fs : list frame) (y : ctx) (pos : nat) : Prop :=
  invs src s fs y pos /\ t_events s = flatten fs /\ lin (t_pblank s) False fs /\ walk None (vis (t_events s)).
Definition lastev (s : tstate) : option bkind_ev := lastk None (vis (t_events s)).
Lemma lin_weaken fs : forall pb pb' (b b' : Prop), lin pb b fs -> (b -> b') -> (pb' = true -> pb = true) -> lin pb' b' fs.
Proof.
  induction fs as [|f fs IH]; intros pb pb' b b' H Hb Hp; [exact I|]. destruct H as [H1 H2]. split.
  - unfold lnd in *. destruct (f_nd f) as [[]|]; auto. intros [H|H]; destruct H1 as [H1|H1]; auto.
  - eapply IH; [exact H2| |exact Hp]. intros [H|H]; auto.
Qed.
Lemma f_evs_hasb f : hasb (f_body f) -> hasb (f_evs f).
Proof. intros [sp H]. exists sp. unfold f_evs. apply in_or_app. right. right. exact H. Qed.

Lemma opens_length fs : length (opens fs) = length fs.
Proof. induction fs; cbn; auto. Qed.
Lemma lcor_depth src fs l ls : lcor src fs (l :: ls) -> ol_depth l <= length fs.
Proof.
  revert l ls; induction fs as [|f fs IH]; intros l ls H; cbn in *; [discriminate|].
  destruct (f_nd f) as [[]|]; try (apply IH in H; lia). destruct H as (-> & _). lia.
Qed.
Lemma zip_add src f fs y pos ch y' pos' : zip src (f :: fs) y pos -> sq src (view_of src (f :: fs)) y pos ch y' pos' -> zip src (addb f ch :: fs) y' pos'.
Proof. intros H Hs. inversion H; subst. econstructor; eauto. cbn. eapply sq_app; eauto. Qed.
Lemma sim_box a b : sim a b -> nbox a = nbox b.
Proof. intros [->|(ty & t & ty' & t' & -> & -> & _)]; reflexivity. Qed.
Lemma view_rename src f nd v : sim (f_nd f) nd -> f_view src (rename f nd) v = f_view src f v.
Proof. intros H. unfold f_view. cbn [rename f_nd]. rewrite (sim_box _ _ H). reflexivity. Qed.
Lemma view_addb src f b v : f_view src (addb f b) v = f_view src f v.
Proof. reflexivity. Qed.
Lemma frame_rename src v f nd : frame_ok src v f -> sim (f_nd f) nd -> frame_ok src v (rename f nd).
Proof.
  intros [Hw H] Hs. split.
  - cbn [rename f_nd f_sp f_lo]. replace (wt nd) with (wt (f_nd f)); [auto|].
    destruct Hs as [->|(ty & t & ty' & t' & -> & -> & _)]; reflexivity.
  - intros nd' inner m q sp' Hs' Hin Hm Hq Hsp Ht Hnl. rewrite view_rename in Hin by auto. apply H with (m := m) (q := q); auto. eapply sim_trans; eauto.
Qed.
(** ** Stacks that differ only in the names of their lists *)
Inductive fsim : list frame -> list frame -> Prop :=
| fs_nil : fsim [] []
| fs_cons f nd fs fs' : sim (f_nd f) nd -> fsim fs fs' -> fsim (f :: fs) (rename f nd :: fs').
Lemma rename_id f : rename f (f_nd f) = f.
Proof. destruct f; reflexivity. Qed.
Lemma fsim_refl fs : fsim fs fs.
Proof. induction fs as [|f fs IH]; [constructor|]. rewrite <- (rename_id f) at 2. constructor; [apply sim_refl|auto]. Qed.
Lemma fsim_cons f fs fs' : fsim fs fs' -> fsim (f :: fs) (f :: fs').
Proof. intros H. rewrite <- (rename_id f) at 2. constructor; [apply sim_refl|auto]. Qed.
Lemma fsim_trans a b : fsim a b -> forall c, fsim b c -> fsim a c.
Proof.
  induction 1 as [|f nd fs fs' H1 H2 IH]; intros c Hc; [auto|]. inversion Hc; subst. cbn in *.
  change (rename (rename f nd) nd0) with (rename f nd0). constructor; [eapply sim_trans; eauto|auto].
Qed.
Lemma fsim_ksim a b : fsim a b -> Forall2 ksim (map bk (flatten a)) (map bk (flatten b)).
Proof.
  assert (Hr : forall l, Forall2 ksim l l) by (induction l; constructor; auto; apply ks_same).
  induction 1 as [|f nd fs fs' H1 H2 IH]; [constructor|]. cbn [flatten]. rewrite !map_app. apply Forall2_app; [exact IH|].
  unfold f_evs. cbn [rename f_pre f_nd f_sp f_body]. rewrite !map_app. apply Forall2_app; [apply Hr|]. cbn [map bk]. constructor; [|apply Hr].
  destruct H1 as [<-|(ty & t & ty' & t' & -> & -> & Hc & _)]; [apply ks_same|apply ks_list; auto].
Qed.
Lemma fsim_length a b : fsim a b -> length a = length b.
Proof. induction 1; cbn; auto. Qed.
Lemma fsim_flat a b : fsim a b -> length (flatten a) = length (flatten b).
Proof. induction 1 as [|f nd fs fs' H1 H2 IH]; [auto|]. cbn [flatten]. rewrite !app_length, IH. unfold f_evs. cbn. rewrite !app_length. cbn. auto. Qed.
Lemma fsim_at f nd a b : fsim a b -> f_at (rename f nd) b = f_at f a.
Proof. intros H. unfold f_at. rewrite (fsim_flat _ _ H). reflexivity. Qed.
Lemma fsim_opens a b : fsim a b -> opens a = opens b.
Proof. induction 1 as [|f nd fs fs' H1 H2 IH]; [auto|]. cbn [opens]. rewrite IH, (fsim_at f nd _ _ H2). auto. Qed.
Lemma fsim_secs a b : fsim a b -> secs a = secs b.
Proof. induction 1 as [|f nd fs fs' H1 H2 IH]; [auto|]. cbn [secs]. rewrite IH. reflexivity. Qed.
Lemma fsim_view src a b : fsim a b -> view_of src a = view_of src b.
Proof. induction 1 as [|f nd fs fs' H1 H2 IH]; [auto|]. cbn [view_of]. rewrite IH, view_rename by auto. reflexivity. Qed.
Lemma fsim_zip src a b : fsim a b -> forall y pos, zip src a y pos -> zip src b y pos.
Proof.
  induction 1 as [|f nd fs fs' H1 H2 IH]; intros y pos H; [auto|]. inversion H; subst.
  constructor; [apply IH; auto|rewrite <- (fsim_view _ _ _ H2); eapply frame_rename; eauto| |cbn [view_of]; rewrite view_rename, <- (fsim_view _ _ _ H2) by auto; auto].
  destruct H6 as [E|[Hx Hk]]; [left; subst; inversion H2; auto|right; split; [exact Hx|]]. cbn [rename f_nd f_ic f_x].
  destruct H1 as [<-|(ty & t & ty' & t' & E & -> & Hc & Hok)]; [exact Hk|]. right. rewrite E in Hk. destruct Hk as [Hk|[(L & p & Hk)|(ty2 & t2 & E2 & Hi & Hf)]]; [discriminate| |].
  - left. eauto.
  - right. injection E2 as <- <-. do 2 eexists. split; [reflexivity|]. rewrite <- Hc. auto.
Qed.
Lemma fsim_lcor src a b : fsim a b -> forall ls, lcor src a ls -> lcor src b ls.
Proof.
  induction 1 as [|f nd fs fs' H1 H2 IH]; intros ls H; [auto|]. cbn [lcor rename f_nd] in *.
  destruct H1 as [<-|(ty & t & ty' & t' & E1 & -> & Hc & Hok)].
  - destruct (f_nd f) as [[]|] eqn:En; auto. destruct ls as [|l ls]; [auto|].
    rewrite (fsim_at f (NCont (BList ty tight)) _ _ H2), <- (fsim_length _ _ H2).
    destruct H as (D1 & D2 & D3 & D4 & D5 & D6 & D7 & D8 & D9). repeat (split; [assumption|]). split; [auto|exact D9].
  - rewrite E1 in H. destruct ls as [|l ls]; [auto|].
    rewrite (fsim_at f (NCont (BList ty' t')) _ _ H2), <- (fsim_length _ _ H2), <- Hc.
    destruct H as (D1 & D2 & D3 & D4 & D5 & D6 & D7 & D8 & D9). repeat (split; [assumption|]). split; [auto|exact D9].
Qed.
(** Depth of the stack: bounded by the position. *)
Lemma zip_depth src fs y pos : zip src fs y pos -> okend y -> length fs <= 2 * pos + match y with XList _ => 2 | _ => 1 end.
Proof.
  induction 1 as [|f fs y pos Hz IH Hf Hp Hs]; intros Hy; [cbn; lia|]. cbn [length].
  destruct Hp as [->|(Hx & Hk)]; [cbn; destruct y; lia|]. specialize (IH Hx). destruct Hf as [Hw _]. pose proof (sq_le _ _ _ _ _ _ _ Hs) as Hle.
  destruct Hk as [Hk|[(L & p & Hk)|(ty & t & E & Hi & Hfl)]].
  - rewrite Hk in Hw. destruct (f_x f), y; lia.
  - rewrite Hk in Hs. pose proof (sq_reach _ _ _ _ _ _ _ Hs) as Hr. destruct Hr as [->|[m ->]]; [contradiction|].
    apply sq_sec_lt in Hs. destruct (f_x f); lia.
  - rewrite Hi in Hs. apply sq_reach in Hs. cbn in Hs. subst y. destruct Hfl as [Ex|[l Ex]]; rewrite Ex in IH; lia.
Qed.
