(** * PropsConsume: blocks are made of whole lines (C32) *)
From Verif Require Import Base Lex Attr Block Inline Doc Lib SpecAttr SpecBlock SpecDoc SpecSrc SpecMark PSafe PAttr PBlock2 PBlock3 PDoc2 PDoc4 PDoc6 PropsDoc PropsMark.
Local Open Scope nat_scope.

(** The blocks that are made of lines. *)
Definition line_block (c : container) : bool :=
  match c with
  | Paragraph | Heading _ _ _ | LinkDefinition _ | CodeBlock _ | RawBlock _ | Blockquote | Div _ | Footnote _ | ListItem | TaskListItem _ | Table => true
  | _ => false
  end.
(** All events begin at [p] or after it. *)
Definition after (p : nat) (evs : list (event * span)) : Prop := Forall (fun x => p <= ss (snd x)) evs.

Lemma after_lo p q l : after p l -> q <= p -> after q l.
Proof. intros H Hq. eapply Forall_impl; [|exact H]. cbn. intros; lia. Qed.
Lemma after_app p a b : after p a -> after p b -> after p (a ++ b).
Proof. intros H1 H2. apply Forall_app. auto. Qed.
Lemma after_cons p e sp r : p <= ss sp -> after p r -> after p ((e, sp) :: r).
Proof. intros H1 H2. constructor; auto. Qed.
Lemma ordered_after l : forall p, ordered p l -> after p l.
Proof.
  induction l as [|[e sp] l IH]; intros p H; [constructor|]. cbn [ordered] in H. destruct H as (H1 & H2 & H3).
  apply after_cons; [auto|]. eapply after_lo; [apply IH; eauto|lia].
Qed.
(** Nothing that comes after the end of a block starts before it ended. *)
Fixpoint past (evs : list (event * span)) : Prop :=
  match evs with
  | [] => True
  | (e, sp) :: r => (match e with End_ c => line_block c = true -> after (se sp) r | _ => True end) /\ past r
  end.
Lemma past_split a e sp r : past (a ++ (e, sp) :: r) -> match e with End_ c => line_block c = true -> after (se sp) r | _ => True end.
Proof. induction a as [|[e0 sp0] a IH]; cbn [app past]; [intros [H _]; exact H|]. intros [_ H]. exact (IH H). Qed.
Section Q.
Context (src : bytes) (pp : prepass).
Lemma body_after c lo O hi : body src pp c lo O hi -> after lo O.
Proof.
  intros [(m & Hm & H) _]. apply qsteps_psteps in H. pose proof (psteps_ordered _ _ _ _ H [] I) as Ho. rewrite app_nil_r in Ho.
  apply ordered_after. exact Ho.
Qed.
Lemma body_end c lo O hi : body src pp c lo O hi -> lo <= hi.
Proof.
  intros [(m & Hm & H) _]. apply qsteps_psteps in H.
  pose proof (psteps_ordered _ _ _ _ H [(Blankline, Sp m m)]) as Ho. cbn [fst snd map ordered ss se] in Ho.
  specialize (Ho (conj (le_n _) (conj (le_n _) I))). apply ordered_after in Ho. apply Forall_app in Ho. destruct Ho as [_ Ho].
  apply Forall_inv in Ho. cbn [snd ss] in Ho. lia.
Qed.
Lemma psteps_past s O s' : psteps src s O s' -> forall r, past r -> past (O ++ r).
Proof.
  induction 1 as [|s e s1 E s2 H1 H2 IH]; intros r Hr; [auto|]. cbn [app]. destruct e as [e sp]. cbn [past]. split; [|auto].
  inversion H1; subst; auto; destruct e || destruct c; cbn in *; try discriminate; auto; try (intros; discriminate).
Qed.
Lemma body_past c lo O hi : body src pp c lo O hi -> forall r, past r -> past (O ++ r).
Proof. intros [(m & _ & H) _]. apply qsteps_psteps in H. eapply psteps_past; eauto. Qed.
Lemma chain_le lo (l : list span) hi : Forall (span_ok src) l -> chain lo l hi -> lo <= hi.
Proof.
  revert lo; induction l as [|s l IH]; intros lo Hs Hc; cbn in *; [auto|]. inversion Hs as [|? ? (H1 & _) Hs']; subst. destruct Hc as (H2 & _ & Hc).
  apply IH in Hc; auto. lia.
Qed.
Lemma gq_le g lo O y hi : gq src pp g lo O y hi -> lo <= hi.
Proof.
  induction 1; auto; repeat match goal with H : span_ok _ _ |- _ => destruct H as (? & _) | H : body _ _ _ _ _ _ |- _ => apply body_end in H end; try lia.
  match goal with H : chain _ _ _ |- _ => apply chain_le in H; [|assumption] end. lia.
Qed.
Lemma blanks_after bl : forall lo hi, Forall (span_ok src) bl -> chain lo bl hi -> after lo (blanks bl).
Proof.
  induction bl as [|s l IH]; intros lo hi Hs Hc; cbn; [constructor|]. inversion Hs as [|? ? (H1 & _) Hs']; subst. destruct Hc as (H2 & _ & Hc).
  apply after_cons; [auto|]. eapply after_lo; [eapply IH; eauto|lia].
Qed.
Lemma blanks_past bl r : past r -> past (blanks bl ++ r).
Proof. intros H. induction bl; cbn; auto. Qed.
Lemma gq_after g lo O y hi : gq src pp g lo O y hi -> after lo O.
Proof.
  induction 1;
    repeat match goal with
    | H : gq _ _ _ _ _ _ _ |- _ => apply gq_le in H
    | H : body _ _ _ _ _ _ |- _ => pose proof (body_after _ _ _ _ H); apply body_end in H
    | H : span_ok _ _ |- _ => destruct H as (? & _)
    end.
  - constructor.
  - apply after_cons; [auto|]. eapply after_lo; eauto; lia.
  - apply after_cons; [auto|]. eapply after_lo; eauto; lia.
  - apply after_cons; [auto|]. eapply after_lo; eauto; lia.
  - apply after_cons; [auto|]. apply after_app; [eapply after_lo; eauto; lia|]. apply after_cons; [lia|]. eapply after_lo; eauto; lia.
  - eapply after_lo; eauto; lia.
  - apply after_cons; [auto|]. apply after_app; [eapply after_lo; eauto; lia|]. apply after_cons; [lia|]. auto.
  - apply after_cons; [auto|]. apply after_app; [eapply after_lo; eauto; lia|]. apply after_cons; [lia|]. eapply after_lo; eauto; lia.
  - assert (Hs : forall l, Forall (span_ok src) l -> Forall (span_ok src) l) by auto.
    match goal with H : chain _ _ _ |- _ => pose proof (chain_le _ _ _ ltac:(eassumption) H); pose proof (blanks_after _ _ _ ltac:(eassumption) H) end.
    apply after_cons; [auto|]. apply after_app; [eapply after_lo; eauto; lia|]. apply after_cons; [lia|].
    apply after_app; [eapply after_lo; eauto; lia|]. apply after_cons; [lia|]. apply after_app; [eapply after_lo; eauto; lia|]. apply after_cons; [lia|].
    eapply after_lo; eauto; lia.
Qed.
Lemma gq_past g lo O y hi : gq src pp g lo O y hi -> forall r, after hi r -> past r -> past (O ++ r).
Proof.
  induction 1; intros rr Ha Hr; cbn [app past]; auto;
    try (split; [exact I|]; auto; fail);
    repeat (rewrite <- app_assoc; cbn [app past]).
  - split; [exact I|]. eapply body_past; [eassumption|]. cbn [past]. split; [|auto]. intros _. apply after_app; [eapply gq_after; eauto|].
    match goal with H : gq _ _ _ _ _ _ _ |- _ => apply gq_le in H end. eapply after_lo; eauto.
  - split; [exact I|]. eapply body_past; [eassumption|]. cbn [past]. split; [intros; discriminate|auto].
  - assert (Hq : after (se sp') (r ++ rr)).
    { apply after_app; [eapply gq_after; eauto|]. match goal with H : gq _ _ _ (se sp') _ _ _ |- _ => apply gq_le in H end. eapply after_lo; eauto. }
    split; [exact I|]. apply IHgq1.
    + match goal with H : span_ok _ sp' |- _ => destruct H as (? & _) end. apply after_cons; [auto|]. eapply after_lo; eauto; lia.
    + cbn [past]. split; auto.
  - assert (Hq : after (se sp3) (r ++ rr)).
    { apply after_app; [eapply gq_after; eauto|]. match goal with H : gq _ _ _ (se sp3) _ _ _ |- _ => apply gq_le in H end. eapply after_lo; eauto. }
    split; [exact I|]. eapply body_past; [eassumption|]. cbn [past]. split; [intros; discriminate|]. apply blanks_past. cbn [past]. split; [exact I|].
    apply IHgq1.
    + match goal with H : span_ok _ sp3 |- _ => destruct H as (? & _) end. apply after_cons; [auto|]. eapply after_lo; eauto; lia.
    + cbn [past]. split; auto.
Qed.
End Q.

(** ** C32: a block consumes at least one line, up to the end of a line, and what comes after it begins on a later line *)
Theorem C32_blocks : forall src evs A c a sp M sp' Z, utf8 src -> parse_spans src = Ok evs ->
  evs = A ++ (Start c a, sp) :: M ++ (End_ c, sp') :: Z -> nest [] (map fst M) = Some [] -> line_block c = true ->
  line_end src (se sp') /\ ss sp < se sp' /\ after (se sp') Z.
Proof.
  intros src evs A c a sp M sp' Z Hu E He Hn Hc.
  assert (Hb : inline_box c = false) by (destruct c; auto; discriminate).
  destruct (C40_marked _ _ _ _ _ _ _ _ _ Hu E He Hn Hb) as (m & (Hm & _) & _ & Hw & _).
  assert (H : line_end src (se sp') /\ m < se sp') by (destruct c; try discriminate; exact Hw).
  split; [apply H|]. split; [lia|].
  pose proof (gq_past _ _ _ _ _ _ _ (spans_ok _ _ Hu E) [] (Forall_nil _) I) as Hp. rewrite app_nil_r in Hp. subst evs.
  change (A ++ (Start c a, sp) :: M ++ (End_ c, sp') :: Z) with (A ++ [(Start c a, sp)] ++ M ++ (End_ c, sp') :: Z) in Hp.
  rewrite !app_assoc in Hp. apply past_split in Hp. auto.
Qed.
(** A blank line reaches to the end of its line; after a thematic break there are only blanks up to the end of the line. *)
Theorem C32_single : forall src evs e sp, utf8 src -> parse_spans src = Ok evs -> List.In (e, sp) evs ->
  (e = Blankline -> blanks_only (slice src sp) /\ line_end src (se sp)) /\ (forall a, e = ThematicBreak a -> line_over src (se sp)).
Proof.
  intros src evs e sp Hu E Hin. split.
  - intros ->. eapply C40_blank; eauto.
  - intros a ->. destruct (C40_break _ _ _ _ Hu E Hin) as (m & _ & _ & H). exact H.
Qed.
(** The hypotheses are met: the quote in [mark_doc] ends after its fifth line, the next block begins there. *)
Example C32_blocks_ex : exists A M Z sp sp', mark_evs = A ++ (Start Blockquote [], sp) :: M ++ (End_ Blockquote, sp') :: Z /\
  nest [] (map fst M) = Some [] /\ length M = 4 /\ slice mark_doc (Sp (ss sp) (se sp')) = nls [ B "> {.q}"; B "> ```` rs"; B "> ```"; B "> x"; B "> ````" ] /\
  map (fun x => ss (snd x)) (firstn 2 Z) = [se sp'; S (se sp')].
Proof.
  exists (firstn 1 mark_evs), (firstn 4 (skipn 2 mark_evs)), (skipn 7 mark_evs), (snd (nth 1 mark_evs (Blankline, Sp 0 0))), (snd (nth 6 mark_evs (Blankline, Sp 0 0))).
  split; [vm_compute; reflexivity|]. split; [vm_compute; reflexivity|]. split; [vm_compute; reflexivity|]. split; vm_compute; reflexivity.
Qed.
Definition PropsConsume_all := (@C32_blocks, @C32_single, @C32_blocks_ex).
Print Assumptions PropsConsume_all.
