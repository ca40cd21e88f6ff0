(** * PDoc1: traces of the event iterator *)
From Verif Require Import Base Lex Attr Block Inline Doc Lib PSafe.
Local Open Scope nat_scope.

Section Trace.
Variable src : bytes.
Variable pp : prepass.

(** [T p O]: from [p], about to ask the inline parser, the iterator yields exactly [O].
    [Tb p O]: the same when the inline parser has just answered that it has nothing. *)
Inductive T : pstate -> list (event * span) -> Prop :=
| t_inl p r p1 O : p_inline src pp p = Ok (Some r, p1) -> T p1 O -> T p (r :: O)
| t_blk p p1 O : p_inline src pp p = Ok (None, p1) -> Tb p1 O -> T p O
with Tb : pstate -> list (event * span) -> Prop :=
| t_emit p e sp p1 O : block_step src pp p = Ok (SEmit e sp p1) -> T p1 O -> Tb p ((e, sp) :: O)
| t_loop p p1 O : block_step src pp p = Ok (SLoop p1) -> Tb p1 O -> Tb p O
| t_fed p p1 O : block_step src pp p = Ok (SFed p1) -> T p1 O -> Tb p O
| t_end p : block_step src pp p = Ok SEnd -> p_battr p = None -> Tb p [].
Scheme T_mind := Induction for T Sort Prop with Tb_mind := Induction for Tb Sort Prop.
Combined Scheme T_mut from T_mind, Tb_mind.

Lemma p_inline_blocks p o p1 : p_inline src pp p = Ok (o, p1) -> p_blocks p1 = p_blocks p.
Proof.
  unfold p_inline. destruct (inline_next src (p_inl p)) as [[o1 s]| |]; cbn [bind]; try discriminate.
  destruct o1 as [e|]; [|intros H; injection H as <- <-; reflexivity].
  assert (Hd : forall a s, (let! r := inline_event src pp s e a in Ok (Some r, p_set_inl p s)) = Ok (o, p1) -> p_blocks p1 = p_blocks p).
  { intros a s0. destruct (inline_event _ _ _ _ _); cbn [bind]; try discriminate. intros H; injection H as <- <-; reflexivity. }
  destruct (ik e); try apply Hd. destruct (inline_next src s) as [[o2 s2]| |]; cbn [bind]; try discriminate.
  destruct (get_at _ _ _); cbn [bind]; try discriminate. destruct o2 as [e2|]; [|discriminate].
  destruct (inline_event _ _ _ _ _); cbn [bind]; try discriminate. intros H; injection H as <- <-; reflexivity.
Qed.
Lemma node_container_blocks p n b c p1 : node_container pp p n b = Ok (c, p1) -> p_blocks p1 = p_blocks p.
Proof.
  unfold node_container. destruct n as [c0|l].
  - destruct c0; cbn; try (intros H; injection H as <- <-; reflexivity).
    + destruct ty; cbn; try (intros H; injection H as <- <-; reflexivity); destruct (bullet_of _); cbn; try discriminate; intros H; injection H as <- <-; reflexivity.
    + destruct k; intros H; injection H as <- <-; reflexivity.
    + destruct b; intros H; injection H as <- <-; reflexivity.
  - destruct (i_reset _); cbn [bind]; try discriminate. destruct l; cbn; intros H; injection H as <- <-; reflexivity.
Qed.
Lemma block_step_shrinks p st : block_step src pp p = Ok st ->
  match st with SLoop p1 | SFed p1 => S (length (p_blocks p1)) = length (p_blocks p) | _ => True end.
Proof.
  unfold block_step. destruct (p_blocks p) as [|[k sp] bl] eqn:Eb; [intros H; injection H as <-; exact I|].
  destruct k as [n| |n|[]|].
  - destruct (node_container _ _ _ _) as [[c p1]| |]; cbn [bind]; try discriminate. destruct (p_battr p) as [[]|]; intros H; injection H as <-; exact I.
  - destruct (p_verb p).
    + destruct (sp_empty sp); [intros H; injection H as <-; reflexivity|]. destruct (ssub _ _ _); cbn [bind]; try discriminate. intros H; injection H as <-; exact I.
    + destruct (i_feed_line _ _ _ _); cbn [bind]; try discriminate. intros H; injection H as <-; reflexivity.
  - destruct (node_container _ _ _ _) as [[c p1]| |]; cbn [bind]; try discriminate. destruct (p_battr p) as [[]|]; intros H; injection H as <-; exact I.
  - destruct (assert _ _); cbn [bind]; try discriminate. intros H; injection H as <-; exact I.
  - destruct (p_battr p) as [[a asp]|]; destruct (ssub _ _ _); cbn [bind]; try discriminate; destruct (attrs_parse _ _) as [[a'|]| |]; cbn [bind]; try discriminate;
      destruct (next_is_blank bl); intros H; injection H as <-; try exact I; reflexivity.
  - destruct (p_battr p) as [[]|]; intros H; injection H as <-; exact I.
  - intros H; injection H as <-; reflexivity.
Qed.

(** The first output, as computed by the iterator. *)
Definition first (r : res (option (event * span) * pstate)) (O : list (event * span)) : Prop :=
  match O with
  | [] => exists p1, r = Ok (None, p1)
  | x :: O' => exists p1, r = Ok (Some x, p1) /\ T p1 O'
  end.
Lemma T_first :
  (forall p O, T p O -> first (next_span src pp p) O /\ (forall f, length (p_blocks p) < f ->
     first (let! (o, p1) := p_inline src pp p in match o with Some r => Ok (Some r, p1) | None => p_block f src pp p1 end) O)) /\
  (forall p O, Tb p O -> forall f, length (p_blocks p) < f -> first (p_block f src pp p) O).
Proof.
  apply T_mut.
  - intros p r p1 O E HT _. unfold next_span. rewrite E. cbn [bind]. split; [cbn; eauto|]. intros. cbn; eauto.
  - intros p p1 O E HT IH. unfold next_span. rewrite E. cbn [bind]. split; [apply IH; lia|]. intros f Hf. apply IH. rewrite (p_inline_blocks _ _ _ E). auto.
  - intros p e sp p1 O E HT _ [|f] Hf; [lia|]. cbn [p_block]. rewrite E. cbn [bind]. cbn. eauto.
  - intros p p1 O E HT IH [|f] Hf; [lia|]. cbn [p_block]. rewrite E. cbn [bind]. pose proof (block_step_shrinks _ _ E) as Hs. cbn in Hs. apply IH. lia.
  - intros p p1 O E HT [_ IH] [|f] Hf; [lia|]. cbn [p_block]. rewrite E. cbn [bind]. pose proof (block_step_shrinks _ _ E) as Hs. cbn in Hs. apply IH. lia.
  - intros p E Hb [|f] Hf; [lia|]. cbn [p_block]. rewrite E, Hb. cbn [bind first]. eauto.
Qed.
Lemma T_all O : forall p f, T p O -> length O < f -> p_all f src pp p = Ok O.
Proof.
  induction O as [|x O IH]; intros p f HT Hf; (destruct f as [|f]; [lia|]); cbn [p_all]; destruct (proj1 T_first _ _ HT) as [H1 _]; cbn [first] in H1.
  - destruct H1 as [p1 ->]. reflexivity.
  - destruct H1 as (p1 & -> & H1). cbn [bind]. rewrite (IH p1 f) by (cbn in Hf; auto; lia). reflexivity.
Qed.
End Trace.
