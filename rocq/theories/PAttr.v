(** * PAttr: proofs about the attribute recogniser and parser *)
From Verif Require Import Base Attr Lib SpecAttr.
From Coq Require Import ZifyBool.
Local Open Scope nat_scope.
Local Open Scope char_scope.

(** ** UTF-8 boundaries *)
Definition ascii7 (c : ascii) : bool := N.ltb (code c) 128.
(** What the proofs need of UTF-8: a position after an ASCII byte is a character boundary. *)
Definition wfb (src : bytes) : Prop :=
  boundary src 0 = true /\
  forall i c, nth_error src i = Some c -> ascii7 c = true -> boundary src (S i) = true.

Lemma rng_cont_false lo hi c : (hi < 128)%N \/ (191 < lo)%N -> rng lo hi c -> is_cont c = false.
Proof. unfold rng, is_cont, in_range. intros. destruct (N.leb_spec 128 (code c)), (N.leb_spec (code c) 191); simpl; auto; lia. Qed.
Lemma rng_high lo hi c : (128 <= lo)%N -> rng lo hi c -> ascii7 c = false.
Proof. unfold rng, ascii7. intros. apply N.ltb_ge. lia. Qed.

Lemma utf8_hd c s : utf8 (c :: s) -> is_cont c = false.
Proof.
  intros H; inv H;
    match goal with
    | H : _ \/ _ |- _ => destruct H as [H|H]; (eapply rng_cont_false; [|exact H]; lia)
    | H : rng ?lo ?hi c |- _ => eapply rng_cont_false; [|exact H]; lia
    end.
Qed.
Lemma utf8_bd0 s : utf8 s -> boundary s 0 = true.
Proof.
  unfold boundary. destruct s; simpl; auto. intros H; apply utf8_hd in H. rewrite H; auto.
Qed.
Lemma boundary_cons c s i : boundary (c :: s) (S i) = boundary s i.
Proof. reflexivity. Qed.

Lemma high_not7 lo hi c : (128 <= lo)%N -> rng lo hi c -> ascii7 c = true -> False.
Proof. intros H1 H2 H3. rewrite (rng_high _ _ _ H1 H2) in H3. discriminate. Qed.

Ltac hi7 :=
  repeat match goal with H : rng _ _ _ \/ rng _ _ _ |- _ => destruct H end;
  match goal with
  | H : rng _ _ ?c, H' : ascii7 ?c = true |- False => eapply high_not7; [|exact H|exact H']; lia
  end.

Lemma utf8_wfb s : utf8 s -> wfb s.
Proof.
  intros H; split; [apply utf8_bd0; auto|].
  induction H; intros i x Hi Hx.
  - destruct i; discriminate.
  - destruct i as [|i]; simpl in Hi; rewrite boundary_cons; eauto. apply utf8_bd0; auto.
  - do 2 (destruct i as [|i]; simpl in Hi; [injection Hi as <-; exfalso; hi7|]).
    rewrite !boundary_cons; eauto.
  - do 3 (destruct i as [|i]; simpl in Hi; [injection Hi as <-; exfalso; hi7|]).
    rewrite !boundary_cons; eauto.
  - do 3 (destruct i as [|i]; simpl in Hi;
          [injection Hi as <-; exfalso; hi7|]).
    rewrite !boundary_cons; eauto.
  - do 3 (destruct i as [|i]; simpl in Hi; [injection Hi as <-; exfalso; hi7|]).
    rewrite !boundary_cons; eauto.
  - do 4 (destruct i as [|i]; simpl in Hi; [injection Hi as <-; exfalso; hi7|]).
    rewrite !boundary_cons; eauto.
  - do 4 (destruct i as [|i]; simpl in Hi; [injection Hi as <-; exfalso; hi7|]).
    rewrite !boundary_cons; eauto.
  - do 4 (destruct i as [|i]; simpl in Hi; [injection Hi as <-; exfalso; hi7|]).
    rewrite !boundary_cons; eauto.
Qed.

Lemma wfb_ascii_at src i c : wfb src -> nth_error src i = Some c -> ascii7 c = true -> boundary src i = true.
Proof.
  intros _ Hi Hc. unfold boundary. rewrite Hi. unfold is_cont, in_range.
  unfold ascii7 in Hc. destruct (N.leb_spec 128 (code c)); simpl; auto. lia.
Qed.
Lemma wfb_after src i c : wfb src -> nth_error src i = Some c -> ascii7 c = true -> boundary src (S i) = true.
Proof. intros [_ H]; eauto. Qed.
Lemma boundary_end src : boundary src (length src) = true.
Proof.
  unfold boundary. destruct (nth_error src (length src)) eqn:E.
  - exfalso. assert (length src < length src) by (apply nth_error_Some; congruence). lia.
  - apply Nat.eqb_refl.
Qed.

(** ** A pure version of the parser: pending text instead of positions *)
Definition pstep (st : astate) (c : ascii) : astate :=
  match step st c with Ok st' => st' | _ => AInvalid end.
Definition live (st : astate) : Prop := st <> ADone /\ st <> AInvalid.
Lemma step_live st c : live st -> step st c = Ok (pstep st c).
Proof. unfold pstep, live. intros [? ?]; destruct st; simpl; auto; congruence. Qed.

Definition updl (a : attrs) (f : bytes -> bytes) : attrs :=
  match last_opt a with Some (k, v) => butlast a ++ [(k, f v)] | None => a end.
Lemma updl_app a k v f : updl (a ++ [(k, v)]) f = a ++ [(k, f v)].
Proof. unfold updl. rewrite last_opt_app, butlast_app. reflexivity. Qed.

Definition pl (st : astate) (pend : bytes) (a : attrs) : attrs :=
  match st with
  | AClass => a ++ [(KClass, pend)]
  | AIdentifier => a ++ [(KId, pend)]
  | AKey => a ++ [(KPair pend, [])]
  | AValue | AValueContinued => updl a (fun v => extend v pend)
  | AValueQuoted => updl a (fun v => extend v (tl pend))
  | AComment => updl a (fun v => v ++ pend)
  | ACommentNewline => updl a (fun v => v ++ [NL])
  | ACommentFirst => a ++ [(KComment, [])]
  | _ => a
  end.

(** States in which the last element of the list is being extended. *)
Definition needs_elem (st : astate) : bool :=
  match st with
  | AValueFirst | AValue | AValueQuoted | AValueEscape | AValueNewline | AValueContinued
  | AComment | ACommentNewline => true
  | _ => false
  end.
Definition is_qstate (st : astate) : bool :=
  match st with AValueQuoted | AValueEscape => true | _ => false end.
Definition ainv (st : astate) (pend : bytes) (a : attrs) : Prop :=
  live st /\ (needs_elem st = true -> a <> []) /\ (is_qstate st = true -> pend <> []).

Lemma upd_last_ok a f w : a <> [] -> upd_last a f w = Ok (updl a f).
Proof.
  intros. unfold upd_last, updl. destruct (last_opt a) as [[k v]|] eqn:E; auto.
  apply last_opt_none in E. contradiction.
Qed.
Lemma leave_ok st pend a : ainv st pend a -> leave st pend a = Ok (pl st pend a).
Proof.
  intros (H1 & H2 & H3). destruct st; simpl in *; auto; try (apply upd_last_ok; auto).
  destruct pend; [exfalso; apply H3; auto|]. apply upd_last_ok; auto.
Qed.

Definition skips (st st' : astate) : bool :=
  astate_eqb st st' || astate_eqb st AValueEscape || astate_eqb st' AValueEscape.

Definition npend (st : astate) (c : ascii) (pend : bytes) : bytes :=
  if skips st (pstep st c) then pend ++ [c] else [c].
Definition nattr (st : astate) (c : ascii) (pend : bytes) (a : attrs) : attrs :=
  if skips st (pstep st c) then a else pl st pend a.

Fixpoint arun (rest : bytes) (pos : nat) (st : astate) (pend : bytes) (a : attrs) : aresult * aparser :=
  match rest with
  | [] => (AOk pos, AP a st)
  | c :: rest' =>
      let st' := pstep st c in
      let a' := nattr st c pend a in
      let pend' := npend st c pend in
      match st' with
      | AInvalid => (AErr pos, AP a st)
      | ADone => if starts_c rest' "{" then arun rest' (S pos) AStart pend' a'
                 else (AOk (S pos), AP a' ADone)
      | _ => arun rest' (S pos) st' pend' a'
      end
  end.

Lemma astate_eqb_eq a b : astate_eqb a b = true <-> a = b.
Proof. destruct a, b; simpl; split; intros; congruence. Qed.

Lemma updl_nonempty a f : a <> [] -> updl a f <> [].
Proof.
  unfold updl. intros H. destruct (last_opt a) as [[k v]|] eqn:E; auto.
  destruct (butlast a); discriminate.
Qed.
Lemma app1_nonempty {A} (a : list A) x : a ++ [x] <> [].
Proof. destruct a; discriminate. Qed.

Ltac step_cases st c :=
  unfold pstep; destruct st; simpl;
  repeat match goal with |- context [if ?b then _ else _] => destruct b end.

(** The invariant is kept. *)
Lemma ainv_step st pend a c :
  ainv st pend a -> live (pstep st c) ->
  ainv (pstep st c) (npend st c pend) (nattr st c pend a).
Proof.
  intros (H1 & H2 & H3) Hl. unfold ainv. split; [exact Hl|].
  unfold live in Hl. revert Hl.
  unfold npend, nattr, pstep; destruct st; simpl;
    repeat match goal with |- context [if ?b then _ else _] => destruct b; simpl end;
    intros [? ?]; try congruence; split; intros; try discriminate; auto using updl_nonempty, app1_nonempty.
  all: try (apply app1_nonempty).
Qed.
Lemma ainv_start pend a : ainv AStart pend a.
Proof. repeat split; discriminate. Qed.

(** States that loop over arbitrary text. *)
Definition texty (st : astate) : bool :=
  match st with AComment | AValueQuoted | AValueContinued => true | _ => false end.
Lemma step_ascii st c : texty (pstep st c) = true \/ ascii7 c = true \/ pstep st c = AInvalid.
Proof. destruct st; all_bytes c; auto. Qed.
Lemma step_texty st c : texty st = true -> skips st (pstep st c) = false -> ascii7 c = true.
Proof. destruct st; simpl; try discriminate; intros _; all_bytes c. Qed.

Lemma slice_snoc src a b c : a <= b -> nth_error src b = Some c -> slice src (Sp a (S b)) = slice src (Sp a b) ++ [c].
Proof.
  intros. rewrite <- (slice_app src a b (S b)) by lia. f_equal. unfold slice; cbn [ss se].
  replace (S b - b)%nat with 1 by lia. rewrite (nth_skipn_cons _ _ _ H0). reflexivity.
Qed.

Lemma aparse_arun input : wfb input ->
  forall rest pos pp st a,
  rest = skipn pos input -> pp <= pos -> pos <= length input ->
  boundary input pp = true -> (boundary input pos = true \/ texty st = true) ->
  ainv st (slice input (Sp pp pos)) a ->
  aparse_loop input rest pos pp (AP a st) = Ok (arun rest pos st (slice input (Sp pp pos)) a).
Proof.
  intros Hw rest. induction rest as [|c rest IH]; intros pos pp st a Hr Hpp Hpos Hb Hbp Hinv.
  - simpl. symmetry in Hr. apply skipn_nil_iff in Hr. replace pos with (length input) by lia. reflexivity.
  - symmetry in Hr. apply skipn_cons_nth in Hr. destruct Hr as [Hc Hr].
    assert (Hlt : pos < length input) by (apply nth_error_Some; congruence).
    cbn [aparse_loop arun ap_state ap_attrs].
    rewrite step_live by apply Hinv. simpl bind. cbv zeta.
    fold (skips st (pstep st c)).
    destruct (astate_eqb (pstep st c) AInvalid) eqn:Einv.
    { apply astate_eqb_eq in Einv. rewrite Einv. reflexivity. }
    assert (Hnb : skips st (pstep st c) = false -> boundary input pos = true).
    { intros Hs. destruct Hbp as [|Ht]; auto. eapply wfb_ascii_at; eauto. eapply step_texty; eauto. }
    assert (Hnext : boundary input (S pos) = true \/ texty (pstep st c) = true).
    { destruct (step_ascii st c) as [|[|E]]; auto.
      - left. eapply wfb_after; eauto.
      - rewrite E in Einv; discriminate. }
    assert (Hcalc : exists pp', pp' <= S pos /\ boundary input pp' = true /\
       slice input (Sp pp' (S pos)) =
         npend st c (slice input (Sp pp pos)) /\
       (if skips st (pstep st c) then Ok (a, pp)
        else let! content := ssub input (Sp pp pos) "attr.rs:751" in
             let! a' := leave st content a in Ok (a', pos))
       = Ok (nattr st c (slice input (Sp pp pos)) a, pp')).
    { unfold npend, nattr. destruct (skips st (pstep st c)) eqn:Es.
      - exists pp. repeat split; auto. apply slice_snoc; auto.
      - exists pos. repeat split; auto.
        + rewrite (slice_snoc input pos pos c) by auto. unfold slice; cbn [ss se].
          rewrite Nat.sub_diag. reflexivity.
        + rewrite ssub_yes; simpl; auto; try lia. rewrite leave_ok by auto. reflexivity. }
    destruct Hcalc as (pp' & Hpp' & Hb' & Hsl & ->). cbn [bind].
    pose proof (ainv_step st _ a c Hinv) as Hi0. rewrite <- Hsl in Hi0. rewrite <- Hsl. clear Hsl.
    generalize dependent (nattr st c (slice input (Sp pp pos)) a). intros a' Hi0.
    destruct (astate_eqb (pstep st c) ADone) eqn:Edone.
    { apply astate_eqb_eq in Edone. rewrite Edone in *.
      destruct (starts_c rest "{") eqn:Esc; [|reflexivity].
      apply IH; auto; try lia; try apply ainv_start. }
    assert (Hl : live (pstep st c)).
    { split; intros E; rewrite E in *; discriminate. }
    specialize (IH (S pos) pp' (pstep st c) _ Hr Hpp' ltac:(lia) Hb' Hnext (Hi0 Hl)).
    destruct (pstep st c); try exact IH; discriminate.
Qed.

Lemma aparser_parse_arun input a st :
  wfb input -> ainv st [] a ->
  aparser_parse (AP a st) input = Ok (arun input 0 st [] a).
Proof.
  intros. unfold aparser_parse. change [] with (slice input (Sp 0 0)).
  apply aparse_arun; auto; try lia; try apply H. left; apply H.
Qed.

(** ** Acceptance *)
Fixpoint acc (rest : bytes) (st : astate) (pend : bytes) (a : attrs) : option attrs :=
  match rest with
  | [] => None
  | c :: rest' =>
      let st' := pstep st c in
      let a' := nattr st c pend a in
      let pend' := npend st c pend in
      match st' with
      | AInvalid => None
      | ADone => match rest' with
                 | [] => Some a'
                 | d :: _ => if beq d "{" then acc rest' AStart pend' a' else None
                 end
      | _ => acc rest' st' pend' a'
      end
  end.

(** What [attrs_parse] makes of a run. *)
Definition verdict (len : nat) (r : aresult * aparser) : attrs + nat :=
  match fst r with
  | AErr pos => inr pos
  | AOk n => if Nat.eqb n len && astate_eqb (ap_state (snd r)) ADone then inl (ap_attrs (snd r)) else inr n
  end.

Lemma pstep_cases st c (P : astate -> Prop) :
  P AInvalid -> P ADone -> (forall s, live s -> P s) -> P (pstep st c).
Proof. intros H1 H2 H3. destruct (pstep st c); auto; apply H3; split; discriminate. Qed.

Lemma match_live {A} s (x y z : A) : live s ->
  (match s with AInvalid => x | ADone => y | _ => z end) = z.
Proof. intros [? ?]; destruct s; auto; congruence. Qed.

Lemma verdict_acc rest : forall pos st pend a, live st ->
  match acc rest st pend a with
  | Some out => verdict (pos + length rest) (arun rest pos st pend a) = inl out
  | None => exists p, verdict (pos + length rest) (arun rest pos st pend a) = inr p
  end.
Proof.
  induction rest as [|c rest IH]; intros pos st pend a Hl; cbn [acc arun].
  - unfold verdict; simpl. destruct Hl as [H1 _].
    destruct (astate_eqb st ADone) eqn:E; [apply astate_eqb_eq in E; congruence|].
    rewrite andb_false_r. eauto.
  - cbv zeta. generalize (npend st c pend) as pend'. generalize (nattr st c pend a) as a'.
    apply pstep_cases; intros.
    + unfold verdict; simpl; eauto.
    + destruct rest as [|d rest]; simpl starts_c.
      * unfold verdict; simpl. rewrite Nat.add_1_r, Nat.eqb_refl. reflexivity.
      * destruct (beq d "{") eqn:Ed.
        { specialize (IH (S pos) AStart pend' a' ltac:(split; discriminate)).
          replace (pos + length (c :: d :: rest)) with (S pos + length (d :: rest)) by (simpl; lia).
          exact IH. }
        { unfold verdict; simpl.
          replace (pos + S (S (length rest))) with (S (pos + S (length rest))) by lia.
          cbn [Nat.eqb]. destruct (Nat.eqb_spec pos (pos + S (length rest))); [lia|]. simpl; eauto. }
    + rewrite !match_live by auto. specialize (IH (S pos) s pend' a' H).
      replace (pos + length (c :: rest)) with (S pos + length rest) by (simpl; lia). exact IH.
Qed.
