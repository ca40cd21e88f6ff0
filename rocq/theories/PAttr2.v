(** * PAttr2: the parser accepts exactly the grammar *)
From Verif Require Import Base Attr Lib SpecAttr PAttr.
Local Open Scope nat_scope.
Local Open Scope char_scope.

Lemma name_char_is c : name_char c <-> is_name c = true.
Proof.
  unfold name_char, is_name. split.
  - intros [H|[-> |[-> | ->]]]; auto. rewrite H; auto.
  - intros H. apply orb_prop in H. destruct H as [H|H]; [|beqs; auto 6].
    apply orb_prop in H. destruct H as [H|H]; [|beqs; auto 6].
    apply orb_prop in H. destruct H as [H|H]; [|beqs; auto 6]. left; exact H.
Qed.
Lemma gname_is s : Forall name_char s <-> forallb is_name s = true.
Proof.
  rewrite forallb_forall, Forall_forall. split; intros H x Hx; apply name_char_is; auto.
Qed.

(** What follows a complete set. *)
Definition after (r : bytes) (a : attrs) : option attrs :=
  match r with
  | [] => Some a
  | d :: _ => if beq d "{" then acc r AStart ["}"] a else None
  end.

(** Unfold one step of [acc] when the next state is known. *)
Lemma acc_to c rest st pend a st' :
  pstep st c = st' -> live st' ->
  acc (c :: rest) st pend a = acc rest st' (npend st c pend) (nattr st c pend a).
Proof. intros E H. cbn [acc]. rewrite E, match_live by auto. reflexivity. Qed.
Lemma acc_inv c rest st pend a : pstep st c = AInvalid -> acc (c :: rest) st pend a = None.
Proof. intros E. cbn [acc]. rewrite E. reflexivity. Qed.

Definition ignores (st : astate) : bool :=
  match st with
  | AStart | AWhitespace | ACommentFirst | AClassFirst | AIdentifierFirst | AValueFirst
  | AValueNewline | ACommentNewline => true
  | _ => false
  end.
Lemma ignores_pl st p p' a : ignores st = true -> pl st p a = pl st p' a.
Proof. destruct st; simpl; try discriminate; auto. Qed.

Lemma acc_pend rest : forall st p p' a, ignores st = true -> acc rest st p a = acc rest st p' a.
Proof.
  induction rest as [|c rest IH]; intros st p p' a H; auto.
  cbn [acc]. cbv zeta.
  assert (Ha : nattr st c p a = nattr st c p' a).
  { unfold nattr. destruct (skips _ _); auto. apply ignores_pl; auto. }
  rewrite Ha.
  destruct (skips st (pstep st c)) eqn:Es.
  - assert (Est : pstep st c = st).
    { unfold skips in Es. apply orb_prop in Es. destruct Es as [Es|Es].
      - apply orb_prop in Es. destruct Es as [Es|Es]; apply astate_eqb_eq in Es; auto.
        subst. discriminate.
      - apply astate_eqb_eq in Es. exfalso. revert Es H. clear. destruct st; simpl; try discriminate; intros Es _; revert Es; all_bytes c. }
    rewrite Est. pose proof (IH st (npend st c p) (npend st c p') (nattr st c p' a) H) as IH'.
    rewrite IH'. pose proof (IH AStart (npend st c p) (npend st c p') (nattr st c p' a) eq_refl) as IH2.
    rewrite IH2. reflexivity.
  - assert (Hp : npend st c p = npend st c p') by (unfold npend; rewrite Es; reflexivity).
    rewrite Hp. reflexivity.
Qed.

Lemma nattr_pl st c p a : skips st (pstep st c) = false -> nattr st c p a = pl st p a.
Proof. unfold nattr. intros ->. reflexivity. Qed.
Lemma npend_1 st c p : skips st (pstep st c) = false -> npend st c p = [c].
Proof. unfold npend. intros ->. reflexivity. Qed.

(** Closing brace. *)
Lemma acc_close rest st pend a :
  pstep st "}" = ADone -> skips st ADone = false -> acc ("}" :: rest) st pend a = after rest (pl st pend a).
Proof.
  intros E Es. cbn [acc]. unfold nattr, npend. rewrite E, Es. cbv zeta iota. destruct rest; reflexivity.
Qed.

(** Runs of name characters. *)
Lemma step_name st c : is_name c = true ->
  match st with AClass | AIdentifier | AKey | AValue => True | _ => False end -> pstep st c = st.
Proof. intros H. unfold pstep. destruct st; simpl; intros []; rewrite H; reflexivity. Qed.
Definition is_nstate st := match st with AClass | AIdentifier | AKey | AValue => True | _ => False end.
Lemma nstate_live st : is_nstate st -> live st.
Proof. destruct st; simpl; intros []; split; discriminate. Qed.
Lemma skips_same st : skips st st = true.
Proof. destruct st; reflexivity. Qed.

Lemma acc_names n : forall s st pend a, is_nstate st -> forallb is_name n = true ->
  acc (n ++ s) st pend a = acc s st (pend ++ n) a.
Proof.
  induction n as [|c n IH]; intros s st pend a Hs Hn; simpl app.
  - rewrite app_nil_r. reflexivity.
  - simpl in Hn. apply andb_prop in Hn. destruct Hn as [Hc Hn].
    rewrite (acc_to c _ st pend a st); [|apply step_name; auto|apply nstate_live; auto].
    unfold npend, nattr. rewrite step_name, skips_same by auto. rewrite IH by auto.
    rewrite <- app_assoc. reflexivity.
Qed.

Definition is_nfirst st := match st with AClassFirst => Some AClass | AIdentifierFirst => Some AIdentifier
                           | AValueFirst => Some AValue | AWhitespace => Some AKey | _ => None end.
Lemma step_nfirst st st' c : is_nfirst st = Some st' -> is_name c = true -> pstep st c = st'.
Proof.
  intros H Hc. destruct st; simpl in H; inv H; revert Hc; all_bytes c.
Qed.
Lemma nfirst_facts st st' : is_nfirst st = Some st' ->
  is_nstate st' /\ skips st st' = false /\ (forall p a, pl st p a = a).
Proof. destruct st; simpl; intros H; inv H; simpl; repeat split; auto. Qed.
Lemma acc_name1 n s st st' pend a : is_nfirst st = Some st' -> gname n ->
  acc (n ++ s) st pend a = acc s st' n a.
Proof.
  intros H [Hne Hn]. destruct n as [|c n]; [congruence|]. apply gname_is in Hn. simpl in Hn.
  apply andb_prop in Hn. destruct Hn as [Hc Hn]. destruct (nfirst_facts _ _ H) as (H1 & H2 & H3).
  simpl app. rewrite (acc_to c _ st pend a st'); [|apply step_nfirst; auto|apply nstate_live; auto].
  unfold npend, nattr. rewrite (step_nfirst st st') by auto. rewrite H2, H3.
  rewrite acc_names by auto. reflexivity.
Qed.

(** After a name: a separator. *)
Definition is_vstate st := match st with AClass | AIdentifier | AValue => True | _ => False end.
Lemma step_vws st c : is_vstate st -> is_ws c = true -> pstep st c = AWhitespace.
Proof. destruct st; simpl; intros []; all_bytes c. Qed.
Lemma step_vclose st : is_vstate st -> pstep st "}" = ADone.
Proof. destruct st; simpl; intros []; reflexivity. Qed.
Lemma acc_sep s st pend a : is_vstate st -> gsep s ->
  acc s st pend a = acc s AWhitespace [] (pl st pend a).
Proof.
  intros Hv Hs. destruct s as [|c s]; [contradiction|]. destruct Hs as [Hc| ->].
  - assert (E : pstep AWhitespace c = AWhitespace) by (revert Hc; all_bytes c).
    rewrite (acc_to c s st pend a AWhitespace); [|apply step_vws; auto|split; discriminate].
    rewrite (acc_to c s AWhitespace [] (pl st pend a) AWhitespace); [|auto|split; discriminate].
    unfold nattr. rewrite (step_vws st) by auto. rewrite E. rewrite skips_same.
    assert (skips st AWhitespace = false) as -> by (destruct st; simpl in Hv; try contradiction; reflexivity).
    apply acc_pend. reflexivity.
  - rewrite !acc_close; auto; try (apply step_vclose; auto).
    destruct st; simpl in Hv; try contradiction; reflexivity.
Qed.
(** A name character run followed by something that is no separator is rejected. *)
Lemma acc_nosep s st pend a out : is_vstate st -> hd_is is_name s = false ->
  acc s st pend a = Some out -> gsep s.
Proof.
  intros Hv Hh H. destruct s as [|c s]; [discriminate|]. simpl in Hh. simpl.
  destruct (is_ws c) eqn:E1; auto. destruct (beq c "}") eqn:E2; [beqs; auto|].
  rewrite acc_inv in H; [discriminate|].
  unfold pstep. destruct st; simpl in Hv; try contradiction; simpl; rewrite Hh, E1, E2; reflexivity.
Qed.

(** *** Values *)
Lemma extend_join v ls : fold_left extend ls v = join_sp (v :: ls).
Proof.
  assert (Hn : forall a b, extend [] a = a /\ (a <> [] -> b <> [] -> extend a b = a ++ SP :: b)
               /\ extend a [] = a).
  { intros a b. repeat split; auto.
    - destruct a; reflexivity.
    - destruct a, b; try congruence. intros _ _. unfold extend, extend_raw. rewrite <- app_assoc. reflexivity. }
  revert v; induction ls as [|l ls IH]; intros v.
  - simpl. destruct v; reflexivity.
  - simpl fold_left. rewrite IH.
    destruct (Hn v l) as (H1 & H2 & H3). destruct (Hn l []) as (H4 & _ & _).
    destruct v as [|c v].
    + rewrite H4. reflexivity.
    + destruct l as [|d l].
      * rewrite H3. reflexivity.
      * rewrite H2 by discriminate. cbn [join_sp].
        destruct (join_sp ls) eqn:E; simpl.
        { destruct (v ++ SP :: d :: l) eqn:Ev; [destruct v; discriminate|]. reflexivity. }
        { destruct (v ++ SP :: d :: l) eqn:Ev; [destruct v; discriminate|].
          rewrite <- Ev. rewrite <- app_assoc. reflexivity. }
Qed.

Lemma acc_qtext q : qtext q -> forall s pend a, pend <> [] ->
  acc (q ++ s) AValueQuoted pend a = acc s AValueQuoted (pend ++ q) a.
Proof.
  induction 1; intros t pend a Hp; simpl app.
  - rewrite app_nil_r; reflexivity.
  - assert (E : pstep AValueQuoted c = AValueQuoted).
    { unfold pstep; simpl. apply beq_neq in H, H0, H1. rewrite H, H0, H1. reflexivity. }
    rewrite (acc_to c _ _ _ _ AValueQuoted); [|auto|split; discriminate].
    unfold npend, nattr. rewrite E, skips_same, IHqtext by (destruct pend; discriminate).
    rewrite <- app_assoc. reflexivity.
  - rewrite (acc_to BSL _ _ _ _ AValueEscape); [|reflexivity|split; discriminate].
    assert (E : pstep AValueEscape c = AValueQuoted).
    { unfold pstep; simpl. apply beq_neq in H. rewrite H. reflexivity. }
    rewrite (acc_to c _ _ _ _ AValueQuoted); [|auto|split; discriminate].
    unfold npend, nattr. rewrite E. change (skips AValueEscape AValueQuoted) with true. cbv iota.
    assert (Es : skips AValueQuoted (pstep AValueQuoted BSL) = true) by reflexivity. rewrite Es.
    rewrite IHqtext by (destruct pend; discriminate).
    rewrite <- !app_assoc. reflexivity.
Qed.

(** Every text is a quoted line followed by a terminator (or nothing). *)
Inductive qterm : bytes -> Prop :=
| qz_end : qterm [] | qz_bsl : qterm [BSL] | qz_dq s : qterm (DQ :: s) | qz_nl s : qterm (NL :: s)
| qz_esc s : qterm (BSL :: NL :: s).
Lemma qtext_split r : exists q t, r = q ++ t /\ qtext q /\ qterm t.
Proof.
  remember (length r) as n eqn:Hn. assert (Hl : length r <= n) by lia. clear Hn.
  revert r Hl; induction n as [|n IH]; intros r Hl.
  - destruct r; [|simpl in Hl; lia]. exists [], []. repeat constructor.
  - destruct r as [|c r]; [exists [], []; repeat constructor|].
    destruct (ascii_dec c DQ) as [->|H1]; [exists [], (DQ :: r); repeat constructor|].
    destruct (ascii_dec c NL) as [->|H2]; [exists [], (NL :: r); repeat constructor|].
    destruct (ascii_dec c BSL) as [->|H3].
    + destruct r as [|d r]; [exists [], [BSL]; repeat constructor|].
      destruct (ascii_dec d NL) as [->|H4]; [exists [], (BSL :: NL :: r); repeat constructor|].
      destruct (IH r) as (q & t & -> & Hq & Ht); [simpl in Hl; lia|].
      exists (BSL :: d :: q), t. repeat split; auto. apply qt_esc; auto.
    + destruct (IH r) as (q & t & -> & Hq & Ht); [simpl in Hl; lia|].
      exists (c :: q), t. repeat split; auto. constructor; auto.
Qed.

(** Continuation lines. *)
Lemma acc_contline l : forall s pend a, qline l ->
  acc (l ++ s) AValueContinued pend a = acc s AValueContinued (pend ++ l) a.
Proof.
  induction l as [|c l IH]; intros s pend a [H1 H2]; simpl app; [rewrite app_nil_r; reflexivity|].
  assert (E : pstep AValueContinued c = AValueContinued).
  { unfold pstep; simpl. destruct (beq c DQ) eqn:E1; [beqs; subst; exfalso; apply H1; left; auto|].
    destruct (beq c NL) eqn:E2; [beqs; subst; exfalso; apply H2; left; auto|]. reflexivity. }
  rewrite (acc_to c _ _ _ _ AValueContinued); [|auto|split; discriminate].
  unfold npend, nattr. rewrite E, skips_same, IH.
  - rewrite <- app_assoc; reflexivity.
  - split; intros Hi; [apply H1|apply H2]; right; auto.
Qed.
Lemma acc_newline l : forall s t a k v, qline l -> (t = NL \/ t = DQ) ->
  acc (l ++ t :: s) AValueNewline [NL] (a ++ [(k, v)]) =
  acc s (if beq t NL then AValueNewline else AWhitespace) [t] (a ++ [(k, extend v l)]).
Proof.
  intros s t a k v Hl Ht. destruct l as [|c l].
  - simpl app. destruct Ht as [-> | ->].
    + rewrite (acc_to NL _ _ _ _ AValueNewline); [|reflexivity|split; discriminate].
      unfold nattr, npend; simpl. apply acc_pend. reflexivity.
    + rewrite (acc_to DQ _ _ _ _ AWhitespace); [|reflexivity|split; discriminate]. reflexivity.
  - destruct Hl as [H1 H2].
    assert (E : pstep AValueNewline c = AValueContinued).
    { unfold pstep; simpl. destruct (beq c DQ) eqn:E1; [beqs; subst; exfalso; apply H1; left; auto|].
      destruct (beq c NL) eqn:E2; [beqs; subst; exfalso; apply H2; left; auto|]. reflexivity. }
    simpl app. rewrite (acc_to c _ _ _ _ AValueContinued); [|auto|split; discriminate].
    rewrite nattr_pl, npend_1 by (rewrite E; reflexivity).
    rewrite acc_contline by (split; intros Hi; [apply H1|apply H2]; right; auto).
    change (pl AValueNewline [NL] (a ++ [(k, v)])) with (a ++ [(k, v)]).
    destruct Ht as [-> | ->].
    + rewrite (acc_to NL _ _ _ _ AValueNewline); [|reflexivity|split; discriminate].
      rewrite nattr_pl by reflexivity. simpl pl. rewrite updl_app. reflexivity.
    + rewrite (acc_to DQ _ _ _ _ AWhitespace); [|reflexivity|split; discriminate].
      rewrite nattr_pl by reflexivity. simpl pl. rewrite updl_app. reflexivity.
Qed.
Lemma acc_lines ls : forall s a k v, ls <> [] -> Forall qline ls ->
  acc (join_nl ls ++ DQ :: s) AValueNewline [NL] (a ++ [(k, v)]) =
  acc s AWhitespace [DQ] (a ++ [(k, fold_left extend ls v)]).
Proof.
  induction ls as [|l ls IH]; intros s a k v Hne Hq; [congruence|]. inv Hq.
  destruct ls as [|l' ls].
  - cbn [join_nl]. rewrite acc_newline by auto. reflexivity.
  - change (join_nl (l :: l' :: ls)) with (l ++ NL :: join_nl (l' :: ls)).
    rewrite <- app_assoc. simpl app. rewrite acc_newline by auto. simpl (beq NL NL). cbv iota.
    rewrite IH by (auto; discriminate). reflexivity.
Qed.

Lemma lines_split r : exists ls t, r = join_nl ls ++ t /\ ls <> [] /\ Forall qline ls
                                   /\ (t = [] \/ exists s, t = DQ :: s).
Proof.
  induction r as [|c r (ls & t & -> & Hne & Hq & Ht)].
  - exists [[]], []. repeat split; auto; try discriminate. repeat constructor; auto.
  - destruct (ascii_dec c DQ) as [->|H1].
    { exists [[]], (DQ :: join_nl ls ++ t). repeat split; eauto; try discriminate. repeat constructor; auto. }
    destruct (ascii_dec c NL) as [->|H2].
    { exists ([] :: ls), t. destruct ls as [|l ls]; [congruence|].
      repeat split; auto; try discriminate. constructor; auto. split; auto. }
    destruct ls as [|l ls]; [congruence|]. exists ((c :: l) :: ls), t. inv Hq. destruct H3 as [H5 H6].
    repeat split; auto; try discriminate.
    + destruct ls; reflexivity.
    + constructor; auto. split; intros [|]; auto.
Qed.

(** Without a terminator nothing is accepted. *)
Lemma acc_qtext_none q : qtext q -> forall t pend a, pend <> [] -> t = [] \/ t = [BSL] ->
  acc (q ++ t) AValueQuoted pend a = None.
Proof.
  intros Hq t pend a Hp Ht. rewrite acc_qtext by auto. destruct Ht as [-> | ->]; reflexivity.
Qed.
Lemma acc_nodq r : ~ In DQ r -> forall st pend a, st = AValueNewline \/ st = AValueContinued -> acc r st pend a = None.
Proof.
  induction r as [|c r IH]; intros Hr st pend a Hst; [reflexivity|].
  assert (E : pstep st c = AValueNewline \/ pstep st c = AValueContinued).
  { destruct (ascii_dec c DQ) as [->|Hd]; [exfalso; apply Hr; left; auto|]. apply beq_neq in Hd.
    unfold pstep. destruct Hst as [-> | ->]; simpl; rewrite Hd; destruct (beq c NL); auto. }
  destruct E as [E|E]; (erewrite acc_to; [|exact E|split; discriminate]; apply IH;
    [intros Hi; apply Hr; right; auto|rewrite <- ?E; auto]).
Qed.
Lemma join_nodq ls : Forall qline ls -> ~ In DQ (join_nl ls).
Proof.
  induction 1 as [|l ls [H1 H2] H IH]; simpl; auto. destruct ls; auto.
  rewrite in_app_iff. intros [Hi|[Hi|Hi]]; auto. discriminate.
Qed.

(** Quoted value, completeness. *)
Lemma acc_quoted q v : gquoted q v -> forall s a k,
  acc (q ++ DQ :: s) AValueQuoted [DQ] (a ++ [(k, [])]) = acc s AWhitespace [DQ] (a ++ [(k, v)]).
Proof.
  intros Hq s a k. destruct Hq as [q Hq|q ls Hq Hne Hl|q ls Hq Hne Hl].
  - rewrite acc_qtext by (auto; discriminate).
    rewrite (acc_to DQ _ _ _ _ AWhitespace); [|reflexivity|split; discriminate].
    change (nattr AValueQuoted DQ ([DQ] ++ q) (a ++ [(k, [])]))
      with (updl (a ++ [(k, [])]) (fun v => extend v q)).
    rewrite updl_app. destruct q; reflexivity.
  - rewrite <- app_assoc. rewrite acc_qtext by (auto; discriminate). simpl app.
    rewrite (acc_to NL _ _ _ _ AValueNewline); [|reflexivity|split; discriminate].
    change (nattr AValueQuoted NL (DQ :: q) (a ++ [(k, [])]))
      with (updl (a ++ [(k, [])]) (fun v => extend v q)).
    rewrite updl_app. change (npend AValueQuoted NL (DQ :: q)) with [NL].
    rewrite acc_lines by auto. rewrite extend_join. destruct q; reflexivity.
  - rewrite <- app_assoc. rewrite acc_qtext by (auto; discriminate). simpl app.
    rewrite (acc_to BSL _ _ _ _ AValueEscape); [|reflexivity|split; discriminate].
    rewrite (acc_to NL _ _ _ _ AValueNewline); [|reflexivity|split; discriminate].
    rewrite (acc_pend _ AValueNewline _ [NL]) by reflexivity.
    change (nattr AValueEscape NL _ (nattr AValueQuoted BSL _ ?x)) with x.
    rewrite acc_lines by auto. rewrite extend_join. reflexivity.
Qed.
(** Quoted value, soundness. *)
Lemma acc_quoted_inv r a k out : acc r AValueQuoted [DQ] (a ++ [(k, [])]) = Some out ->
  exists q v s, r = q ++ DQ :: s /\ gquoted q v /\ acc s AWhitespace [DQ] (a ++ [(k, v)]) = Some out.
Proof.
  intros H. destruct (qtext_split r) as (q & t & -> & Hq & Ht).
  inversion Ht; subst.
  - rewrite acc_qtext_none in H; auto; discriminate.
  - rewrite acc_qtext_none in H; auto; discriminate.
  - exists q, q, s. pose proof (gq_line q Hq) as G. rewrite (acc_quoted _ _ G) in H. auto.
  - destruct (lines_split s) as (ls & t & -> & Hne & Hl & [->|(s' & ->)]).
    + exfalso. rewrite acc_qtext in H by (auto; discriminate).
      rewrite (acc_to NL _ _ _ _ AValueNewline) in H; [|reflexivity|split; discriminate].
      rewrite acc_nodq in H; [discriminate| |auto]. rewrite app_nil_r. apply join_nodq; auto.
    + pose proof (gq_lines q ls Hq Hne Hl) as G.
      exists (q ++ NL :: join_nl ls), (join_sp (q :: ls)), s'.
      split; [rewrite <- app_assoc; reflexivity|]. split; auto.
      rewrite <- (acc_quoted _ _ G), <- app_assoc. exact H.
  - destruct (lines_split s) as (ls & t & -> & Hne & Hl & [->|(s' & ->)]).
    + exfalso. rewrite acc_qtext in H by (auto; discriminate).
      rewrite (acc_to BSL _ _ _ _ AValueEscape) in H; [|reflexivity|split; discriminate].
      rewrite (acc_to NL _ _ _ _ AValueNewline) in H; [|reflexivity|split; discriminate].
      rewrite acc_nodq in H; [discriminate| |auto]. rewrite app_nil_r. apply join_nodq; auto.
    + pose proof (gq_esc_lines q ls Hq Hne Hl) as G.
      exists (q ++ BSL :: NL :: join_nl ls), (join_sp ls), s'.
      split; [rewrite <- app_assoc; reflexivity|]. split; auto.
      rewrite <- (acc_quoted _ _ G), <- app_assoc. exact H.
Qed.

(** *** Comments *)
Lemma comment_step st c : c <> "%" -> c <> "}" ->
  match st with ACommentFirst | AComment | ACommentNewline => True | _ => False end ->
  pstep st c = if beq c NL then ACommentNewline else AComment.
Proof.
  intros H1 H2 H3. apply beq_neq in H1, H2. unfold pstep.
  destruct st; try contradiction; simpl; rewrite H1, H2; destruct (beq c NL); reflexivity.
Qed.
Lemma pl_comment a v t : pl AComment t (a ++ [(KComment, v)]) = a ++ [(KComment, v ++ t)].
Proof. unfold pl. rewrite updl_app. reflexivity. Qed.
Lemma pl_commentnl a v t : pl ACommentNewline t (a ++ [(KComment, v)]) = a ++ [(KComment, v ++ [NL])].
Proof. unfold pl. rewrite updl_app. reflexivity. Qed.

Definition term (x : ascii) (s : bytes) (a : attrs) : option attrs :=
  if beq x "%" then acc s AWhitespace ["%"] a else after s a.
Lemma term_end x s st t a :
  x = "%" \/ x = "}" ->
  match st with ACommentFirst | AComment | ACommentNewline => True | _ => False end ->
  acc (x :: s) st t a = term x s (pl st t a).
Proof.
  intros [-> | ->] H; unfold term; simpl (beq _ _); cbv iota.
  - destruct st; try contradiction;
      (rewrite (acc_to "%" _ _ _ _ AWhitespace); [|reflexivity|split; discriminate]; reflexivity).
  - apply acc_close; destruct st; try contradiction; reflexivity.
Qed.
Lemma collapse_nl c : collapse (NL :: c) = if starts_c c NL then collapse c else NL :: collapse c.
Proof. reflexivity. Qed.
Lemma collapse_other d c : beq d NL = false -> collapse (d :: c) = d :: collapse c.
Proof. intros H. simpl. rewrite H. reflexivity. Qed.
Lemma acc_comment c : gcomment c -> forall x s, x = "%" \/ x = "}" ->
  (forall t v a, acc (c ++ x :: s) AComment t (a ++ [(KComment, v)])
                 = term x s (a ++ [(KComment, v ++ t ++ collapse c)])) /\
  (forall t v a, acc (c ++ x :: s) ACommentNewline t (a ++ [(KComment, v)])
                 = term x s (a ++ [(KComment, v ++ collapse (NL :: c))])).
Proof.
  induction c as [|d c IH]; intros [Hc1 Hc2] x s Hx.
  - split; intros; cbn [app]; rewrite term_end by (auto; exact I).
    + rewrite pl_comment. simpl. rewrite app_nil_r. reflexivity.
    + rewrite pl_commentnl. reflexivity.
  - assert (Hc : gcomment c) by (split; intros Hi; [apply Hc1|apply Hc2]; right; auto).
    destruct (IH Hc x s Hx) as [IH1 IH2]. clear IH.
    assert (D1 : d <> "%") by (intros ->; apply Hc1; left; auto).
    assert (D2 : d <> "}") by (intros ->; apply Hc2; left; auto).
    split; intros t v a; cbn [app].
    + pose proof (comment_step AComment d D1 D2 I) as E. destruct (beq d NL) eqn:Ed.
      * beqs; subst d. rewrite (acc_to NL _ _ _ _ ACommentNewline); [|auto|split; discriminate].
        change (nattr AComment NL t ?z) with (pl AComment t z). rewrite pl_comment, IH2.
        rewrite <- app_assoc. reflexivity.
      * rewrite (acc_to d _ _ _ _ AComment); [|auto|split; discriminate].
        unfold nattr, npend. rewrite E, skips_same, IH1, collapse_other by auto.
        rewrite <- app_assoc. reflexivity.
    + pose proof (comment_step ACommentNewline d D1 D2 I) as E. destruct (beq d NL) eqn:Ed.
      * rewrite (acc_to d _ _ _ _ ACommentNewline); [|auto|split; discriminate].
        unfold nattr. rewrite E, skips_same, IH2. rewrite (collapse_nl (d :: c)).
        simpl starts_c. rewrite Ed. beqs. subst d. reflexivity.
      * rewrite (acc_to d _ _ _ _ AComment); [|auto|split; discriminate].
        unfold nattr, npend. rewrite E. change (skips ACommentNewline AComment) with false. cbv iota.
        rewrite pl_commentnl, IH1, collapse_nl. simpl starts_c. rewrite Ed, collapse_other by auto.
        rewrite <- !app_assoc. reflexivity.
Qed.
Lemma acc_comment_first c : gcomment c -> forall x s t a, x = "%" \/ x = "}" ->
  acc (c ++ x :: s) ACommentFirst t a = term x s (a ++ [(KComment, collapse c)]).
Proof.
  intros Hc x s t a Hx. destruct c as [|d c]; cbn [app].
  - rewrite term_end by (auto; exact I). reflexivity.
  - destruct Hc as [Hc1 Hc2].
    assert (Hc : gcomment c) by (split; intros Hi; [apply Hc1|apply Hc2]; right; auto).
    destruct (acc_comment c Hc x s Hx) as [IH1 IH2].
    assert (D1 : d <> "%") by (intros ->; apply Hc1; left; auto).
    assert (D2 : d <> "}") by (intros ->; apply Hc2; left; auto).
    pose proof (comment_step ACommentFirst d D1 D2 I) as E. destruct (beq d NL) eqn:Ed.
    + rewrite (acc_to d _ _ _ _ ACommentNewline); [|auto|split; discriminate].
      unfold nattr. rewrite E. change (skips ACommentFirst ACommentNewline) with false. cbv iota.
      change (pl ACommentFirst t a) with (a ++ [(KComment, [])]).
      rewrite IH2. beqs; subst d. reflexivity.
    + rewrite (acc_to d _ _ _ _ AComment); [|auto|split; discriminate].
      unfold nattr, npend. rewrite E. change (skips ACommentFirst AComment) with false. cbv iota.
      change (pl ACommentFirst t a) with (a ++ [(KComment, [])]).
      rewrite IH1, collapse_other by auto. reflexivity.
Qed.
Lemma comment_split r : exists c t, r = c ++ t /\ gcomment c /\
  (t = [] \/ exists x s, t = x :: s /\ (x = "%" \/ x = "}")).
Proof.
  induction r as [|d r (c & t & -> & [H1 H2] & Ht)].
  - exists [], []. repeat split; auto.
  - destruct (ascii_dec d "%") as [->|D1]; [exists [], ("%" :: c ++ t); repeat split; eauto 6|].
    destruct (ascii_dec d "}") as [->|D2]; [exists [], ("}" :: c ++ t); repeat split; eauto 6|].
    exists (d :: c), t. repeat split; auto; intros [|]; auto.
Qed.
Lemma acc_comment_none c : gcomment c -> forall st t a,
  match st with ACommentFirst | AComment | ACommentNewline => True | _ => False end ->
  acc c st t a = None.
Proof.
  induction c as [|d c IH]; intros [Hc1 Hc2] st t a Hst; [reflexivity|].
  assert (Hc : gcomment c) by (split; intros Hi; [apply Hc1|apply Hc2]; right; auto).
  assert (D1 : d <> "%") by (intros ->; apply Hc1; left; auto).
  assert (D2 : d <> "}") by (intros ->; apply Hc2; left; auto).
  pose proof (comment_step st d D1 D2 Hst) as E.
  destruct (beq d NL); (erewrite acc_to; [|exact E|split; discriminate]; apply IH; auto).
Qed.
