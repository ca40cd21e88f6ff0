(** * PropsMark: how blocks are marked in the source (C40, C29, C28, C35) *)
From Verif Require Import Base Lex Attr Block Inline Doc Lib SpecAttr SpecBlock SpecDoc SpecSrc SpecMark PAttr PSafe PBlock2 PGram PDoc2 PDoc4 PDoc5 PDoc6 PropsDoc.
From Verif Require PInl1.
Local Open Scope nat_scope.

(** ** Matching starts and ends *)
(** An open container: its attributes, the range of its start event and the events after that. *)
Definition opened : Type := container * attrs * span * list (event * span).
Definition oc (x : opened) : container := fst (fst (fst x)).
Definition conts (st : list opened) : list container := map oc st.
Section Match.
Variables (src : bytes) (pp : prepass).
Inductive mk : list opened -> list (event * span) -> Prop :=
| mk_nil : mk [] []
| mk_other st e sp r : edge e = false -> mk st r -> mk st ((e, sp) :: r)
| mk_start st c a sp r : (forall k t st', conts st = ListC k t :: st' -> item_mark k c (slice src sp)) ->
    mk ((c, a, sp, r) :: st) r -> mk st ((Start c a, sp) :: r)
| mk_end st c a sp r0 sp' r : (forall M, r0 = M ++ (End_ c, sp') :: r -> inline_box c = false -> marked src c a sp M sp') ->
    mk st r -> mk ((c, a, sp, r0) :: st) ((End_ c, sp') :: r).
Lemma mk_split A : forall st R, mk st (A ++ R) -> exists st', mk st' R /\ nest (conts st) (map fst A) = Some (conts st').
Proof.
  induction A as [|[e sp] A IH]; intros st R H; [exists st; auto|]. cbn [app] in H. inversion H; subst.
  - match goal with X : mk _ (A ++ R) |- _ => destruct (IH _ _ X) as (st' & H1 & H2) end. exists st'. split; [auto|]. cbn [map fst nest]. destruct e; try discriminate; exact H2.
  - match goal with X : mk _ (A ++ R) |- _ => destruct (IH _ _ X) as (st' & H1 & H2) end. exists st'. split; [auto|]. exact H2.
  - match goal with X : mk _ (A ++ R) |- _ => destruct (IH _ _ X) as (st' & H1 & H2) end. exists st'. split; [auto|]. cbn [map fst nest conts]. unfold oc at 1. cbn [fst]. destruct (container_eq_dec c c); [exact H2|congruence].
Qed.
Lemma mk_nest M : forall st0 S R, mk (st0 ++ S) (M ++ R) -> nest (conts st0) (map fst M) = Some [] -> mk S R.
Proof.
  induction M as [|[e sp] M IH]; intros st0 S R H Hn.
  - cbn in Hn. destruct st0; [exact H|discriminate].
  - cbn [app] in H. remember (st0 ++ S) as K eqn:EK. inversion H; subst.
    + apply (IH st0); auto. destruct e; try discriminate; exact Hn.
    + eapply (IH ((c, a, sp, _) :: st0)); [eassumption|]. exact Hn.
    + destruct st0 as [|x st0]; [discriminate|]. match goal with X : _ :: _ = _ |- _ => cbn [app] in X; injection X as <- -> end.
      cbn [map fst nest conts] in Hn. unfold oc at 1 in Hn. cbn [fst] in Hn. destruct (container_eq_dec c c); [|congruence]. apply (IH st0); auto.
Qed.
Lemma psteps_mk s O s' : psteps src s O s' -> inlines (snd s) -> forall R base, (forall k t q, conts base <> ListC k t :: q) -> (forall stk, conts stk = snd s' -> mk (stk ++ base) R) ->
  forall stk, conts stk = snd s -> mk (stk ++ base) (O ++ R).
Proof.
  induction 1 as [s|s e s1 E s2 H1 H2 IH]; intros Hi R base Hb HR stk Hs; [apply HR; auto|]. specialize (IH (pstep_inlines _ _ _ _ H1 Hi) R base Hb HR). cbn [app].
  assert (HB : forall c, inline_cont c = true -> inline_box c = false -> False) by (intros c; rewrite box_eq; congruence).
  inversion H1; subst; cbn [snd] in *.
  - apply mk_other; auto.
  - apply mk_other; auto. destruct e0; try discriminate; reflexivity.
  - apply mk_other; auto.
  - apply mk_start.
    { intros k t q E0. exfalso. destruct stk as [|x stk]; [exact (Hb _ _ _ E0)|]. cbn in E0, Hs. injection E0 as E0 _. rewrite E0 in Hs. rewrite <- Hs in Hi. inversion Hi; discriminate. }
    apply (IH ((c, a, sp, E ++ R) :: stk)). cbn. f_equal. exact Hs.
  - destruct stk as [|[[[c0 a0] sp0] r0] stk]; [discriminate|]. cbn in Hs. injection Hs as -> Hs. cbn [app]. apply mk_end; [intros; exfalso; eauto|]. auto.
Qed.
Lemma body_mk c lo O hi base R : body src pp c lo O hi -> (forall k t q, conts base <> ListC k t :: q) -> mk base R -> mk base (O ++ R).
Proof. intros [(m & _ & H) _] Hb HR. apply qsteps_psteps in H. cbn [fst snd map] in H. refine (psteps_mk _ _ _ H (Forall_nil _) R base Hb _ [] eq_refl). intros [|] E; [exact HR|discriminate]. Qed.
Lemma end_mk c a sp M sp' R st : marked src c a sp M sp' -> mk st R -> mk ((c, a, sp, M ++ (End_ c, sp') :: R) :: st) ((End_ c, sp') :: R).
Proof. intros H HR. apply mk_end; [|exact HR]. intros M0 E _. apply app_inv_tail in E. subst M0. exact H. Qed.
Lemma begun_none sp : ss sp <= se sp -> begun src [] sp (ss sp).
Proof. intros H. repeat split; auto. constructor. lia. Qed.
Lemma gq_mk g lo O y hi : gq src pp g lo O y hi -> forall st R, fits g (conts st) -> mk st R -> mk st (O ++ R).
Proof.
  assert (Hb : forall l st R, mk st R -> mk st (blanks l ++ R)) by (induction l; intros; cbn; [auto|apply mk_other; auto]).
  induction 1; intros st R Hf HR; cbn [app]; try (apply mk_other; [reflexivity|auto]; fail); [exact HR|..].
  - apply mk_start.
    { intros k t st' E. rewrite E in Hf. exfalso. destruct H; try (destruct H as [-> |[? ->]]); cbn in Hf; auto; contradiction. }
    rewrite <- app_assoc. cbn [app]. eapply body_mk; [eassumption|try discriminate; destruct H; discriminate|]. apply end_mk; [assumption|]. apply IHgq; [eapply gleaf_fits; eauto|auto].
  - apply IHgq; [exact Hf|exact HR].
  - apply mk_start.
    { intros k t st' E. rewrite E in Hf. contradiction. }
    rewrite <- app_assoc. cbn [app]. eapply body_mk; [eassumption|try discriminate; destruct H; discriminate|]. apply end_mk; [|apply IHgq; auto].
    exists (ss sp). split; [apply begun_none; apply H0|split; [exact I|split; exact I] ].
  - destruct (gcont_fits _ _ _ _ _ _ H Hf) as [F1 F2]. apply mk_start.
    { intros k t st' E. rewrite E in Hf. apply class_item. apply H9. destruct g; cbn in Hf; try contradiction. congruence. }
    rewrite <- app_assoc. cbn [app]. apply IHgq1; [exact F1|]. apply end_mk; [assumption|]. apply IHgq2; auto.
  - repeat (rewrite <- app_assoc; cbn [app]). apply mk_start.
    { intros k t st' E. rewrite E in Hf. contradiction. }
    eapply body_mk; [eassumption|try discriminate; destruct H; discriminate|]. apply end_mk; [exists (ss sp); split; [apply begun_none; apply H0|rewrite PInl1.span_eta; match goal with X : _ = B ":" /\ _ |- _ => destruct X as [X1 X2] end; split; [exact X1|split; [exact I|exact X2] ] ]|].
    apply Hb. apply mk_start.
    { intros k t st' E. rewrite E in Hf. contradiction. }
    apply IHgq1; [exact I|]. apply end_mk; [|apply IHgq2; auto]. exists (ss sp2). split; [apply begun_none; apply H5|match goal with X : empty sp3 /\ _ |- _ => destruct X as [X1 X2] end; split; [exact X1|split; [exact X2|exact I] ] ].
Qed.
End Match.
Lemma doc_mk src evs : utf8 src -> parse_spans src = Ok evs -> mk src [] evs.
Proof. intros Hu E. rewrite <- (app_nil_r evs). eapply gq_mk; [apply spans_ok; eauto|exact I|constructor]. Qed.

(** ** C40: the range of a block's start event holds its attributes and its marker, that of its end event is empty or
    a closing fence *)
Theorem C40_marked : forall src evs A c a sp M sp' Z, utf8 src -> parse_spans src = Ok evs ->
  evs = A ++ (Start c a, sp) :: M ++ (End_ c, sp') :: Z -> nest [] (map fst M) = Some [] -> inline_box c = false ->
  marked src c a sp M sp'.
Proof.
  intros src evs A c a sp M sp' Z Hu E -> Hn Hc. pose proof (doc_mk _ _ Hu E) as H. apply mk_split in H. destruct H as (st & H & _).
  inversion H as [| |? ? ? ? ? _ H1|]; subst; [discriminate|]. apply (mk_nest _ M [] ((c, a, sp, M ++ (End_ c, sp') :: Z) :: st)) in H1; [|exact Hn].
  inversion H1; subst; [discriminate|]. auto.
Qed.
(** The items of a list have its marker. *)
Theorem C40_items : forall src evs A c a sp Z k t st, utf8 src -> parse_spans src = Ok evs -> evs = A ++ (Start c a, sp) :: Z ->
  nest [] (map fst A) = Some (ListC k t :: st) -> item_mark k c (slice src sp).
Proof.
  intros src evs A c a sp Z k t st Hu E -> Hn. pose proof (doc_mk _ _ Hu E) as H. apply mk_split in H. destruct H as (st' & H & E').
  cbn [conts map] in E'. rewrite Hn in E'. injection E' as E'. inversion H as [| |? ? ? ? ? H1 _|]; subst; [discriminate|]. eapply H1. symmetry. exact E'.
Qed.

(** Blank lines and thematic breaks. *)
Lemma gq_atoms src pp g lo O y hi : gq src pp g lo O y hi -> Forall (fun x => match fst x with
    | Blankline => blanks_only (slice src (snd x)) /\ line_end src (se (snd x))
    | ThematicBreak a => exists m, begun src a (snd x) m /\ break_text (slice src (Sp m (se (snd x)))) /\ line_over src (se (snd x))
    | _ => True
    end) O.
Proof.
  assert (Hb : forall c lo O hi, body src pp c lo O hi -> Forall (fun x => match fst x with
    | Blankline => blanks_only (slice src (snd x)) /\ line_end src (se (snd x))
    | ThematicBreak a => exists m, begun src a (snd x) m /\ break_text (slice src (Sp m (se (snd x)))) /\ line_over src (se (snd x))
    | _ => True
    end) O).
  { intros c lo0 O0 hi0 [(m & _ & H) _]. apply qsteps_psteps in H. induction H as [|s e s1 E s2 H1 H2 IH]; constructor; auto.
    inversion H1; subst; cbn [fst]; auto. destruct e0; try discriminate; exact I. }
  induction 1; auto; repeat (first [apply Forall_app; split | apply Forall_cons]); cbn [fst snd]; eauto.
  unfold blanks. apply Forall_map. eapply Forall_impl; [|eassumption]. auto.
Qed.
Theorem C40_blank : forall src evs sp, utf8 src -> parse_spans src = Ok evs -> List.In (Blankline, sp) evs -> blanks_only (slice src sp) /\ line_end src (se sp).
Proof. intros src evs sp Hu E Hin. pose proof (gq_atoms _ _ _ _ _ _ _ (spans_ok _ _ Hu E)) as H. rewrite Forall_forall in H. exact (H _ Hin). Qed.
Theorem C40_break : forall src evs a sp, utf8 src -> parse_spans src = Ok evs -> List.In (ThematicBreak a, sp) evs ->
  exists m, begun src a sp m /\ break_text (slice src (Sp m (se sp))) /\ line_over src (se sp).
Proof. intros src evs a sp Hu E Hin. pose proof (gq_atoms _ _ _ _ _ _ _ (spans_ok _ _ Hu E)) as H. rewrite Forall_forall in H. exact (H _ Hin). Qed.

(** ** C29: a code block is closed by the first closing fence *)
Theorem C29_fenced : forall src evs A c a sp M sp' Z w, utf8 src -> parse_spans src = Ok evs ->
  evs = A ++ (Start c a, sp) :: M ++ (End_ c, sp') :: Z -> nest [] (map fst M) = Some [] ->
  c = CodeBlock w \/ (exists f, c = RawBlock f /\ w = "="%char :: f) ->
  exists m, ss sp <= m /\ m <= se sp /\ fenced src w (slice src (Sp m (se sp))) M sp'.
Proof.
  intros src evs A c a sp M sp' Z w Hu E He Hn Hc.
  destruct (C40_marked _ _ _ _ _ _ _ _ _ Hu E He Hn) as (m & (H1 & H2 & _) & H & _); [destruct Hc as [-> |(f & -> & _)]; reflexivity|].
  exists m. split; [auto|]. split; [auto|]. destruct Hc as [-> |(f & -> & ->)]; [apply H|exact H].
Qed.

(** ** C28: a list begins with a marker of its kind *)
Lemma mk_close src R : forall st0 x st, mk src (st0 ++ x :: st) R -> exists M sp' Z, R = M ++ (End_ (oc x), sp') :: Z /\ nest (conts st0) (map fst M) = Some [].
Proof.
  induction R as [|[e sp] R IH]; intros st0 x st H.
  - inversion H. destruct st0; discriminate.
  - remember (st0 ++ x :: st) as K eqn:EK. inversion H; subst.
    + match goal with X : mk _ (_ ++ _) R |- _ => destruct (IH _ _ _ X) as (M & sp' & Z & -> & Hn) end. exists ((e, sp) :: M), sp', Z. split; [reflexivity|]. destruct e; try discriminate; exact Hn.
    + match goal with X : mk _ (_ :: _ ++ _) R |- _ => destruct (IH ((c, a, sp, R) :: st0) _ _ X) as (M & sp' & Z & E & Hn) end. exists ((Start c a, sp) :: M), sp', Z. split; [rewrite E; reflexivity|exact Hn].
    + destruct st0 as [|y st0]; match goal with X : _ :: _ = _ |- _ => cbn [app] in X; injection X as <- -> end.
      * exists [], sp, R. split; reflexivity.
      * match goal with X : mk _ (_ ++ _) R |- _ => destruct (IH _ _ _ X) as (M & sp' & Z & -> & Hn) end. exists ((End_ c, sp) :: M), sp', Z. split; [reflexivity|].
        cbn [map fst nest conts]. unfold oc at 1. cbn [fst]. destruct (container_eq_dec c c); [exact Hn|congruence].
Qed.
(** Every start event has its end event. *)
Lemma closed src evs c a sp : utf8 src -> parse_spans src = Ok evs -> List.In (Start c a, sp) evs ->
  exists A M sp' Z, evs = A ++ (Start c a, sp) :: M ++ (End_ c, sp') :: Z /\ nest [] (map fst M) = Some [].
Proof.
  intros Hu E Hin. apply in_split in Hin. destruct Hin as (A & R & ->). pose proof (doc_mk _ _ Hu E) as H. apply mk_split in H. destruct H as (st & H & _).
  inversion H as [| |? ? ? ? ? _ H1|]; subst; [discriminate|]. destruct (mk_close _ _ [] _ _ H1) as (M & sp' & Z & -> & Hn). exists A, M, sp', Z. auto.
Qed.
Theorem C28_start : forall src evs k t a sp, utf8 src -> parse_spans src = Ok evs -> List.In (Start (ListC k t) a, sp) evs ->
  item_at src (se sp) (kind_type k).
Proof.
  intros src evs k t a sp Hu E Hin. destruct (closed _ _ _ _ _ Hu E Hin) as (A & M & sp' & Z & He & Hn).
  destruct (C40_marked _ _ _ _ _ _ _ _ _ Hu E He Hn eq_refl) as (m & _ & (_ & H2 & _) & _). exact H2.
Qed.

(** ** C43: a list reported as loose contains a blank line *)
Theorem C43_loose : forall src evs A k a sp M sp' Z, utf8 src -> parse_spans src = Ok evs ->
  evs = A ++ (Start (ListC k false) a, sp) :: M ++ (End_ (ListC k false), sp') :: Z -> nest [] (map fst M) = Some [] ->
  exists b, List.In (Blankline, b) M /\ blanks_only (slice src b) /\ line_end src (se b).
Proof.
  intros src evs A k a sp M sp' Z Hu E He Hn.
  destruct (C40_marked _ _ _ _ _ _ _ _ _ Hu E He Hn eq_refl) as (m & _ & (_ & _ & _ & H) & _). destruct (H eq_refl) as (b & Hb).
  exists b. split; [exact Hb|].
  assert (Hin : List.In (Blankline, b) evs) by (rewrite He; apply in_or_app; right; right; apply in_or_app; left; exact Hb).
  exact (C40_blank _ _ _ Hu E Hin).
Qed.
(** Read the other way: a list in which nothing is a blank line is reported as tight. *)
Theorem C43_tight : forall src evs A k t a sp M sp' Z, utf8 src -> parse_spans src = Ok evs ->
  evs = A ++ (Start (ListC k t) a, sp) :: M ++ (End_ (ListC k t), sp') :: Z -> nest [] (map fst M) = Some [] ->
  ~ List.In Blankline (map fst M) -> t = true.
Proof.
  intros src evs A k t a sp M sp' Z Hu E He Hn Hb. destruct t; [reflexivity|exfalso].
  destruct (C43_loose _ _ _ _ _ _ _ _ _ Hu E He Hn) as (b & H & _). apply Hb. exact (in_map fst _ _ H).
Qed.

(** ** C35: the attributes of a block are written in the range of its start event *)
Theorem C35_block : forall src evs c a sp, utf8 src -> parse_spans src = Ok evs -> List.In (Start c a, sp) evs -> inline_box c = false ->
  within src (ss sp) (se sp) a.
Proof.
  intros src evs c a sp Hu E Hin Hc. destruct (closed _ _ _ _ _ Hu E Hin) as (A & M & sp' & Z & He & Hn).
  destruct (C40_marked _ _ _ _ _ _ _ _ _ Hu E He Hn Hc) as (m & (H1 & H2 & H3 & _) & _). eapply within_hi; eauto.
Qed.

(** Both hypotheses are met: in [mark_doc] a code block in a quote has attributes, holds the text of a shorter fence
    and is closed; an ordered list in a div has two items. *)
Definition mark_doc : bytes := nls [ B "> {.q}"; B "> ```` rs"; B "> ```"; B "> x"; B "> ````"; []; B "::: c"; B "iv) a"; B "v) b"; B ":::"; B "***" ].
Definition mark_evs : list (event * span) := match parse_spans mark_doc with Ok l => l | _ => [] end.
Lemma mark_utf8 : utf8 mark_doc.
Proof. unfold mark_doc, nls. cbn. repeat first [apply u_nil | apply u_1; [vm_compute; split; discriminate|] ]. Qed.
Lemma mark_parse : parse_spans mark_doc = Ok mark_evs.
Proof. unfold mark_evs. destruct (parse_spans mark_doc) eqn:E; [reflexivity|exfalso; revert E; vm_compute; discriminate..]. Qed.
Example C40_ex : exists A M Z sp sp', mark_evs = A ++ (Start (CodeBlock (B "rs")) [(KClass, B "q")], sp) :: M ++ (End_ (CodeBlock (B "rs")), sp') :: Z /\
  nest [] (map fst M) = Some [] /\ length M = 2 /\ slice mark_doc sp = B "{.q}" ++ [NL] ++ B "> ```` rs" ++ [NL] /\ slice mark_doc sp' = B "````" ++ [NL].
Proof.
  exists (firstn 2 mark_evs), (firstn 2 (skipn 3 mark_evs)), (skipn 6 mark_evs), (snd (nth 2 mark_evs (Blankline, Sp 0 0))), (snd (nth 5 mark_evs (Blankline, Sp 0 0))).
  split; [vm_compute; reflexivity|]. split; [vm_compute; reflexivity|]. split; [vm_compute; reflexivity|]. split; vm_compute; reflexivity.
Qed.
Example C40_items_ex : exists A Z sp k t st, mark_evs = A ++ (Start ListItem [], sp) :: Z /\ nest [] (map fst A) = Some (ListC k t :: st) /\
  k = LkOrdered RomanLower OParen 4 /\ slice mark_doc sp = B "v)".
Proof.
  exists (firstn 15 mark_evs), (skipn 16 mark_evs), (snd (nth 15 mark_evs (Blankline, Sp 0 0))). do 3 eexists.
  split; [vm_compute; reflexivity|]. split; [vm_compute; reflexivity|]. split; vm_compute; reflexivity.
Qed.

(** Both theorems of C43 apply: [loose_doc] holds a loose list, whose items a blank line separates, and a tight one. *)
Definition loose_doc : bytes := nls [ B "- a"; []; B "- b"; []; B "1. c"; B "2. d" ].
Definition loose_evs : list (event * span) := match parse_spans loose_doc with Ok l => l | _ => [] end.
Lemma loose_utf8 : utf8 loose_doc.
Proof. unfold loose_doc, nls. cbn. repeat first [apply u_nil | apply u_1; [vm_compute; split; discriminate|] ]. Qed.
Lemma loose_parse : parse_spans loose_doc = Ok loose_evs.
Proof. unfold loose_evs. destruct (parse_spans loose_doc) eqn:E; [reflexivity|exfalso; revert E; vm_compute; discriminate..]. Qed.
Example C43_ex : exists A M Z sp sp', loose_evs = A ++ (Start (ListC (LkUnordered BuDash) false) [], sp) :: M ++ (End_ (ListC (LkUnordered BuDash) false), sp') :: Z /\
  nest [] (map fst M) = Some [] /\ List.In Blankline (map fst M).
Proof.
  exists (firstn 1 loose_evs), (firstn 12 (skipn 2 loose_evs)), (skipn 15 loose_evs), (snd (nth 1 loose_evs (Blankline, Sp 0 0))), (snd (nth 14 loose_evs (Blankline, Sp 0 0))).
  split; [vm_compute; reflexivity|]. split; [vm_compute; reflexivity|]. vm_compute; auto 20.
Qed.
Example C43_tight_ex : exists A M Z sp sp', loose_evs = A ++ (Start (ListC (LkOrdered Decimal OPeriod 1) true) [], sp) :: M ++ (End_ (ListC (LkOrdered Decimal OPeriod 1) true), sp') :: Z /\
  nest [] (map fst M) = Some [] /\ ~ List.In Blankline (map fst M) /\ length M = 10.
Proof.
  exists (firstn 15 loose_evs), (firstn 10 (skipn 16 loose_evs)), (skipn 27 loose_evs), (snd (nth 15 loose_evs (Blankline, Sp 0 0))), (snd (nth 26 loose_evs (Blankline, Sp 0 0))).
  split; [vm_compute; reflexivity|]. split; [vm_compute; reflexivity|]. split; [|vm_compute; reflexivity].
  vm_compute. intros H. repeat (destruct H as [H|H]; [discriminate H|]). exact H.
Qed.

(** *** What one would expect, and does not hold *)
(** A blank line inside a list item does not make the list loose: the list of [- a] and, after a blank line, an
    indented [b] is reported as tight. *)
Theorem C43_converse_refuted : ~ (forall src evs A k t a sp M sp' Z, utf8 src -> parse_spans src = Ok evs ->
  evs = A ++ (Start (ListC k t) a, sp) :: M ++ (End_ (ListC k t), sp') :: Z -> nest [] (map fst M) = Some [] ->
  forall M1 M2, map fst M = Start ListItem [] :: Start Paragraph [] :: Str (B "a") :: End_ Paragraph :: Blankline :: Start Paragraph [] :: M1 ++ End_ ListItem :: M2 -> t = false).
Proof.
  intros H. set (src := nls [B "- a"; []; B "  b"]). assert (Hu : utf8 src) by (unfold src, nls; cbn; repeat first [apply u_nil | apply u_1; [vm_compute; split; discriminate|] ]).
  destruct (parse_spans src) as [evs| |] eqn:E; [|exfalso; revert E; vm_compute; discriminate..].
  specialize (H src evs (firstn 1 evs) (LkUnordered BuDash) true [] (snd (nth 1 evs (Blankline, Sp 0 0))) (firstn 9 (skipn 2 evs)) (snd (nth 11 evs (Blankline, Sp 0 0))) (skipn 12 evs) Hu E).
  assert (X : true = false); [|discriminate X].
  apply H with (M1 := [Str (B "b"); End_ Paragraph]) (M2 := []); revert E; clear H; vm_compute; intros E; injection E as <-; reflexivity.
Qed.
(** The first marker of an ordered list need not denote the list's first number: [iiiii.] (five) before [w.] makes a
    list that starts with the letter v. *)
Theorem C28_number_refuted : ~ (forall src evs nb st v t a sp, utf8 src -> parse_spans src = Ok evs -> List.In (Start (ListC (LkOrdered nb st v) t) a, sp) evs ->
  exists ds r, skipn (se sp) src = marker_text st ds ++ r /\ number_denotes nb ds v).
Proof.
  intros H. set (src := nls [B "iiiii. a"; B "w. b"]). assert (Hu : utf8 src) by (unfold src, nls; cbn; repeat first [apply u_nil | apply u_1; [vm_compute; split; discriminate|] ]).
  destruct (parse_spans src) as [evs| |] eqn:E; [|exfalso; revert E; vm_compute; discriminate..].
  specialize (H src evs AlphaLower OPeriod 22%N true [] (Sp 0 0) Hu E). assert (Hin : List.In (Start (ListC (LkOrdered AlphaLower OPeriod 22) true) [], Sp 0 0) evs).
  { clear H. revert E. vm_compute. intros E. injection E as <-. repeat (first [left; reflexivity | right]). }
  destruct (H Hin) as (ds & r & E1 & (c & -> & _)). discriminate E1.
Qed.

Definition PropsMark_all := (@C40_marked, @C40_items, @C40_blank, @C40_break, @C29_fenced, @C28_start, @C35_block, @C40_ex, @C40_items_ex, @C43_loose, @C43_tight, @C43_ex, @C43_tight_ex, @C43_converse_refuted, @C28_number_refuted).
Print Assumptions PropsMark_all.
