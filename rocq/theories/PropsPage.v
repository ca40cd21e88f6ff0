(** * PropsPage: from the source to HTML (C23) *)
From Verif Require Import Base Lex Attr Block Inline Doc Html Lib SpecAttr SpecBlock SpecDoc SpecHtml SpecSrc SpecMark SpecWf PAttr PSafe PBlock2 PDoc2 PDoc4 PDoc6 PropsDoc PropsSrc PropsMark PropsWf.
Local Open Scope nat_scope.

Lemma keys_app a b : keys_ok a -> keys_ok b -> keys_ok (a ++ b).
Proof. intros H1 H2 k v Hin. apply in_app_or in Hin. destruct Hin; eauto. Qed.
Lemma gitems_keys s a : gitems s a -> keys_ok a.
Proof. induction 1; intros k0 v0 Hin; cbn in Hin; try tauto; try (eapply IHgitems; eassumption); destruct Hin as [E|Hin]; try discriminate; try contradiction; try (eapply IHgitems; eassumption); injection E as <- _; auto. Qed.
Lemma gsets_keys s a : gsets s a -> keys_ok a.
Proof. induction 1 as [s a H|s a s' a' H _ IH]; [eapply gitems_keys; eauto|]. apply keys_app; [eapply gitems_keys; eauto|exact IH]. Qed.
Lemma written_keys src a : written src a -> keys_ok a.
Proof. induction 1 as [|sp a b (_ & _ & t & H & _) _ IH]; [intros k v []|]. apply keys_app; [eapply gsets_keys; eauto|exact IH]. Qed.
Lemma is_name_char c : is_name c = true -> name_char c.
Proof. unfold is_name, name_char. rewrite !orb_true_iff, !beq_eq. tauto. Qed.
Lemma slice_in src sp x : (exists a b, slice src sp = a ++ x ++ b) -> exists a b, src = a ++ x ++ b.
Proof.
  intros (a & b & E). unfold slice in E. exists (firstn (ss sp) src ++ a), (b ++ skipn (se sp - ss sp) (skipn (ss sp) src)).
  rewrite <- (firstn_skipn (ss sp) src) at 1. rewrite <- (firstn_skipn (se sp - ss sp) (skipn (ss sp) src)) at 1. rewrite E, <- !app_assoc. reflexivity.
Qed.

(** The names in the events of a document are made of name characters. *)
Theorem C23_names : forall src evs, utf8 src -> parse_spans src = Ok evs ->
  (forall c a sp, List.In (Start c a, sp) evs -> c <> RawBlock (B "html") /\ c <> RawInline (B "html")) -> Forall event_names (map fst evs).
Proof.
  intros src evs Hu E Hr. apply Forall_map. apply Forall_forall. intros [e sp] Hin. cbn [fst].
  pose proof (C35_written _ _ _ _ Hu E Hin) as Hw. pose proof (C39_spelled _ _ _ _ Hu E Hin) as Hs.
  destruct e; cbn [event_names]; try exact I.
  - split; [eapply written_keys; exact Hw|]. destruct c; try exact I.
    + destruct (closed _ _ _ _ _ Hu E Hin) as (A & M & sp' & Z & He & Hn).
      destruct (C40_marked _ _ _ _ _ _ _ _ _ Hu E He Hn eq_refl) as (m & _ & (n & _ & _ & H & _) & _). eapply Forall_impl; [|exact H]. apply is_name_char.
    + intros ->. destruct (Hr _ _ _ Hin) as [H H0]. congruence.
    + intros ->. destruct (Hr _ _ _ Hin) as [H H0]. congruence.
  - destruct Hs as [_ Hs]. eapply Forall_impl; [|exact Hs]. intros c H. unfold symbol_char, name_char in *. tauto.
  - eapply written_keys; exact Hw.
Qed.
(** ** C23 for documents: without raw HTML, the page is well-formed *)
Theorem C23_document : forall src evs out, utf8 src -> parse src = Ok evs -> html_of src = Ok out ->
  (forall c a, List.In (Start c a) evs -> c <> RawBlock (B "html") /\ c <> RawInline (B "html")) -> well_formed out.
Proof.
  intros src evs out Hu E H Hr. unfold html_of in H. rewrite E in H. cbn [bind] in H. unfold render_to_string in H.
  destruct (render_events r_default evs) as [[s o]| |] eqn:ER; try discriminate H. cbn [bind] in H. injection H as <-.
  eapply (C23_well_formed (Some ([], 0)) evs s o); [eapply C04_renderable; eauto|eapply C10_containment; eauto| |constructor|exact ER].
  unfold parse in E. apply bind_ok in E. destruct E as (O & E & E2). injection E2 as <-. eapply C23_names; eauto.
  intros c a sp Hin. apply (Hr c a). apply in_map_iff. exists (Start c a, sp). auto.
Qed.
(** In terms of the source alone: raw HTML needs the text [=html]. *)
Theorem C23_no_raw : forall src out, utf8 src -> (forall a b, src <> a ++ B "=html" ++ b) -> html_of src = Ok out -> well_formed out.
Proof.
  intros src out Hu Hn H. pose proof H as H'. unfold html_of in H'. apply bind_ok in H'. destruct H' as (evs & E & _).
  eapply C23_document; eauto. intros c a Hin. unfold parse in E. apply bind_ok in E. destruct E as (O & E & E2). injection E2 as <-.
  apply in_map_iff in Hin. destruct Hin as ([e sp] & E3 & Hin). cbn in E3. subst e.
  assert (Hs : ~ exists sp, exists a b, slice src sp = a ++ B "=html" ++ b) by (intros (s0 & K); apply slice_in in K; destruct K as (x & y & K); exact (Hn _ _ K)).
  destruct (closed _ _ _ _ _ Hu E Hin) as (A & M & sp' & Z & He & Hm).
  split; intros ->; apply Hs.
  - destruct (C40_marked _ _ _ _ _ _ _ _ _ Hu E He Hm eq_refl) as (m & _ & (ch & n & _ & _ & (x & y & Et & _) & _) & _).
    exists (Sp m (se sp)), (repeat ch n ++ x), y. rewrite Et, <- !app_assoc. reflexivity.
  - assert (Hin' : List.In (End_ (RawInline (B "html")), sp') O) by (rewrite He; apply in_or_app; right; right; apply in_or_app; right; left; reflexivity).
    destruct (C39_spelled _ _ _ _ Hu E Hin') as (x & ((y & _ & ->) & _) & K).
    exists sp'. destruct K as [[-> _]|(_ & r & -> & _)]; [exists (y ++ B "{"), (B "}")|exists (y ++ B "{"), (B "}" ++ r)]; rewrite <- ?app_assoc; reflexivity.
Qed.

(** The hypotheses are met by a document with most constructs. *)
Definition page_doc : bytes := nls [ B "{#i k=""<v>""}"; B "# a *b*"; []; B "::: c"; B "- [x] t & u"; B ":::"; []; B "a[^n] ![x<y](z){t=u} :s:"; []; B "[^n]: f"; []; B "| a | b |"; B "|---|:-:|"; B "| c | d |" ].
Example C23_page_ex : utf8 page_doc /\ (forall a b, page_doc <> a ++ B "=html" ++ b) /\ exists out, html_of page_doc = Ok out /\ 500 <= length out.
Proof.
  split; [unfold page_doc, nls; cbn; repeat first [apply u_nil | apply u_1; [vm_compute; split; discriminate|] ]|]. split.
  - assert (HX : forall s, forallb (fun n => negb (bytes_eqb (firstn 5 (skipn n s)) (B "=html"))) (List.seq 0 (S (length s))) = true -> forall a b, s <> a ++ B "=html" ++ b).
    { intros s H a b ->. rewrite forallb_forall in H. specialize (H (length a)). rewrite skipn_app, skipn_all, Nat.sub_diag in H. cbn [app skipn] in H.
      assert (K : forall A : Prop, (A -> negb true = true) -> A -> False) by (intros A X Y; apply X in Y; discriminate Y). refine (K _ H _). apply in_seq. rewrite app_length. lia. }
    apply HX. vm_compute. reflexivity.
  - destruct (html_of page_doc) as [o| |] eqn:Eo; [|exfalso; revert Eo; vm_compute; discriminate..]. exists o. split; [reflexivity|].
    revert Eo. vm_compute. intros Eo. injection Eo as <-. vm_compute. repeat constructor.
Qed.

Definition PropsPage_all := (@C23_names, @C23_document, @C23_no_raw, @C23_page_ex).
Print Assumptions PropsPage_all.
