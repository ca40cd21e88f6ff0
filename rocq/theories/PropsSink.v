(** * C46: rendering to a writer that may fail *)
From Verif Require Import Base Lex Attr Block Inline Doc Html Lib Sink SpecAttr SpecSink PSink PropsDoc.
Local Open Scope nat_scope.

Lemma accepts_app {W E} (put : W -> bytes -> W * option E) w a w1 b w2 :
  accepts put w a w1 -> accepts put w1 b w2 -> accepts put w (a ++ b) w2.
Proof. induction 1 as [w|w t w1' cs w1 H1 H2 IH]; intros K; [exact K|]. cbn [app]. econstructor; [exact H1|]. apply IH, K. Qed.
Lemma receives_app {W E} (put : W -> bytes -> W * option E) o1 o2 w w1 w2 r :
  receives put o1 w w1 None -> receives put o2 w1 w2 r -> receives put (o1 ++ o2) w w2 r.
Proof.
  intros (cs & <- & H1). destruct r as [e|].
  - intros (b & t & a & w' & <- & H2 & H3). exists (cs ++ b), t, a, w'. split; [rewrite <- app_assoc; rewrite concat_app; reflexivity|].
    split; [eapply accepts_app; eauto|exact H3].
  - intros (cs' & <- & H2). exists (cs ++ cs'). split; [apply concat_app|eapply accepts_app; eauto].
Qed.
Lemma receives_stop {W E} (put : W -> bytes -> W * option E) o1 o2 w w1 e :
  receives put o1 w w1 (Some e) -> receives put (o1 ++ o2) w w1 (Some e).
Proof.
  intros (b & t & a & w' & <- & H2 & H3). exists b, t, (a ++ [o2]), w'. split; [|auto].
  replace (b ++ t :: a ++ [o2]) with ((b ++ t :: a) ++ [o2]) by (rewrite <- app_assoc; reflexivity).
  rewrite concat_app. cbn [concat]. rewrite app_nil_r. reflexivity.
Qed.
Lemma feed_receives {W} (put : W -> bytes -> W * bool) cs : forall w,
  exists w' (ok : bool), feed put cs w = (w', ok) /\ receives (flagged put) (concat cs) w w' (if ok then None else Some tt).
Proof.
  induction cs as [|t cs IH]; intros w; [exists w, true; split; [reflexivity|exists []; split; [reflexivity|constructor] ]|].
  cbn [feed]. destruct (put w t) as [w1 ok] eqn:P.
  assert (F : flagged put w t = (w1, if ok then None else Some tt)) by (unfold flagged; rewrite P; reflexivity).
  destruct ok.
  - destruct (IH w1) as (w' & ok & E & R). exists w', ok. split; [exact E|]. cbn [concat]. apply receives_app with w1; [|exact R].
    exists [t]. split; [apply app_nil_r|]. econstructor; [exact F|constructor].
  - exists w1, false. split; [reflexivity|]. exists [], t, cs, w. split; [reflexivity|]. split; [constructor|exact F].
Qed.
Lemma emits_receives {W A} (put : W -> bytes -> W * bool) (m : @M W A) a o : emits put m (Ok (a, o)) -> forall w,
  exists w' (ok : bool), m w = Ok (w', if ok then Some a else None) /\ receives (flagged put) o w w' (if ok then None else Some tt).
Proof.
  intros (cs & <- & H) w. destruct (feed_receives put cs w) as (w' & ok & E & R). exists w', ok. split; [|exact R].
  rewrite H. unfold run. rewrite E. destruct ok; reflexivity.
Qed.

(** ** To a writer of text, [push_events]: the HTML in pieces, up to the first that the writer does not accept; the
    call fails if there is such a piece, and only then. *)
Theorem C46_pushed : forall (W : Type) (put : W -> bytes -> W * bool) s evs s' o, render_events s evs = Ok (s', o) ->
  forall w, exists w' (ok : bool), push_events put s evs w = Ok (w', if ok then Some s' else None)
    /\ receives (flagged put) o w w' (if ok then None else Some tt).
Proof. intros W put s evs s' o H. apply emits_receives. rewrite <- H. apply emits_events. Qed.

(** ** To a stream of bytes, [write_events] *)
Lemma adapter_accepts {T E} (wa : T -> bytes -> T * option E) w cs w' : accepts (flagged (adapter_put wa)) w cs w' ->
  accepts wa (fst w) cs (fst w') /\ snd w' = snd w.
Proof.
  induction 1 as [w|w t w1 cs w2 H1 H2 [IH1 IH2] ]; [split; [constructor|reflexivity]|].
  unfold flagged, adapter_put in H1. destruct (wa (fst w) t) as [t1 [e|]] eqn:P; [discriminate|]. injection H1 as <-. cbn [fst snd] in *.
  split; [econstructor; eauto|exact IH2].
Qed.
Lemma adapter_receives {T E} (wa : T -> bytes -> T * option E) o t w' (ok : bool) :
  receives (flagged (adapter_put wa)) o (t, None) w' (if ok then None else Some tt) ->
  receives wa o t (fst w') (snd w') /\ (ok = true <-> snd w' = None).
Proof.
  destruct ok; cbn [receives].
  - intros (cs & <- & H). apply adapter_accepts in H. cbn [fst snd] in H. destruct H as [H ->].
    split; [exists cs; auto|]. split; reflexivity.
  - intros (b & p & a & w1 & <- & H & K). apply adapter_accepts in H. cbn [fst snd] in H. destruct H as [H E1].
    unfold flagged, adapter_put in K. destruct (wa (fst w1) p) as [t1 [e|]] eqn:P; [|discriminate].
    injection K as <-. cbn [fst snd]. split; [|split; discriminate]. exists b, p, a, (fst w1). auto.
Qed.
(** The same with [write_all]; the error that is returned is the one of the call that failed, and never one of the
    renderer's own ([other]). *)
Theorem C46_written : forall (T E : Type) (write_all : T -> bytes -> T * option E) other s evs s' o, render_events s evs = Ok (s', o) ->
  forall t, exists t' r, write_events write_all other s evs t = Ok (t', match r with None => inl s' | Some e => inr e end)
    /\ receives write_all o t t' r.
Proof.
  intros T E wa other s evs. revert s. induction evs as [|e evs IH]; intros s s' o H t; cbn [render_events write_events] in *.
  - injection H as <- <-. exists t, None. split; [reflexivity|]. exists []. split; [reflexivity|constructor].
  - apply bind_ok in H. destruct H as ([s1 o1] & H1 & H). apply bind_ok in H. destruct H as ([s2 o2] & H2 & H). injection H as <- <-.
    pose proof (emits_event (adapter_put wa) s e) as EM. rewrite H1 in EM.
    destruct (emits_receives _ _ _ _ EM (t, None)) as (w' & ok & X & R). apply adapter_receives in R. destruct R as [R OK].
    unfold write_event. rewrite X. cbn [bind]. destruct ok.
    + rewrite (proj1 OK eq_refl) in R. destruct (IH _ _ _ H2 (fst w')) as (t' & r & Y & R'). exists t', r. split; [exact Y|].
      eapply receives_app; eauto.
    + destruct (snd w') as [er|] eqn:S; [|destruct OK as [_ OK]; discriminate (OK eq_refl)].
      exists (fst w'), (Some er). split; [reflexivity|]. apply receives_stop, R.
Qed.

(** ** What is kept *)
Theorem C46_kept : forall (W E : Type) (put : W -> bytes -> W * option E) log o w w' r, keeps put log -> receives put o w w' r ->
  exists p q, o = p ++ q /\ log w' = log w ++ p /\ (r = None -> q = []).
Proof.
  intros W E put log o w w' r K R.
  assert (A : forall cs w w', accepts put w cs w' -> log w' = log w ++ concat cs).
  { clear - K. induction 1 as [w|w t w1 cs w2 H1 H2 IH]; [symmetry; apply app_nil_r|].
    destruct (K _ _ _ _ H1) as (p & q & -> & L & Q). rewrite (Q eq_refl), app_nil_r in *. rewrite IH, L. cbn [concat].
    rewrite <- app_assoc. reflexivity. }
  destruct r as [e|].
  - destruct R as (b & t & a & w1 & <- & H1 & H2). destruct (K _ _ _ _ H2) as (p & q & -> & L & _).
    exists (concat b ++ p), (q ++ concat a). split; [rewrite concat_app; cbn [concat]; rewrite <- ?app_assoc; reflexivity|].
    split; [rewrite L, (A _ _ _ H1); symmetry; apply app_assoc|discriminate].
  - destruct R as (cs & <- & H). exists (concat cs), []. split; [symmetry; apply app_nil_r|]. split; [apply A, H|reflexivity].
Qed.
(** A document rendered to a stream: the stream has a beginning of the HTML appended, all of it if the call
    succeeds; if it fails, the error is what the last [write_all] returned. *)
Theorem C46_document : forall src, utf8 src -> (N.of_nat (length src) <= 32766)%N ->
  exists evs o, parse src = Ok evs /\ html_of src = Ok o /\
  forall (T E : Type) (write_all : T -> bytes -> T * option E) other log, keeps write_all log ->
  forall t, exists t' res p q, write_events write_all other r_default evs t = Ok (t', res) /\ o = p ++ q /\ log t' = log t ++ p
    /\ match res with inl _ => q = [] | inr e => exists t1 piece, write_all t1 piece = (t', Some e) end.
Proof.
  intros src Hu Hl. destruct (C37_html_total src Hu Hl) as (o & H). unfold html_of in H.
  assert (H' := H). apply bind_ok in H'. destruct H' as (evs & E1 & H2). unfold render_to_string in H2. apply bind_ok in H2. destruct H2 as ([s' o'] & H3 & H4).
  injection H4 as ->. exists evs, o. split; [exact E1|]. split; [exact H|]. intros T E wa other log K t.
  destruct (C46_written T E wa other _ _ _ _ H3 t) as (t' & r & W & R). destruct (C46_kept _ _ _ _ _ _ _ _ K R) as (p & q & Eo & L & Q).
  exists t', (match r with None => inl s' | Some e => inr e end), p, q. split; [exact W|]. split; [exact Eo|]. split; [exact L|].
  destruct r as [e|]; [|apply Q; reflexivity]. destruct R as (b & pc & a & t1 & _ & _ & X). eauto.
Qed.
(** If the stream never fails, it has all of the HTML. *)
Theorem C46_complete : forall src evs o, parse src = Ok evs -> html_of src = Ok o ->
  forall (T E : Type) (write_all : T -> bytes -> T * option E) other log, keeps write_all log -> (forall t p, snd (write_all t p) = None) ->
  forall t, exists t' s', write_events write_all other r_default evs t = Ok (t', inl s') /\ log t' = log t ++ o.
Proof.
  intros src evs o E1 H T E wa other log K NF t. unfold html_of in H. rewrite E1 in H. cbn [bind] in H. unfold render_to_string in H.
  apply bind_ok in H. destruct H as ([s' o'] & H3 & H4). injection H4 as ->.
  destruct (C46_written T E wa other _ _ _ _ H3 t) as (t' & r & W & R). destruct (C46_kept _ _ _ _ _ _ _ _ K R) as (p & q & Eo & L & Q).
  destruct r as [e|].
  - destruct R as (b & pc & a & t1 & _ & _ & X). specialize (NF t1 pc). rewrite X in NF. discriminate NF.
  - exists t', s'. split; [exact W|]. rewrite (Q eq_refl), app_nil_r in Eo. rewrite Eo. exact L.
Qed.

(** A stream with room for twenty bytes: what fits of a piece is kept. *)
Definition room (t p : bytes) : bytes * option bool :=
  if Nat.leb (length t + length p) 20 then (t ++ p, None) else (t ++ firstn (20 - length t) p, Some true).
Lemma room_keeps : keeps room (fun t => t).
Proof.
  intros w t w' r H. unfold room in H. destruct (Nat.leb _ _); injection H as <- <-.
  - exists t, []. rewrite app_nil_r. auto.
  - exists (firstn (20 - length w) t), (skipn (20 - length w) t). rewrite firstn_skipn. split; [reflexivity|]. split; [reflexivity|discriminate].
Qed.
Definition X_sink : bytes := B "one _two_ three" ++ [NL].
Example C46_document_ex :
  match parse X_sink with
  | Ok evs => html_of X_sink = Ok (B "<p>one <em>two</em> three</p>" ++ [NL])
      /\ write_events room false r_default evs [] = Ok (B "<p>one <em>two</em> ", inr true)
  | _ => False
  end.
Proof. vm_compute. repeat split. Qed.
(** Nothing fails: the whole of it. *)
Example C46_complete_ex :
  match parse X_sink with
  | Ok evs => match write_events (E := bool) (fun t p => (t ++ p, None)) false r_default evs (B "<!-- -->") with
              | Ok (t, inl _) => t = B "<!-- --><p>one <em>two</em> three</p>" ++ [NL]
              | _ => False
              end
  | _ => False
  end.
Proof. vm_compute. reflexivity. Qed.

Definition PropsSink_all := (C46_pushed, C46_written, @C46_kept, C46_document, C46_complete).
Print Assumptions PropsSink_all.
