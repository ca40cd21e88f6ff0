(** * C47: the command *)
From Verif Require Import Base Lex Attr Block Inline Doc Html Lib Sink Cli SpecAttr SpecSink PSink SpecCli PropsHtml PropsDoc PropsSink.
Local Open Scope nat_scope.

(** There is such HTML; without options it is that of [html::render_to_string]. *)
Theorem C47_html : forall a src, utf8 src -> (N.of_nat (length src) <= 32766)%N -> exists o, html_for a src o.
Proof.
  intros a src Hu Hl. destruct (C37_html_total src Hu Hl) as (x & H). unfold html_of in H. apply bind_ok in H. destruct H as (evs & E1 & _).
  assert (HD := C04_renderable src _ Hu E1). unfold html_for.
  destruct (C37_render_total (if a_minified a then None else Some (a_indent_string a, a_start_indent a)) evs HD) as (s & o & R).
  exists o, evs, s. split; [exact E1|]. destruct (a_minified a); exact R.
Qed.
Theorem C47_default : forall i o src h, html_for (App i o false 0 []) src h <-> html_of src = Ok h.
Proof.
  intros i o src h. unfold html_for, html_of, render_to_string. cbn [a_minified a_indent_string a_start_indent]. change (r_new (Some ([], 0))) with r_default. split.
  - intros (evs & s & -> & H). cbn [bind]. rewrite H. reflexivity.
  - intros H. apply bind_ok in H. destruct H as (evs & E1 & H). apply bind_ok in H. destruct H as ([s o'] & H & K). injection K as ->. eauto.
Qed.

(** ** Nothing is written if the input cannot be read, or the file cannot be created. *)
Theorem C47_no_input : forall (T E : Type) (out : T -> bytes -> T * option (nat * E)) other cap a v e,
  match a_input a with Some path => e_read v path | None => e_stdin v end = inr e ->
  cli_run out other cap a v = Ok (None, e_stdout v, Some e).
Proof. intros T E out other cap a v e H. unfold cli_run, content. rewrite H. reflexivity. Qed.
Theorem C47_not_created : forall (T E : Type) (out : T -> bytes -> T * option (nat * E)) other cap a v src path e,
  match a_input a with Some path => e_read v path | None => e_stdin v end = inl src ->
  a_output a = Some path -> e_create v path = inr e -> cli_run out other cap a v = Ok (None, e_stdout v, Some e).
Proof. intros T E out other cap a v src path e H HO K. unfold cli_run, content. rewrite H, HO, K. reflexivity. Qed.

Lemma file_keeps {T E} (out : T -> bytes -> T * option (nat * E)) log : device out log -> keeps (file_write out) log.
Proof.
  intros D t p t' r H. unfold file_write in H. destruct (out t p) as [t1 r1] eqn:X. injection H as <- <-. specialize (D _ _ _ _ X).
  destruct r1 as [ [n e]|]; cbn [option_map snd].
  - exists (firstn n p), (skipn n p). rewrite firstn_skipn. split; [reflexivity|]. split; [exact D|discriminate].
  - exists p, []. rewrite app_nil_r. auto.
Qed.

(** ** To a file: it gets a beginning of the HTML, and all of it if the command succeeds; otherwise the error is the one of the
    last write. *)
Theorem C47_file : forall (T E : Type) (out : T -> bytes -> T * option (nat * E)) other cap log a v src path f o, device out log ->
  match a_input a with Some path => e_read v path | None => e_stdin v end = inl src ->
  a_output a = Some path -> e_create v path = inl f -> html_for a src o ->
  exists f' r p q, cli_run out other cap a v = Ok (Some f', e_stdout v, r) /\ o = p ++ q /\ log f' = log f ++ p
    /\ match r with None => q = [] | Some e => exists f1 piece n, out f1 piece = (f', Some (n, e)) end.
Proof.
  intros T E out other cap log a v src path f o D Hi Ho Hc (evs & s & E1 & R). change (if a_minified a then _ else _) with (renderer a) in R.
  destruct (C46_written T E (file_write out) other _ _ _ _ R f) as (f' & r & W & RC).
  destruct (C46_kept _ _ _ _ _ _ _ _ (file_keeps _ _ D) RC) as (p & q & Eo & L & Q).
  exists f', r, p, q. split; [|split; [exact Eo|split; [exact L|] ] ].
  - unfold cli_run, content. rewrite Hi, Ho, Hc, E1. cbn [bind]. rewrite W. cbn [bind]. destruct r; reflexivity.
  - destruct r as [e|]; [|apply Q; reflexivity]. destruct RC as (b & pc & x & f1 & _ & _ & X). unfold file_write in X.
    destruct (out f1 pc) as [t1 [ [n e1]|] ] eqn:Y; [|discriminate X]. injection X as <- <-. eauto.
Qed.

(** ** To the standard output *)
Section Buffer.
Context {T E : Type}.
Variable out : T -> bytes -> T * option (nat * E).
Variable log : T -> bytes.
Hypothesis D : device out log.
Definition blog (w : T * bytes) : bytes := log (fst w) ++ snd w.
Lemma flush_log (w : T * bytes) w' r : buf_flush out w = (w', r) -> blog w' = blog w /\ (r = None -> snd w' = []) /\ length (snd w') <= length (snd w)
  /\ (forall e, r = Some e -> exists n p, snd (out (fst w) p) = Some (n, e)).
Proof.
  unfold buf_flush, blog. intros H. destruct (out (fst w) (snd w)) as [t r1] eqn:X. specialize (D _ _ _ _ X). destruct r1 as [ [n e]|]; injection H as <- <-; cbn [fst snd].
  - rewrite D, <- app_assoc, firstn_skipn. split; [reflexivity|]. split; [discriminate|]. split; [rewrite skipn_length; lia|].
    intros e' [= <-]. exists n, (snd w). rewrite X. reflexivity.
  - rewrite D, app_nil_r. split; [reflexivity|]. split; [reflexivity|]. split; [cbn; lia|discriminate].
Qed.
Lemma write_log cap (w : T * bytes) (p : bytes) w' r : length (snd w) <= cap -> buf_write out cap w p = (w', r) ->
  (exists p1 p2, p = p1 ++ p2 /\ blog w' = blog w ++ p1 /\ (r = None -> p2 = [])) /\ length (snd w') <= cap
  /\ (forall e, r = Some e -> exists t n p, snd (out t p) = Some (n, e)).
Proof.
  intros Hc H. unfold buf_write in H. cbv zeta in H. destruct (Nat.ltb (length p) (cap - length (snd w))) eqn:L1.
  { apply Nat.ltb_lt in L1. injection H as <- <-. unfold blog. cbn [fst snd]. split; [|split; [rewrite app_length; lia|discriminate] ].
    exists p, []. rewrite app_nil_r, app_assoc. auto. }
  apply Nat.ltb_ge in L1.
  destruct (if Nat.ltb (cap - length (snd w)) (length p) then buf_flush out w else (w, None)) as [w1 r1] eqn:F.
  assert (G : blog w1 = blog w /\ length (snd w1) <= cap /\ (r1 = None -> length p < cap -> length (snd w1) + length p <= cap)
     /\ (r1 = None -> cap <= length p -> snd w1 = []) /\ (forall e, r1 = Some e -> exists t n p, snd (out t p) = Some (n, e))).
  { destruct (Nat.ltb (cap - length (snd w)) (length p)) eqn:L2.
    - apply flush_log in F. destruct F as (F1 & F2 & F3 & F4). split; [exact F1|]. split; [lia|]. split; [intros N K; rewrite (F2 N); cbn; lia|].
      split; [intros N _; apply F2, N|]. intros e X. destruct (F4 e X) as (n & q & Y). eauto.
    - apply Nat.ltb_ge in L2. injection F as <- <-. split; [reflexivity|]. split; [exact Hc|]. split; [intros _ _; lia|].
      split; [|discriminate]. intros _ K. destruct (snd w); [reflexivity|]. cbn [length] in *. lia. }
  destruct G as (G1 & G2 & G3 & G4 & G5). destruct r1 as [e|].
  { injection H as <- <-. split; [|split; [exact G2|exact G5] ]. exists [], p. rewrite app_nil_r. split; [reflexivity|]. split; [exact G1|discriminate]. }
  destruct (Nat.leb cap (length p)) eqn:L3.
  - apply Nat.leb_le in L3. unfold file_write in H. destruct (out (fst w1) p) as [t r2] eqn:X. injection H as <- <-. specialize (G4 eq_refl L3).
    rewrite <- G1. unfold blog. cbn [fst snd]. rewrite G4, !app_nil_r. split; [|split; [cbn; lia|] ].
    + specialize (D _ _ _ _ X). destruct r2 as [ [n e]|]; cbn [option_map snd].
      * exists (firstn n p), (skipn n p). rewrite firstn_skipn. split; [reflexivity|]. split; [exact D|discriminate].
      * exists p, []. rewrite app_nil_r. auto.
    + intros e Y. destruct r2 as [ [n e1]|]; [|discriminate Y]. cbn [option_map snd] in Y. injection Y as <-. exists (fst w1), n, p. rewrite X. reflexivity.
  - apply Nat.leb_gt in L3. injection H as <- <-. rewrite <- G1. unfold blog. cbn [fst snd].
    split; [|split; [rewrite app_length; apply G3; auto|discriminate] ]. exists p, []. rewrite app_nil_r, app_assoc. auto.
Qed.
Lemma accepts_log cap (w : T * bytes) cs w' : accepts (buf_write out cap) w cs w' -> length (snd w) <= cap -> blog w' = blog w ++ concat cs /\ length (snd w') <= cap.
Proof.
  induction 1 as [w|w t w1 cs w2 H1 H2 IH]; intros Hc; [rewrite app_nil_r; auto|].
  destruct (write_log _ _ _ _ _ Hc H1) as ((p1 & p2 & -> & L & Q) & Hc1 & _). rewrite (Q eq_refl), app_nil_r in *.
  destruct (IH Hc1) as [L2 Hc2]. split; [|exact Hc2]. rewrite L2, L. cbn [concat]. rewrite <- app_assoc. reflexivity.
Qed.
Lemma receives_log cap (w : T * bytes) o w' r : length (snd w) <= cap -> receives (buf_write out cap) o w w' r ->
  (exists p q, o = p ++ q /\ blog w' = blog w ++ p /\ (r = None -> q = [])) /\ length (snd w') <= cap
  /\ (forall e, r = Some e -> exists t n p, snd (out t p) = Some (n, e)).
Proof.
  intros Hc R. destruct r as [e|].
  - destruct R as (b & t & a & w1 & <- & H1 & H2). apply accepts_log in H1; [|exact Hc]. destruct H1 as [L1 Hc1].
    destruct (write_log _ _ _ _ _ Hc1 H2) as ((p1 & p2 & -> & L & Q) & Hc2 & X). split; [|split; [exact Hc2|exact X] ].
    exists (concat b ++ p1), (p2 ++ concat a). rewrite concat_app. cbn [concat]. rewrite <- ?app_assoc. split; [reflexivity|].
    split; [rewrite L, L1, <- app_assoc; reflexivity|discriminate].
  - destruct R as (cs & <- & H1). apply accepts_log in H1; [|exact Hc]. destruct H1 as [L1 Hc1]. split; [|split; [exact Hc1|discriminate] ].
    exists (concat cs), []. rewrite app_nil_r. auto.
Qed.
Lemma flush_ext (w : T * bytes) w' r : buf_flush out w = (w', r) -> exists y, log (fst w') = log (fst w) ++ y.
Proof.
  unfold buf_flush. intros H. destruct (out (fst w) (snd w)) as [t r1] eqn:X. specialize (D _ _ _ _ X).
  destruct r1 as [ [n e]|]; injection H as <- <-; eexists; exact D.
Qed.
Lemma write_ext cap (w : T * bytes) (p : bytes) w' r : buf_write out cap w p = (w', r) -> exists y, log (fst w') = log (fst w) ++ y.
Proof.
  intros H. unfold buf_write in H. cbv zeta in H. destruct (Nat.ltb (length p) _); [injection H as <- <-; exists []; rewrite app_nil_r; reflexivity|].
  destruct (if Nat.ltb _ _ then _ else _) as [w1 r1] eqn:F.
  assert (G : exists y, log (fst w1) = log (fst w) ++ y).
  { destruct (Nat.ltb _ _); [eapply flush_ext; eauto|]. injection F as <- <-. exists []. rewrite app_nil_r. reflexivity. }
  destruct G as (y & G). destruct r1; [injection H as <- <-; eauto|]. destruct (Nat.leb cap (length p)).
  - unfold file_write in H. destruct (out (fst w1) p) as [t r2] eqn:X. injection H as <- <-. cbn [fst]. rewrite (D _ _ _ _ X), G, <- app_assoc. eauto.
  - injection H as <- <-. eauto.
Qed.
Lemma receives_ext cap (w : T * bytes) o w' r : receives (buf_write out cap) o w w' r -> exists y, log (fst w') = log (fst w) ++ y.
Proof.
  assert (A : forall w cs w', accepts (buf_write out cap) w cs w' -> exists y, log (fst w') = log (fst w) ++ y).
  { clear w o w' r. induction 1 as [w|w t w1 cs w2 H1 H2 (y & IH)]; [exists []; rewrite app_nil_r; reflexivity|].
    destruct (write_ext _ _ _ _ _ H1) as (y1 & Y). rewrite IH, Y, <- app_assoc. eauto. }
  destruct r as [e|].
  - intros (b & t & a & w1 & _ & H1 & H2). destruct (A _ _ _ H1) as (y & Y). destruct (write_ext _ _ _ _ _ H2) as (y1 & Y1).
    rewrite Y1, Y, <- app_assoc. eauto.
  - intros (cs & _ & H). eapply A; eauto.
Qed.
End Buffer.

(** The standard output gets a beginning of the HTML, and all of it, with success, if no write fails.  If the command
    succeeds, what is missing was in the buffer at the end; if it does not, a write failed with that error. *)
Theorem C47_stdout : forall (T E : Type) (out : T -> bytes -> T * option (nat * E)) other cap log a v src o, device out log ->
  match a_input a with Some path => e_read v path | None => e_stdin v end = inl src ->
  a_output a = None -> html_for a src o ->
  exists t' r p q, cli_run out other cap a v = Ok (None, t', r) /\ o = p ++ q /\ log t' = log (e_stdout v) ++ p
    /\ (reliable out -> r = None /\ q = [])
    /\ match r with None => length q <= cap | Some e => exists t n piece, snd (out t piece) = Some (n, e) end.
Proof.
  intros T E out other cap log a v src o D Hi Ho (evs & s & E1 & R). change (if a_minified a then _ else _) with (renderer a) in R.
  destruct (C46_written (T * bytes) E (buf_write out cap) other _ _ _ _ R (e_stdout v, [])) as (w & r & W & RC).
  destruct (receives_log _ _ D cap (e_stdout v, []) _ _ _ (Nat.le_0_l cap) RC) as ((p & q & Eo & L & Q) & Hc & X).
  unfold blog in L at 2. cbn [fst snd] in L. rewrite app_nil_r in L.
  assert (RUN : cli_run out other cap a v = Ok (None, buf_drop out w, r)).
  { unfold cli_run, content. rewrite Hi, Ho, E1. cbn [bind]. rewrite W. cbn [bind]. destruct r; reflexivity. }
  assert (NF : reliable out -> r = None).
  { intros K. destruct r as [e|]; [|reflexivity]. destruct (X e eq_refl) as (t & n & pc & Y). rewrite K in Y. discriminate Y. }
  destruct w as [t buf]. unfold blog in L. cbn [fst snd] in L, Hc. unfold buf_drop, buf_flush in RUN. cbn [fst snd] in RUN.
  destruct (out t buf) as [t' rf] eqn:F. assert (DF := D _ _ _ _ F). destruct rf as [ [n e]|]; cbn [fst] in RUN.
  - (* The last write fails: the log ends inside the buffer's text. *)
    destruct (receives_ext _ _ D _ _ _ _ _ RC) as (y & Y). cbn [fst] in Y. rewrite Y, <- app_assoc in L. apply app_inv_head in L.
    exists t', r, (y ++ firstn n buf), (skipn n buf ++ q). split; [exact RUN|].
    split; [rewrite <- app_assoc; rewrite (app_assoc (firstn n buf)), firstn_skipn, Eo, <- L, <- app_assoc; reflexivity|].
    split; [rewrite DF, Y, <- app_assoc; reflexivity|].
    split; [intros K; specialize (K t buf); rewrite F in K; discriminate K|].
    destruct r as [e'|]; [apply X; reflexivity|]. rewrite (Q eq_refl), app_nil_r, skipn_length. lia.
  - exists t', r, p, q. rewrite DF. split; [exact RUN|]. split; [exact Eo|]. split; [exact L|].
    split; [intros K; split; [apply NF, K|apply Q, NF, K]|]. destruct r as [e|]; [apply X; reflexivity|]. rewrite (Q eq_refl). cbn. lia.
Qed.

(** ** A success does not mean that anything was written: a full device, and a document that fits into the buffer. *)
Definition full (t p : bytes) : bytes * option (nat * bool) := match p with [] => (t, None) | _ => (t, Some (0, true)) end.
Lemma full_device : device full (fun t => t).
Proof. intros t [|c p] t' r H; injection H as <- <-; cbn; rewrite app_nil_r; reflexivity. Qed.
Definition X_env : @env bytes bool := Env (fun _ => inr true) (inl (B "one _two_ three" ++ [NL])) (fun _ => inl []) [].
Definition X_app : app := App None None false 0 [].
Theorem C47_success_refuted :
  html_of (B "one _two_ three" ++ [NL]) = Ok (B "<p>one <em>two</em> three</p>" ++ [NL]) /\
  cli_run full false buf_capacity X_app X_env = Ok (None, [], None) /\ exit_status (E := bool) None = 0.
Proof. split; [vm_compute; reflexivity|]. split; [vm_compute; reflexivity|reflexivity]. Qed.
(** With a smaller buffer, or to a file, the command fails. *)
Example C47_stdout_ex : cli_run full false 8 X_app X_env = Ok (None, [], Some true).
Proof. vm_compute. reflexivity. Qed.
Example C47_file_ex : cli_run full false buf_capacity (App None (Some (B "f")) true 0 []) X_env = Ok (Some [], [], Some true).
Proof. vm_compute. reflexivity. Qed.
(** A device that works: all of it, indented and minified. *)
Definition works (t p : bytes) : bytes * option (nat * bool) := (t ++ p, None).
Lemma works_device : device works (fun t => t) /\ reliable works.
Proof. split; [intros t p t' r H; injection H as <- <-; reflexivity|intros t p; reflexivity]. Qed.
Example C47_works_ex :
  cli_run works false 8 (App None None false 1 (B "--")) X_env = Ok (None, B "--<p>one <em>two</em> three</p>" ++ [NL], None) /\
  cli_run works false buf_capacity (App None (Some (B "f")) true 0 []) X_env = Ok (Some (B "<p>one <em>two</em> three</p>"), [], None) /\
  cli_run works false 8 (App (Some (B "g")) None false 1 (B "--")) X_env = Ok (None, [], Some true).
Proof. vm_compute. repeat split. Qed.

Definition PropsCli_all := (C47_html, C47_default, C47_no_input, C47_not_created, C47_file, C47_stdout, C47_success_refuted).
Print Assumptions PropsCli_all.
