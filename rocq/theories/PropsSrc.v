(** * PropsSrc: how events are written in the source (C39, C35) *)
From Verif Require Import Base Lex Attr Block Inline Doc Lib SpecAttr SpecDoc SpecSrc PAttr PSafe PBlock2 PDoc2 PDoc4 PDoc5 PDoc6 PropsDoc.
Local Open Scope nat_scope.

(** The attributes of an event. *)
Definition event_attrs (e : event) : attrs := match e with Start _ a | Attributes a | ThematicBreak a => a | _ => [] end.
Definition resolved (c : container) : bool := match c with Link _ (LSpan LReference) | Image _ LReference => true | _ => false end.

Definition src_ok (src : bytes) (x : event * span) : Prop :=
  spelled src (fst x) (slice src (snd x)) /\ written src (event_attrs (fst x)) /\
  match fst x with Start c a => inline_box c = true -> start_attrs src c a | _ => True end.
Lemma start_written src c a : start_attrs src c a -> written src a.
Proof.
  intros (da & wa & -> & H1 & _ & [-> |(sp & _ & H2 & _)]); apply written_app; auto; [constructor|].
  rewrite <- (app_nil_r wa). econstructor; [exact H2|constructor].
Qed.
Lemma psteps_src src s O s' : psteps src s O s' -> Forall (src_ok src) O.
Proof.
  induction 1 as [s|s e s1 E s2 H1 H2 IH]; constructor; auto. inversion H1; subst; unfold src_ok; cbn [fst snd event_attrs].
  - repeat split. constructor.
  - split; [assumption|]. destruct e0; try discriminate; (split; [constructor|exact I]).
  - split; [|split; [|exact I]]; [cbn [spelled]; exists (slice src sp), []; rewrite app_nil_r; auto|].
    rewrite <- (app_nil_r a). econstructor; [eassumption|constructor].
  - split; [assumption|]. split; [eapply start_written; eauto|auto].
  - repeat split; [assumption|constructor].
Qed.
Lemma body_src src pp c lo O hi : body src pp c lo O hi -> Forall (src_ok src) O.
Proof. intros [(m & _ & H) _]. apply qsteps_psteps in H. eapply psteps_src; eauto. Qed.
Lemma gq_src src pp g lo O y hi : gq src pp g lo O y hi -> Forall (src_ok src) O.
Proof.
  assert (Hb : forall l, Forall (src_ok src) (blanks l)) by (induction l; constructor; auto; repeat split; constructor).
  assert (Hl : forall c, inline_box c = false -> forall t, opens_with c t /\ closes_with src c t).
  { intros c H t. destruct c; try discriminate H; (split; [exact I|exists t; split; [exact I|left; split; [reflexivity|discriminate]]]). }
  assert (HS : forall c a sp, inline_box c = false -> written src a -> src_ok src (Start c a, sp)).
  { intros c a sp H H1. split; [apply Hl; auto|]. split; [exact H1|]. cbn. intros; congruence. }
  assert (HE : forall c sp, inline_box c = false -> src_ok src (End_ c, sp)).
  { intros c sp H. split; [apply Hl; auto|]. split; [constructor|exact I]. }
  induction 1; auto; repeat (first [apply Forall_app; split | apply Forall_cons]); eauto using body_src; try (apply HE; reflexivity); try (apply HS; [reflexivity|constructor]).
  - repeat split. constructor.
  - repeat split. auto.
  - repeat split; auto.
  - apply HS; [destruct H; reflexivity|auto].
  - apply HE. destruct H; reflexivity.
  - apply HS; [destruct H; reflexivity|auto].
  - apply HE. destruct H; reflexivity.
Qed.
Lemma ev_src src evs e sp : utf8 src -> parse_spans src = Ok evs -> List.In (e, sp) evs -> src_ok src (e, sp).
Proof. intros Hu E Hin. pose proof (gq_src _ _ _ _ _ _ _ (spans_ok _ _ Hu E)) as H. rewrite Forall_forall in H. apply (H _ Hin). Qed.

(** ** Matching starts and ends *)
Section Match.
Variables (src : bytes) (pp : prepass).
Inductive atts : list qfr -> list (event * span) -> list qfr -> Prop :=
| at_nil st : atts st [] st
| at_other st e sp r st' : edge e = false -> atts (PInl2.add (text_of src e sp) st) r st' -> atts st ((e, sp) :: r) st'
| at_start st c a sp r st' : atts ((c, a, bopen c (slice src sp)) :: st) r st' -> atts st ((Start c a, sp) :: r) st'
| at_end st c a x sp r st' : (inline_box c = true -> end_ok src pp c a x sp) -> atts st r st' -> atts ((c, a, x) :: st) ((End_ c, sp) :: r) st'.
Notation add := PInl2.add.
Lemma pt_cons e sp r : plain_text src ((e, sp) :: r) = text_of src e sp ++ plain_text src r.
Proof. reflexivity. Qed.
Lemma pt_app a b : plain_text src (a ++ b) = plain_text src a ++ plain_text src b.
Proof. apply flat_map_app. Qed.
Lemma atts_eq s O s1 s2 : atts s O s1 -> s1 = s2 -> atts s O s2.
Proof. intros H <-. exact H. Qed.
Ltac ptx := rewrite ?PInl2.add_add; f_equal; rewrite ?pt_cons, ?pt_app, ?pt_cons, ?pt_app, ?pt_cons, ?pt_app; cbn [text_of app]; rewrite <- ?app_assoc; reflexivity.
Ltac ac := first [apply at_end | apply at_start | apply at_other | apply at_nil].
Lemma atts_app s a s' b s'' : atts s a s' -> atts s' b s'' -> atts s (a ++ b) s''.
Proof. induction 1; intros; cbn; auto; ac; auto. Qed.
Lemma atts_split a : forall s b s'', atts s (a ++ b) s'' -> exists s', atts s a s' /\ atts s' b s''.
Proof.
  induction a as [|[e sp] a IH]; intros s b s'' H; cbn in H; [exists s; split; [constructor|auto]|].
  inversion H; subst; match goal with X : atts _ (a ++ b) _ |- _ => destruct (IH _ _ _ X) as (s' & H1 & H2) end; exists s'; (split; [ac; auto|auto]).
Qed.
Lemma qsteps_atts s O s' : qsteps src pp s O s' -> forall st, atts (snd s ++ st) O (snd s' ++ add (plain_text src O) st).
Proof.
  induction 1 as [|s e s1 E s2 H1 H2 IH]; intros st; [cbn [plain_text flat_map]; rewrite PInl2.add_nil; constructor|].
  inversion H1; subst; cbn [snd] in *; rewrite pt_cons, <- PInl2.add_add; cbn [text_of]; [specialize (IH (add (text_of src e0 sp) st))|specialize (IH st)..];
    rewrite ?PInl2.add_nil; ac; auto. rewrite PInl2.add_app. exact IH.
Qed.
Lemma body_atts c lo O hi st : body src pp c lo O hi -> atts st O (add (plain_text src O) st).
Proof. intros [(m & _ & H) _]. exact (qsteps_atts _ _ _ H st). Qed.
Lemma gq_atts g lo O y hi : gq src pp g lo O y hi -> forall st, atts st O (add (plain_text src O) st).
Proof.
  assert (Hb : forall l st, atts st (blanks l) (add (plain_text src (blanks l)) st)).
  { induction l as [|b l IHl]; intros st; [cbn [blanks map plain_text flat_map]; rewrite PInl2.add_nil; constructor|].
    change (blanks (b :: l)) with ((Blankline, b) :: blanks l). eapply atts_eq; [apply at_other; [reflexivity|apply IHl]|]. ptx. }
  assert (HE : forall c a sp r t st st', inline_box c = false -> atts (add t st) r st' -> atts (add t ((c, a, []) :: st)) ((End_ c, sp) :: r) st') by (intros; apply at_end; [congruence|auto]).
  assert (HS : forall c a sp r st st', inline_box c = false -> atts ((c, a, []) :: st) r st' -> atts st ((Start c a, sp) :: r) st').
  { intros c a sp r st st' Hc Ha. apply at_start. unfold bopen. destruct (verb_box c) eqn:Ev; [destruct c; discriminate|exact Ha]. }
  induction 1; intros st; try (eapply atts_eq; [apply at_other; [reflexivity|apply IHgq]|ptx]; fail).
  - rewrite PInl2.add_nil. constructor.
  - eapply atts_eq; [apply HS; [destruct H; reflexivity|]; eapply atts_app; [eapply body_atts; eauto|]; apply HE; [destruct H; reflexivity|apply IHgq]|ptx].
  - apply IHgq.
  - eapply atts_eq; [apply HS; [reflexivity|]; eapply atts_app; [eapply body_atts; eauto|]; apply HE; [reflexivity|apply IHgq]|ptx].
  - eapply atts_eq; [apply HS; [destruct H; reflexivity|]; eapply atts_app; [apply IHgq1|]; apply HE; [destruct H; reflexivity|apply IHgq2]|ptx].
  - eapply atts_eq; [apply HS; [reflexivity|]; eapply atts_app; [eapply body_atts; eauto|]; apply HE; [reflexivity|]; eapply atts_app; [apply Hb|]; apply HS; [reflexivity|];
      eapply atts_app; [apply IHgq1|]; apply HE; [reflexivity|apply IHgq2]|ptx].
Qed.
Lemma atts_nest M : forall st0 S T, atts (st0 ++ S) M T -> nest (fcs st0) (map fst M) = Some [] -> T = add (plain_text src M) S.
Proof.
  induction M as [|[e sp] M IH]; intros st0 S T H Hn.
  - cbn in Hn. destruct st0; [|discriminate]. cbn [plain_text flat_map]. rewrite PInl2.add_nil. inversion H; auto.
  - remember (st0 ++ S) as K eqn:EK. inversion H; subst.
    + rewrite pt_cons, <- PInl2.add_add. apply (IH (add (text_of src e sp) st0)); [rewrite <- PInl2.add_app; auto|]. rewrite fcs_add. destruct e; try discriminate; exact Hn.
    + rewrite pt_cons, <- PInl2.add_add. cbn [text_of]. rewrite PInl2.add_nil. apply (IH ((c, a, bopen c (slice src sp)) :: st0)); auto.
    + rewrite pt_cons, <- PInl2.add_add. cbn [text_of]. rewrite PInl2.add_nil. cbn [map fst nest] in Hn. destruct st0 as [|[[c0 a0] x0] st0]; [discriminate|]. match goal with X : (_, _) :: _ = _ |- _ => cbn [app] in X; injection X as <- <- <- -> end.
      cbn [fcs map fst] in Hn. destruct (container_eq_dec c c); [|congruence]. apply (IH st0); auto.
Qed.
End Match.
Lemma defs_of src evs l u a : utf8 src -> parse_spans src = Ok evs -> List.In (l, (u, a)) (pp_defs (pre_of src)) -> written src a.
Proof.
  intros Hu E. destruct (doc_ok src (utf8_wfb _ Hu)) as [(bl & D & H & hd & O & HD)|(m & E' & _)]; [|congruence].
  destruct (d_new _ _ _ _ _ _ HD) as (s & En). unfold pre_of. rewrite En. apply (d_defs _ _ _ _ _ _ HD).
Qed.
Lemma no_nl_ticks d n : Forall (fun c => c = "$"%char) d -> ~ List.In NL (d ++ repeat "`"%char n).
Proof.
  intros Hd Hin. apply in_app_iff in Hin. destruct Hin as [Hin|Hin]; [rewrite Forall_forall in Hd; specialize (Hd _ Hin)|apply repeat_spec in Hin]; discriminate.
Qed.
Lemma no_nl_opens c o : verb_box c = true -> opens_with c o -> ~ List.In NL o.
Proof.
  assert (Ht : forall d t, (forall c, List.In c d -> c = "$"%char) -> ticks t -> ~ List.In NL (d ++ t)).
  { intros d t Hd [_ H] Hin. apply in_app_iff in Hin. rewrite Forall_forall in H. destruct Hin as [Hin|Hin]; [specialize (Hd _ Hin)|specialize (H _ Hin)]; discriminate. }
  destruct c; try discriminate; intros _ H; cbn [opens_with] in H.
  - apply (Ht [] o); [intros ? []|exact H].
  - destruct display; destruct H as (t & -> & H); apply Ht; auto; cbn; intros c; intuition congruence.
  - destruct H as (d & t & -> & H1 & H2). apply Ht; auto. destruct H1 as [-> | [-> | ->]]; cbn; intros c; intuition congruence.
Qed.
Lemma cut_nl (a b x y : bytes) : ~ List.In NL a -> ~ List.In NL b -> a ++ NL :: x = b ++ NL :: y -> a = b /\ x = y.
Proof.
  revert b. induction a as [|c a IH]; intros [|d b] Ha Hb H; cbn in H; injection H; intros; subst.
  - auto.
  - exfalso. apply Hb. left. reflexivity.
  - exfalso. apply Ha. left. reflexivity.
  - destruct (IH b) as [-> ->]; auto; intros X; [apply Ha|apply Hb]; right; exact X.
Qed.
(** The condition on the end event, with the text of its start event. *)
Lemma end_open src pp c a o M sp : opens_with c o -> end_ok src pp c a (bopen c o ++ M) sp ->
  exists l da wa, a = da ++ wa /\ ends src c l o M wa sp /\ target pp c l da.
Proof.
  intros Ho (l & da & wa & o1 & t & Hx & Ha & (m & E1 & E2 & E3 & E4 & E5) & Ht). exists l, da, wa. split; [exact Ha|]. split; [|exact Ht].
  exists m. split; [exact E1|]. split; [exact E2|]. split; [exact E3|]. split; [|exact E5]. unfold bopen in Hx. destruct (verb_box c) eqn:Ev.
  - assert (Hn : ~ List.In NL o1).
    { destruct c; try discriminate Ev; cbn [paired] in E4; destruct E4 as (d & n & _ & -> & Hd & _); apply no_nl_ticks; exact Hd. }
    rewrite <- !app_assoc in Hx. destruct (cut_nl _ _ _ _ (no_nl_opens _ _ Ev Ho) Hn Hx) as [-> ->]. exact E4.
  - cbn [app] in Hx. subst t. destruct c; try discriminate Ev; exact E4.
Qed.
Lemma matching src evs A c a sp M sp' Z : utf8 src -> parse_spans src = Ok evs -> evs = A ++ (Start c a, sp) :: M ++ (End_ c, sp') :: Z ->
  nest [] (map fst M) = Some [] -> inline_box c = true ->
  exists l da wa, a = da ++ wa /\ ends src c l (slice src sp) (plain_text src M) wa sp' /\ target (pre_of src) c l da.
Proof.
  intros Hu E He Hn Hi. assert (Ho : opens_with c (slice src sp)).
  { assert (Hin : List.In (Start c a, sp) evs) by (rewrite He; apply in_app_iff; right; left; reflexivity). apply (ev_src _ _ _ _ Hu E Hin). }
  subst evs. pose proof (gq_atts _ _ _ _ _ _ _ (spans_ok _ _ Hu E) []) as H.
  apply atts_split in H. destruct H as (s1 & _ & H). inversion H as [| |? ? ? ? ? ? H1|]; subst; [discriminate|].
  apply atts_split in H1. destruct H1 as (s2 & H1 & H2). pose proof (atts_nest _ _ _ [] _ _ H1 Hn) as ->.
  cbn [PInl2.add map fst snd app] in H2. inversion H2; subst; [discriminate|]. apply end_open; auto.
Qed.

(** ** C39: the range of every event is the text that stands for it *)
Theorem C39_spelled : forall src evs e sp, utf8 src -> parse_spans src = Ok evs -> List.In (e, sp) evs -> spelled src e (slice src sp).
Proof. intros src evs e sp Hu E Hin. apply (ev_src _ _ _ _ Hu E Hin). Qed.

(** An automatic link goes to the text between its [<] and [>], which has an [@] (a mail address) or else a colon. *)
Theorem C39_autolink : forall src evs A d k a sp M sp' Z, utf8 src -> parse_spans src = Ok evs ->
  evs = A ++ (Start (Link d k) a, sp) :: M ++ (End_ (Link d k), sp') :: Z -> nest [] (map fst M) = Some [] -> k = LAutoLink \/ k = LEmail ->
  exists p, p + 1 + length d = ss sp' /\ slice src (Sp p (se sp')) = B "<" ++ d ++ B ">" /\
    (k = LEmail <-> List.In "@"%char d) /\ (k = LAutoLink -> List.In ":"%char d).
Proof.
  intros src evs A d k a sp M sp' Z Hu E He Hn Hk. assert (Hi : inline_box (Link d k) = true) by (destruct Hk; subst k; reflexivity).
  destruct (matching _ _ _ _ _ _ _ _ _ Hu E He Hn Hi) as (l & da & wa & _ & (m & H1 & H2 & H3 & _ & H4 & H5) & _).
  assert (Hm : m = se sp') by (destruct H5 as [(X & _)|(X & _)]; [exact X|destruct Hk; subst k; discriminate X]). subst m. rewrite PInl1.span_eta in H3.
  assert (Hx : slice src sp' = B ">" /\ (k = LEmail <-> List.In "@"%char d) /\ (k = LAutoLink -> List.In ":"%char d)).
  { destruct Hk; subst k; cbn [closer] in H3; [destruct H3 as (X1 & X2 & X3)|destruct H3 as (X1 & X2)]; (split; [exact X1|]); (split; [split; intros; auto; try discriminate; tauto|intros; auto; discriminate]). }
  destruct Hx as (Hx1 & Hx2). assert (Ha : exists p, p + 1 + length d = ss sp' /\ slice src (Sp p (ss sp')) = B "<" ++ d) by (destruct Hk; subst k; exact H4).
  destruct Ha as (p & Hp & Ha). exists p. split; [exact Hp|]. split; [|exact Hx2].
  rewrite <- (slice_app src p (ss sp')) by lia. rewrite Ha, PInl1.span_eta, Hx1, <- app_assoc. reflexivity.
Qed.
(** Verbatim text, math and raw text end with as many backticks as they began with, or else at the end of the block. *)
Theorem C39_fences : forall src evs A c a sp M sp' Z, utf8 src -> parse_spans src = Ok evs ->
  evs = A ++ (Start c a, sp) :: M ++ (End_ c, sp') :: Z -> nest [] (map fst M) = Some [] -> c = Verbatim \/ (exists b, c = Math b) \/ (exists f, c = RawInline f) ->
  exists d n x r, 1 <= n /\ slice src sp = d ++ repeat "`"%char n /\ Forall (fun b => b = "$"%char) d /\
    slice src sp' = x ++ r /\ (r = [] \/ braced r) /\ closer src c x /\
    (x = [] \/ exists y, x = repeat "`"%char n ++ y /\ hd_error y <> Some "`"%char).
Proof.
  intros src evs A c a sp M sp' Z Hu E He Hn Hc. assert (Hi : inline_box c = true) by (destruct Hc as [-> |[[b ->]|[f ->]]]; reflexivity).
  destruct (matching _ _ _ _ _ _ _ _ _ Hu E He Hn Hi) as (l & da & wa & _ & (m & H1 & H2 & H3 & H4 & _ & H5) & _).
  assert (Hf : fenced_by (slice src sp) (slice src (Sp (ss sp') m))) by (destruct Hc as [-> |[[b ->]|[f ->]]]; exact H4).
  destruct Hf as (d & n & F1 & F2 & F3 & F4). exists d, n, (slice src (Sp (ss sp') m)), (slice src (Sp m (se sp'))).
  split; [exact F1|]. split; [exact F2|]. split; [exact F3|]. split; [rewrite slice_app by assumption; rewrite PInl1.span_eta; reflexivity|].
  split; [|split; [exact H3|exact F4]]. destruct H5 as [(-> & _)|(_ & _ & H5)]; [left; apply PInl1.slice_nil|right; exact H5].
Qed.
(** Verbatim text, math and raw text with two backticks, with attributes and a raw format. *)
Definition tick_src : bytes := nls [B "``a`b``{.k} $``c```d`` ``e``{=h} ``f`"].
Definition tick_evs : list (event * span) := Eval vm_compute in match parse_spans tick_src with Ok l => l | _ => [] end.
(** The [i]-th event opens [c] and the one after the next one closes it. *)
Definition tick_box (i : nat) (c : container) (a : attrs) (sp sp' : span) : Prop :=
  exists M, tick_evs = firstn i tick_evs ++ (Start c a, sp) :: M ++ (End_ c, sp') :: skipn (i + 3) tick_evs /\ nest [] (map fst M) = Some [] /\ M <> [].
Example C39_fences_ex : utf8 tick_src /\ parse_spans tick_src = Ok tick_evs /\
  tick_box 2 Verbatim [(KClass, B "k")] (Sp 0 2) (Sp 5 11) /\ tick_box 6 (Math false) [] (Sp 12 15) (Sp 20 22) /\
  tick_box 10 (RawInline (B "h")) [] (Sp 23 25) (Sp 26 32) /\ tick_box 14 Verbatim [] (Sp 33 35) (Sp 37 37).
Proof.
  split; [unfold tick_src, nls; cbn; repeat first [apply u_nil | apply u_1; [vm_compute; split; discriminate|] ]|]. split; [vm_compute; reflexivity|].
  split; [|split; [|split]]; (eexists [_]; split; [vm_compute; reflexivity|split; [vm_compute; reflexivity|discriminate]]).
Qed.
(** ** C35: attributes are written in the source *)
(** Every event: its attributes are those of attribute sets of the source, one after the other. *)
Theorem C35_written : forall src evs e sp, utf8 src -> parse_spans src = Ok evs -> List.In (e, sp) evs -> written src (event_attrs e).
Proof. intros src evs e sp Hu E Hin. apply (ev_src _ _ _ _ Hu E Hin). Qed.
(** An inline container has the attributes that are written at the end of the range of its end event, directly after
    its closing delimiter; if it is a resolved reference, those of the link definition come first. *)
Theorem C35_attached : forall src evs A c a sp M sp' Z, utf8 src -> parse_spans src = Ok evs ->
  evs = A ++ (Start c a, sp) :: M ++ (End_ c, sp') :: Z -> nest [] (map fst M) = Some [] -> inline_box c = true ->
  exists l da wa, a = da ++ wa /\ ends src c l (slice src sp) (plain_text src M) wa sp' /\ written src da /\ (resolved c = false -> da = []).
Proof.
  intros src evs A c a sp M sp' Z Hu E He Hn Hi. destruct (matching _ _ _ _ _ _ _ _ _ Hu E He Hn Hi) as (l & da & wa & H1 & H2 & H3).
  exists l, da, wa. split; [auto|]. split; [auto|].
  assert (Hr : forall u t d, resolve (pre_of src) l = (u, t, d) -> written src d /\ (t <> LReference -> d = [])).
  { intros u t d Hd. unfold resolve in Hd. destruct (lookup_def _ _) as [[u' a']|] eqn:El.
    - injection Hd as <- <- <-. split; [|congruence]. apply lookup_def_in in El. destruct El as (lb & El). exact (defs_of _ _ _ _ _ Hu E El).
    - destruct (heading_id_by_tag _ _); injection Hd as <- <- <-; (split; [constructor|auto]). }
  destruct c; cbn [target] in H3; try (subst da; split; [constructor|auto]); try discriminate Hi.
  - destruct ty as [t| | ]; [destruct t|..]; try (subst da; split; [constructor|auto]; fail); destruct (Hr _ _ _ H3) as [W1 W2]; (split; [exact W1|]); cbn [resolved]; try discriminate; intros _; apply W2; discriminate.
  - destruct ty; try (subst da; split; [constructor|auto]; fail); destruct (Hr _ _ _ H3) as [W1 W2]; (split; [exact W1|]); cbn [resolved]; try discriminate; intros _; apply W2; discriminate.
Qed.
(** The same without the end event. *)
Theorem C35_one_range : forall src evs c a sp, utf8 src -> parse_spans src = Ok evs -> List.In (Start c a, sp) evs -> inline_box c = true ->
  exists da wa, a = da ++ wa /\ written src da /\ (resolved c = false -> da = []) /\
    (wa = [] \/ exists asp, set_on src asp wa /\ braced (slice src asp)).
Proof.
  intros src evs c a sp Hu E Hin Hc. destruct (ev_src _ _ _ _ Hu E Hin) as (_ & _ & H). destruct (H Hc) as (da & wa & H1 & H2 & H3 & H4).
  exists da, wa. repeat (split; [assumption|]). destruct H4 as [H4|(asp & _ & H5 & H6)]; eauto.
Qed.

(** Both hypotheses are met, by a document with attributes on several lines. *)
Definition src_doc : bytes := nls [ B "*a*{.b #c}d{k=v} `v`{.w} $`m` {=x=} <http://u> [t](u){.l} ![i][r]{.j"; B ".k} :s: [^n] 'q'--"; []; B "{.d}"; B "[r]: /u" ].
Definition src_evs : list (event * span) := match parse_spans src_doc with Ok l => l | _ => [] end.
Lemma src_utf8 : utf8 src_doc.
Proof. unfold src_doc, nls. cbn. repeat first [apply u_nil | apply u_1; [vm_compute; split; discriminate|] ]. Qed.
Lemma src_parse : parse_spans src_doc = Ok src_evs.
Proof. unfold src_evs. destruct (parse_spans src_doc) eqn:E; [reflexivity|exfalso; revert E; vm_compute; discriminate..]. Qed.
(** The text at the ranges of the start and end events. *)
Definition texts (src : bytes) (l : list (event * span)) : list (event * bytes) :=
  filter (fun x => match fst x with Start _ _ | End_ _ => true | _ => false end) (map (fun x => (fst x, slice src (snd x))) l).
Example C39_ex : utf8 src_doc /\ parse_spans src_doc = Ok src_evs /\
  List.In (Start Strong [(KClass, B "b"); (KId, B "c")], B "*") (texts src_doc src_evs) /\
  List.In (End_ Strong, B "*{.b #c}") (texts src_doc src_evs) /\
  List.In (Start (Image (B "/u") LReference) [(KClass, B "d"); (KClass, B "j"); (KClass, B "k")], B "![") (texts src_doc src_evs) /\
  List.In (End_ (Image (B "/u") LReference), B "][r]{.j" ++ [NL] ++ B ".k}") (texts src_doc src_evs).
Proof.
  split; [apply src_utf8|]. split; [apply src_parse|].
  vm_compute. split; [|split; [|split]]; repeat (first [left; reflexivity | right]).
Qed.

Definition auto_src : bytes := nls [B "a <mailto:b@c> <x:y>{.k}"].
Definition auto_evs : list (event * span) := Eval vm_compute in match parse_spans auto_src with Ok l => l | _ => [] end.
Example C39_autolink_ex : parse_spans auto_src = Ok auto_evs /\
  (exists A M Z sp sp', auto_evs = A ++ (Start (Link (B "mailto:b@c") LEmail) [], sp) :: M ++ (End_ (Link (B "mailto:b@c") LEmail), sp') :: Z /\ nest [] (map fst M) = Some [] /\ M <> []) /\
  (exists A M Z sp sp', auto_evs = A ++ (Start (Link (B "x:y") LAutoLink) [], sp) :: M ++ (End_ (Link (B "x:y") LAutoLink), sp') :: Z /\ nest [] (map fst M) = Some [] /\ M <> []).
Proof.
  split; [vm_compute; reflexivity|]. split.
  - exists (firstn 3 auto_evs), (firstn 1 (skipn 4 auto_evs)), (skipn 6 auto_evs), (Sp 2 3), (Sp 13 14). vm_compute. split; [reflexivity|]. split; [reflexivity|discriminate].
  - exists (firstn 7 auto_evs), (firstn 1 (skipn 8 auto_evs)), (skipn 10 auto_evs), (Sp 15 16), (Sp 19 20). vm_compute. split; [reflexivity|]. split; [reflexivity|discriminate].
Qed.

(** The image of [src_doc]: its events stand between a start and an end event, the attributes after it are on two
    lines, and those of its definition come first. *)
Example C35_ex : exists A M Z sp sp', src_evs = A ++ (Start (Image (B "/u") LReference) [(KClass, B "d"); (KClass, B "j"); (KClass, B "k")], sp) :: M ++ (End_ (Image (B "/u") LReference), sp') :: Z /\
  nest [] (map fst M) = Some [] /\ M <> [] /\ slice src_doc sp' = B "][r]{.j" ++ [NL] ++ B ".k}".
Proof.
  exists (firstn 29 src_evs), [nth 30 src_evs (Blankline, Sp 0 0)], (skipn 32 src_evs), (snd (nth 29 src_evs (Blankline, Sp 0 0))), (snd (nth 31 src_evs (Blankline, Sp 0 0))).
  split; [vm_compute; reflexivity|]. split; [vm_compute; reflexivity|]. split; [discriminate|vm_compute; reflexivity].
Qed.

(** *** What one would expect, and does not hold *)
(** A link or span need not open with a bracket alone: in [\[^a\[b\]\](c)] the caret is swallowed. *)
Theorem C39_bracket_refuted : ~ (forall src evs d k a sp, utf8 src -> parse_spans src = Ok evs -> List.In (Start (Link d (LSpan k)) a, sp) evs -> slice src sp = B "[").
Proof.
  intros H. set (src := nls [B "[^a[b]](c)"]). assert (Hu : utf8 src) by (unfold src, nls; cbn; repeat first [apply u_nil | apply u_1; [vm_compute; split; discriminate|] ]).
  destruct (parse_spans src) as [evs| |] eqn:E; [|exfalso; revert E; vm_compute; discriminate..].
  specialize (H src evs (B "c") LInline [] (Sp 0 2) Hu E). revert E. vm_compute in H |- *. intros E. injection E as <-.
  assert (H0 := H ltac:(repeat (first [left; reflexivity | right]))). discriminate H0.
Qed.
(** A left quote mark forced by a brace is reported as a right one if it is not closed. *)
Theorem C39_quote_refuted : ~ (forall src evs sp, utf8 src -> parse_spans src = Ok evs -> List.In (RightSingleQuote, sp) evs -> slice src sp <> B "{'").
Proof.
  intros H. set (src := nls [B "{'a"]). assert (Hu : utf8 src) by (unfold src, nls; cbn; repeat first [apply u_nil | apply u_1; [vm_compute; split; discriminate|] ]).
  destruct (parse_spans src) as [evs| |] eqn:E; [|exfalso; revert E; vm_compute; discriminate..].
  specialize (H src evs (Sp 0 2) Hu E). revert E. vm_compute in H |- *. intros E. injection E as <-.
  apply H; [|reflexivity]. repeat (first [left; reflexivity | right]).
Qed.
(** Raw inline text after a dollar sign: the dollar sign is lost. *)
Theorem C39_raw_refuted : ~ (forall src evs f a sp, utf8 src -> parse_spans src = Ok evs -> List.In (Start (RawInline f) a, sp) evs -> ticks (slice src sp)).
Proof.
  intros H. set (src := nls [B "$`a`{=html}"]). assert (Hu : utf8 src) by (unfold src, nls; cbn; repeat first [apply u_nil | apply u_1; [vm_compute; split; discriminate|] ]).
  destruct (parse_spans src) as [evs| |] eqn:E; [|exfalso; revert E; vm_compute; discriminate..].
  specialize (H src evs (B "html") [] (Sp 0 2) Hu E). revert E. vm_compute in H |- *. intros E. injection E as <-.
  assert (H0 := H ltac:(repeat (first [left; reflexivity | right]))). destruct H0 as [_ H0]. inversion H0; subst. discriminate.
Qed.
(** One would expect that the text has no run of as many backticks.  This fails over several lines: after the first line
    break the lexer takes a backslash for an escape, so the backtick after it is text. *)
Theorem C39_content_refuted : ~ (forall src evs A a sp t sp1 sp' Z, utf8 src -> parse_spans src = Ok evs ->
  evs = A ++ [(Start Verbatim a, sp); (Str t, sp1); (End_ Verbatim, sp')] ++ Z -> slice src sp = B "`" -> ~ List.In "`"%char t).
Proof.
  intros H. set (src := nls [B "`a"; B "\`b` c"]). assert (Hu : utf8 src) by (unfold src, nls; cbn; repeat first [apply u_nil | apply u_1; [vm_compute; split; discriminate|] ]).
  destruct (parse_spans src) as [evs| |] eqn:E; [|exfalso; revert E; vm_compute; discriminate..].
  specialize (H src evs (firstn 2 evs) [] (Sp 0 1) (B "a" ++ [NL] ++ B "\`b") (Sp 1 6) (Sp 6 7) (skipn 5 evs) Hu E).
  revert E. vm_compute in H |- *. intros E. injection E as <-. cbn [firstn skipn app] in H.
  specialize (H eq_refl eq_refl). apply H. do 3 right. left. reflexivity.
Qed.
(** Attribute sets in a destination that takes several lines are repeated: it is longer than its source. *)
Theorem C39_destination_refuted : ~ (forall src evs d sp m, utf8 src -> parse_spans src = Ok evs -> List.In (End_ (Link d (LSpan LInline)), sp) evs ->
  slice src sp = B "](" ++ m ++ B ")" -> length d <= length m).
Proof.
  intros H. set (src := nls [B "[a](b{.x}"; B "c)"]). assert (Hu : utf8 src) by (unfold src, nls; cbn; repeat first [apply u_nil | apply u_1; [vm_compute; split; discriminate|] ]).
  destruct (parse_spans src) as [evs| |] eqn:E; [|exfalso; revert E; vm_compute; discriminate..].
  specialize (H src evs (B "b{.x}{.x}c") (Sp 2 12) (B "b{.x}" ++ [NL] ++ B "c") Hu E).
  assert (Hi : List.In (End_ (Link (B "b{.x}{.x}c") (LSpan LInline)), Sp 2 12) evs).
  { clear H. revert E. vm_compute. intros E. injection E as <-. repeat (first [left; reflexivity | right]). }
  specialize (H Hi eq_refl). revert H. cbn. lia.
Qed.
(** And in a label. *)
Theorem C13_label_refuted : ~ (forall src evs d sp m, utf8 src -> parse_spans src = Ok evs -> List.In (End_ (Link d (LSpan LUnresolved)), sp) evs ->
  slice src sp = B "][" ++ m ++ B "]" -> m <> [] -> length d <= length m).
Proof.
  intros H. set (src := nls [B "[a][b{.x}"; B "c]"]). assert (Hu : utf8 src) by (unfold src, nls; cbn; repeat first [apply u_nil | apply u_1; [vm_compute; split; discriminate|] ]).
  destruct (parse_spans src) as [evs| |] eqn:E; [|exfalso; revert E; vm_compute; discriminate..].
  specialize (H src evs (B "b{.x} {.x} c") (Sp 2 12) (B "b{.x}" ++ [NL] ++ B "c") Hu E).
  assert (Hi : List.In (End_ (Link (B "b{.x} {.x} c") (LSpan LUnresolved)), Sp 2 12) evs).
  { clear H. revert E. vm_compute. intros E. injection E as <-. repeat (first [left; reflexivity | right]). }
  specialize (H Hi eq_refl ltac:(discriminate)). revert H. cbn. lia.
Qed.

Definition PropsSrc_all := (@C39_spelled, @C39_ex, @C39_autolink, @C39_autolink_ex, @C39_fences, @C39_fences_ex, @C39_content_refuted, @C35_written, @C35_attached, @C35_ex, @C35_one_range, @C39_bracket_refuted, @C39_quote_refuted, @C39_raw_refuted, @C39_destination_refuted, @C13_label_refuted).
Print Assumptions PropsSrc_all.
