(** * PropsRefs: heading ids (C12) and references (C13) in whole documents *)
From Verif Require Import Base Lex Attr Block Inline Doc Lib SpecAttr SpecDoc PAttr PSafe PBlock2 PIds PropsIds PropsAttr PDoc3 PDoc4 PDoc5 PDoc6 PDoc7 PropsDoc SpecSrc PDoc2 PropsSrc.
From Coq Require Import Sorting.Sorted.
Local Open Scope nat_scope.

Fixpoint m_heads {A} (L : list (mark A)) : list (A * attrs) := match L with [] => [] | MHead p a :: r => (p, a) :: m_heads r | MDef _ _ _ :: r => m_heads r end.
Fixpoint m_defs {A} (L : list (mark A)) : list (bytes * (bytes * attrs)) := match L with [] => [] | MHead _ _ :: r => m_defs r | MDef l u a :: r => (l, (u, a)) :: m_defs r end.
Lemma m_heads_app {A} (a b : list (mark A)) : m_heads (a ++ b) = m_heads a ++ m_heads b.
Proof. induction a as [|[] a IH]; cbn; auto. rewrite IH. auto. Qed.
Lemma m_defs_app {A} (a b : list (mark A)) : m_defs (a ++ b) = m_defs a ++ m_defs b.
Proof. induction a as [|[] a IH]; cbn; auto. rewrite IH. auto. Qed.
Lemma lead_text O : lead O = leading_text (map fst O).
Proof. induction O as [|[e sp] O IH]; [auto|]. cbn. destruct e; auto. rewrite IH. auto. Qed.
Lemma spec_heads O : heading_starts (map fst O) = m_heads (hstarts O).
Proof.
  induction O as [|[e sp] O IH]; [auto|]. cbn [map fst hstarts]. rewrite m_heads_app, <- IH. destruct e; auto. destruct c; auto. destruct has_section; auto.
Qed.
Lemma spec_defs O : definitions (map fst O) = m_defs (hstarts O).
Proof.
  induction O as [|[e sp] O IH]; [auto|]. cbn [map fst hstarts]. rewrite m_defs_app, <- IH. destruct e; auto. destruct c; auto.
  - destruct has_section; auto.
  - cbn. unfold lead_url. rewrite lead_text. auto.
Qed.
Lemma hmap_heads pp L : m_heads (hmap pp L) = map (fun x => (hid pp (fst x), snd x)) (m_heads L).
Proof. induction L as [|[] L IH]; cbn; auto. rewrite <- IH. auto. Qed.
Lemma hmap_defs pp L : m_defs (hmap pp L) = m_defs L.
Proof. induction L as [|[] L IH]; cbn; auto. rewrite <- IH. auto. Qed.
Lemma corr_heads L D H : corr L D H -> Forall2 (fun x y => fst x = fst y /\ exists pre, snd y = pre ++ snd x) (m_heads L) H.
Proof. induction 1; cbn; auto. constructor; cbn; eauto. Qed.
Definition same_def (x y : bytes * (bytes * attrs)) : Prop := fst x = fst y /\ fst (snd x) = fst (snd y) /\ exists pre, snd (snd y) = pre ++ snd (snd x).
Lemma corr_defs L D H : corr L D H -> Forall2 same_def (m_defs L) D.
Proof. induction 1; cbn; auto. constructor; unfold same_def; cbn; eauto. Qed.
Lemma F2_impl {A B} (R S : A -> B -> Prop) l l' : (forall x y, R x y -> S x y) -> Forall2 R l l' -> Forall2 S l l'.
Proof. intros H. induction 1; constructor; auto. Qed.
Lemma F2_map {A B C} (R : A -> B -> Prop) (S : C -> B -> Prop) (f : A -> C) l l' : Forall2 R l l' -> (forall x y, R x y -> S (f x) y) -> Forall2 S (map f l) l'.
Proof. intros H HS. induction H; cbn; constructor; auto. Qed.
Lemma Forall2_in_l {A B} (R : A -> B -> Prop) l l' : Forall2 R l l' -> Forall2 (fun x y => R x y /\ List.In x l /\ List.In y l') l l'.
Proof.
  induction 1 as [|x y l l' H1 H2 IH]; constructor; [cbn; auto|]. eapply F2_impl; [|exact IH]. cbn. intros a b (? & ? & ?). auto.
Qed.
Lemma Forall2_comp {A B C} (R : A -> B -> Prop) (S : C -> B -> Prop) l l' l'' : Forall2 R l l' -> Forall2 S l'' l' -> Forall2 (fun x z => exists y, R x y /\ S z y) l l''.
Proof. intros H. revert l''. induction H; intros l'' H2; inversion H2; subst; constructor; eauto. Qed.

Lemma values_app p a k : values_of (p ++ a) k = values_of p k ++ values_of a k.
Proof. unfold values_of. rewrite filter_app, map_app. reflexivity. Qed.
Lemma get_id a : get_value a (B "id") = match values_of a (B "id") with [] => None | vs => Some (last vs []) end.
Proof. rewrite C17_get_value. destruct (list_eq_dec ascii_dec (B "id") (B "class")); [discriminate|]. reflexivity. Qed.
Lemma last_in {A} (d : A) l : l <> [] -> List.In (last l d) l.
Proof. intros H. destruct (exists_last H) as (l' & x & ->). rewrite last_last. apply in_or_app. right. left. auto. Qed.
Lemma last_app {A} (d : A) l l' : l' <> [] -> last (l ++ l') d = last l' d.
Proof. intros H. destruct (exists_last H) as (l1 & x & ->). rewrite app_assoc, !last_last. reflexivity. Qed.
Lemma get_id_app pre a v : get_value a (B "id") = Some v -> get_value (pre ++ a) (B "id") = Some v.
Proof.
  rewrite !get_id, values_app. destruct (values_of a (B "id")) as [|x r] eqn:E; [discriminate|]. intros H.
  assert (v = last (x :: r) []) as -> by congruence. destruct (values_of pre (B "id") ++ x :: r) eqn:E2; [destruct (values_of pre (B "id")); discriminate|]. f_equal. rewrite <- E2. apply last_app. discriminate.
Qed.
Lemma get_id_in a v : get_value a (B "id") = Some v -> List.In v (values_of a (B "id")).
Proof. rewrite get_id. destruct (values_of a (B "id")) as [|x r] eqn:E; [discriminate|]. intros H. assert (v = last (x :: r) []) as -> by congruence. apply last_in. discriminate. Qed.
Lemma values_incl a b k : incl a b -> incl (values_of a k) (values_of b k).
Proof.
  intros H x Hx. unfold values_of in *. apply in_map_iff in Hx. destruct Hx as (e & <- & He). apply filter_In in He. destruct He as [He1 He2].
  apply in_map. apply filter_In. auto.
Qed.
Lemma all_event_attrs O : allattrs O = flat_map event_attrs (map fst O).
Proof. induction O as [|[e sp] O IH]; [auto|]. cbn. rewrite <- IH. destruct e; reflexivity. Qed.

(** ** C12 *)
(** [heads] are the headings as found before any event is reported, with their automatic ids (all
    different, not empty: C11_unique). The n-th of them is the n-th section or sectionless heading of the
    events. If an id is attached to it, that is its id; otherwise it has its automatic id, or, against
    the specification (see [C12_automatic_refuted]), one that is attached to something else. *)
Definition id_ok (evs : list event) (x : bytes * attrs) (h : heading) : Prop :=
  fst x = heading_id h /\
  match get_value (snd x) (B "id") with
  | Some v => fst x = value_display v
  | None => fst x = h_auto h \/ exists v, List.In v (values_of (flat_map event_attrs evs) (B "id")) /\ fst x = value_display v
  end.
Definition max_len : N := 4294967296.
Lemma doc_heads src blocks D H heads O : Doc_ok src blocks D H heads O -> (N.of_nat (length src) <= max_len)%N ->
  Forall2 (id_ok (map fst O)) (heading_starts (map fst O)) heads /\ Forall2 same_def (definitions (map fst O)) D.
Proof.
  intros HD Hl. destruct (doc_corr _ _ _ _ (d_sq _ _ _ _ _ _ HD) (d_pre _ _ _ _ _ _ HD)) as [HC HS].
  destruct (hseq_bound _ _ _ HS Hl) as (Hss & _). pose proof (d_heads _ _ _ _ _ _ HD) as HH.
  assert (Hloc : map h_loc heads = map fst H) by (clear -HH; induction HH as [|x y l l' [E _] _ IH]; cbn; congruence).
  rewrite spec_heads, spec_defs, (d_starts _ _ _ _ _ _ HD), hmap_heads, hmap_defs. split; [|apply (corr_defs _ _ _ HC)].
  pose proof (corr_heads _ _ _ HC) as HF. destruct (Pre_incl _ _ _ _ _ (d_pre _ _ _ _ _ _ HD)) as [HI _]. cbn [flat_map app] in HI. rewrite Forall_forall in HI.
  pose proof (Forall2_comp _ _ _ _ _ (Forall2_in_l _ _ _ HF) (Forall2_in_l _ _ _ HH)) as HX.
  assert (G : forall x h, (exists y, ((fst x = fst y /\ exists pre, snd y = pre ++ snd x) /\ List.In x (m_heads (att src [] blocks)) /\ List.In y H) /\ head_of h y /\ List.In h heads /\ List.In y H) ->
    id_ok (map fst O) (hid (PP (rev D) heads (sort_heads heads)) (fst x), snd x) h).
  { intros x h (y & ((E1 & pre & E2) & _ & Hy) & (E3 & E4) & Hh & _). unfold id_ok. cbn [fst snd].
    assert (Ei : hid (PP (rev D) heads (sort_heads heads)) (fst x) = heading_id h).
    { unfold hid. rewrite E1. change (h_loc h = @fst N (list attr_elem) y) in E3. rewrite <- E3. rewrite by_location; auto. rewrite Hloc. exact Hss. }
    rewrite Ei. split; [auto|]. change (h_override h = option_map value_display (get_value (@snd N (list attr_elem) y) (B "id"))) in E4. unfold heading_id. rewrite E4, E2. destruct (get_value (snd x) (B "id")) as [v|] eqn:Ev.
    - rewrite (get_id_app pre _ _ Ev). reflexivity.
    - destruct (get_value (pre ++ snd x) (B "id")) as [v|] eqn:Ev2; [|left; reflexivity]. right. exists v. split; [|reflexivity].
      apply get_id_in in Ev2. rewrite <- E2 in Ev2. rewrite <- all_event_attrs. eapply values_incl; [|exact Ev2]. eapply incl_tran; [apply HI; exact Hy|].
      apply (d_attrs _ _ _ _ _ _ HD). }
  exact (F2_map _ _ _ _ _ HX G).
Qed.

Theorem C12_ids : forall src evs, utf8 src -> (N.of_nat (length src) <= max_len)%N -> parse src = Ok evs ->
  exists pp p, p_new src = Ok (pp, p) /\ Forall2 (id_ok evs) (heading_starts evs) (pp_heads pp).
Proof.
  intros src evs Hu Hl E. destruct (doc_ok src (utf8_wfb _ Hu)) as [(bl & D & H & hd & O & HD)|(m & E' & _)].
  - unfold parse in E. rewrite (d_spans _ _ _ _ _ _ HD) in E. injection E as <-. destruct (d_new _ _ _ _ _ _ HD) as [s En].
    eexists _, _. split; [exact En|]. apply (doc_heads _ _ _ _ _ _ HD Hl).
  - unfold parse in E. rewrite E' in E. discriminate.
Qed.
(** Without any id attribute in the document the ids are the automatic ones. *)
Corollary C12_automatic : forall src evs, utf8 src -> (N.of_nat (length src) <= max_len)%N -> parse src = Ok evs ->
  (forall e, List.In e evs -> values_of (event_attrs e) (B "id") = []) ->
  NoDup (map fst (heading_starts evs)) /\ ~ List.In [] (map fst (heading_starts evs)).
Proof.
  intros src evs Hu Hl E Hno. destruct (C12_ids _ _ Hu Hl E) as (pp & p & E1 & HF). destruct (C11_unique _ _ _ E1) as [H1 H2].
  assert (Hn : values_of (flat_map event_attrs evs) (B "id") = []).
  { clear -Hno. induction evs as [|e r IH]; [auto|]. cbn [flat_map]. rewrite values_app, (Hno e (or_introl eq_refl)), IH; auto. intros x Hx. apply Hno. right. auto. }
  assert (Hm : map fst (heading_starts evs) = map h_auto (pp_heads pp)).
  { assert (Hs : Forall (fun x => values_of (snd x) (B "id") = []) (heading_starts evs)).
    { clear -Hno. induction evs as [|e r IH]; [constructor|]. assert (IH' := IH (fun x Hx => Hno x (or_intror Hx))). pose proof (Hno e (or_introl eq_refl)) as He.
      destruct e; auto. destruct c; auto; try match goal with |- context [Heading _ ?b _] => destruct b end; cbn [heading_starts]; auto. }
    clear -HF Hn Hs. induction HF as [|x h l l' Hx _ IH]; [auto|]. inversion Hs; subst. cbn [map]. rewrite (IH ltac:(auto)). f_equal.
    destruct Hx as [_ Hx]. rewrite get_id, H1 in Hx. destruct Hx as [Hx|(v & Hv & _)]; [auto|]. rewrite Hn in Hv. contradiction. }
  rewrite Hm. auto.
Qed.
(** A section and the heading that opens it have the same id. *)
Lemma sections_agree a : forall open closed id at_ b, sections open closed (a ++ Start (Section_ id) at_ :: b) = true -> exists L r, b = Start (Heading L true id) [] :: r.
Proof.
  induction a as [a IH] using (well_founded_induction (Wf_nat.well_founded_ltof _ (@length event))). intros open closed id at_ b H.
  destruct a as [|e a]; cbn [app sections] in H.
  - destruct b as [|[] b]; try discriminate. destruct c; try discriminate. destruct has_section; try discriminate.
    apply andb_true_iff in H. destruct H as [H _]. apply andb_true_iff in H. destruct H as [H _]. apply andb_true_iff in H. destruct H as [H _]. apply andb_true_iff in H. destruct H as [H Ha].
    apply bytes_eqb_eq in H. subst. destruct a; [eauto|discriminate].
  - assert (IH1 := fun o c i t b' => IH a ltac:(unfold ltof; cbn; lia) o c i t b').
    assert (K : forall o c, (is_none c && sections o c (a ++ Start (Section_ id) at_ :: b))%bool = true -> exists L r, b = Start (Heading L true id) [] :: r).
    { intros o c HK. apply andb_true_iff in HK. destruct HK as [_ HK]. eapply IH1; eauto. }
    destruct e; try (eapply K; exact H); try (eapply IH1; exact H).
    + destruct c; try (eapply K; exact H).
      * destruct a as [|x a]; cbn [app] in H; [discriminate|]. destruct x; try discriminate. destruct c; try discriminate. destruct has_section; try discriminate.
        apply andb_true_iff in H. destruct H as [_ H]. eapply (IH a); [unfold ltof; cbn; lia|exact H].
      * destruct has_section; [discriminate|]. eapply K; exact H.
    + destruct c; try (eapply K; exact H); try (eapply IH1; exact H). destruct open; [discriminate|]. eapply IH1; exact H.
Qed.
Theorem C12_section_heading : forall src a id at_ b, utf8 src -> parse src = Ok (a ++ Start (Section_ id) at_ :: b) ->
  exists L r, b = Start (Heading L true id) [] :: r.
Proof. intros src a id at_ b Hu E. eapply sections_agree. eapply C14_sections; eauto. Qed.

(** ** C13: references in a document *)
(** The event [e], if it starts a reference link or image, has the destination, type and attributes that
    some label resolves to, followed by its own attributes. *)
Definition from_label (R : bytes -> bytes * span_link * attrs -> Prop) (e : event) : Prop :=
  match e with
  | Start (Link u (LSpan LReference)) a | Start (Image u LReference) a => exists label da a', R label (u, LReference, da) /\ a = da ++ a'
  | Start (Link u (LSpan LUnresolved)) a | Start (Image u LUnresolved) a => exists label da a', R label (u, LUnresolved, da) /\ a = da ++ a'
  | _ => True
  end.
Section Refs.
Variables (src : bytes) (pp : prepass).
Let ok (x : event * span) : Prop := from_label (fun l r => resolve pp l = r) (fst x).
Lemma ref_inline s e a r : inline_event src pp s e a = Ok r -> ok r.
Proof.
  unfold inline_event. destruct (ik e); intros H.
  1: { apply bind_ok in H. destruct H as ([t da] & H1 & H). injection H as <-. unfold ok. cbn [fst from_label]. unfold inline_container in H1.
    destruct c; try (injection H1 as <- <-; exact I); try (apply bind_ok in H1; destruct H1 as (u & _ & H1); try (injection H1 as <- <-; exact I)).
    1,2: destruct (resolve pp u) as [[u' ty] da'] eqn:Er; injection H1 as <- <-; destruct ty; try exact I; exists u, da', a; auto.
    destruct (existsb _ _); injection H1 as <- <-; exact I. }
  all: try discriminate; repeat match goal with
    | H : bind _ _ = Ok _ |- _ => apply bind_ok in H; destruct H as (? & _ & H)
    | x : (container * attrs)%type |- _ => destruct x
    end; injection H as <-; try exact I.
  match goal with |- ok (atom_event ?x, _) => destruct x as [| | | | | | | | |[] []] end; exact I.
Qed.
Lemma ref_p_inline p r p' : p_inline src pp p = Ok (Some r, p') -> ok r.
Proof.
  unfold p_inline. intros H. apply bind_ok in H. destruct H as ([o s] & _ & H). destruct o as [e|]; [|discriminate].
  destruct (ik e); try (apply bind_ok in H; destruct H as (x & H1 & H); injection H as <- <-; eapply ref_inline; eauto; fail).
  apply bind_ok in H. destruct H as ([o2 s2] & _ & H). apply bind_ok in H. destruct H as (a & _ & H). destruct o2 as [e2|]; [|discriminate].
  apply bind_ok in H; destruct H as (x & H1 & H); injection H as <- <-; eapply ref_inline; eauto.
Qed.
Lemma ref_node p n en c p' : node_container pp p n en = Ok (c, p') -> forall a, from_label (fun l r => resolve pp l = r) (Start c a).
Proof.
  unfold node_container, leaf_container, block_container. intros H a. destruct n as [[]|[]];
    repeat match goal with
    | H : bind _ _ = Ok _ |- _ => apply bind_ok in H; destruct H as (? & _ & H)
    | H : match ?x with _ => _ end = Ok _ |- _ => destruct x
    | H : Ok _ = Ok _ |- _ => injection H as <- <-
    end; try exact I.
  destruct language as [|c0 ?]; [exact I|]. destruct (beq c0 "="); exact I.
Qed.
Lemma ref_p_block f : forall p r p', p_block f src pp p = Ok (Some r, p') -> ok r.
Proof.
  induction f as [|f IH]; intros p r p' H; [discriminate|]. cbn [p_block] in H. apply bind_ok in H. destruct H as (st & Hs & H). destruct st as [e sp q|q|q|].
  - injection H as <- <-. unfold block_step in Hs. destruct (p_blocks p) as [|[k bsp] bl]; [discriminate|].
    destruct k as [n| |n|a|]; repeat match goal with
    | H : bind _ _ = Ok _ |- _ => apply bind_ok in H; destruct H as (? & ? & H)
    | x : container * pstate |- _ => destruct x
    | H : (let (_, _) := ?x in _) = Ok _ |- _ => destruct x
    | H : Ok _ = Ok _ |- _ => injection H as H
    | H : (if ?x then _ else _) = _ |- _ => destruct x
    | H : match ?x with _ => _ end = _ |- _ => destruct x
    | H : SEmit _ _ _ = SEmit _ _ _ |- _ => injection H as <- <- <-
    end; try discriminate; try exact I.
    all: subst; try exact I; unfold ok; cbn [fst]; eapply ref_node; eauto.
  - eapply IH; eauto.
  - apply bind_ok in H. destruct H as ([o q'] & H1 & H). destruct o; [injection H as <- <-; eapply ref_p_inline; eauto|eapply IH; eauto].
  - injection H as H. destruct (p_battr p) as [[a sp]|]; [injection H as <- <-; exact I|discriminate].
Qed.
Lemma ref_all f : forall p O, p_all f src pp p = Ok O -> Forall ok O.
Proof.
  induction f as [|f IH]; intros p O H; [discriminate|]. cbn [p_all] in H. apply bind_ok in H. destruct H as ([o q] & H1 & H).
  destruct o as [r|]; [|injection H as <-; constructor]. apply bind_ok in H. destruct H as (rest & H2 & H). injection H as <-. constructor; [|eapply IH; eauto].
  unfold next_span in H1. apply bind_ok in H1. destruct H1 as ([o2 q2] & H3 & H1). destruct o2; [injection H1 as <- <-; eapply ref_p_inline; eauto|eapply ref_p_block; eauto].
Qed.
End Refs.
(** [D]: the link definitions of the events, with the same labels and URLs, in the same order; their
    attributes may come with others in front (see [C13_attributes_refuted]). [heads]: the headings,
    related to the events by [id_ok]. *)
Theorem C13_references : forall src evs, utf8 src -> (N.of_nat (length src) <= max_len)%N -> parse src = Ok evs ->
  exists D pp p, p_new src = Ok (pp, p) /\ Forall2 same_def (definitions evs) D /\ Forall2 (id_ok evs) (heading_starts evs) (pp_heads pp) /\
    Forall (from_label (resolves D (pp_heads pp))) evs.
Proof.
  intros src evs Hu Hl E. destruct (doc_ok src (utf8_wfb _ Hu)) as [(bl & D & H & hd & O & HD)|(m & E' & _)].
  2: { unfold parse in E. rewrite E' in E. discriminate. }
  unfold parse in E. rewrite (d_spans _ _ _ _ _ _ HD) in E. injection E as <-. destruct (d_new _ _ _ _ _ _ HD) as [s En].
  destruct (doc_heads _ _ _ _ _ _ HD Hl) as [H1 H2]. exists D. eexists _, _. split; [exact En|]. split; [exact H2|]. split; [exact H1|].
  pose proof (d_spans _ _ _ _ _ _ HD) as Es. unfold parse_spans in Es. rewrite En in Es. cbn [bind] in Es. apply ref_all in Es. cbn [pp_heads].
  clear -Es. induction Es as [|x O Hx _ IH]; cbn [map]; constructor; [|exact IH]. clear IH. destruct x as [e sp]. cbn [fst] in *.
  assert (Hr : forall label u t da, resolve (PP (rev D) hd (sort_heads hd)) label = (u, t, da) -> resolves D hd label (u, t, da)) by (intros label u t da <-; apply C13_resolve).
  destruct e; try exact I. destruct c; try exact I.
  - destruct ty as [t| | ]; try exact I. destruct t; try exact I; destruct Hx as (l & da & a' & H1 & H2); exists l, da, a'; auto.
  - destruct ty; try exact I; destruct Hx as (l & da & a' & H1 & H2); exists l, da, a'; auto.
Qed.
(** The destination and type of a reference link or image. *)
Definition reference (c : container) : option (bytes * span_link) :=
  match c with
  | Link u (LSpan LReference) | Image u LReference => Some (u, LReference)
  | Link u (LSpan LUnresolved) | Image u LUnresolved => Some (u, LUnresolved)
  | _ => None
  end.
(** The same, with the label: it stands in brackets at the end of the link or image ([paired]), before the attributes,
    or, if the brackets are empty, it is the text of the link or image: what the events inside it print. *)
Theorem C13_labels : forall src evs, utf8 src -> (N.of_nat (length src) <= max_len)%N -> parse_spans src = Ok evs ->
  exists D pp p, p_new src = Ok (pp, p) /\ Forall2 same_def (definitions (map fst evs)) D /\ Forall2 (id_ok (map fst evs)) (heading_starts (map fst evs)) (pp_heads pp) /\
    forall A c a sp M sp' Z u ty, evs = A ++ (Start c a, sp) :: M ++ (End_ c, sp') :: Z -> nest [] (map fst M) = Some [] -> reference c = Some (u, ty) ->
      exists l da wa, resolves D (pp_heads pp) l (u, ty, da) /\ a = da ++ wa /\ ends src c l (slice src sp) (plain_text src M) wa sp'.
Proof.
  intros src evs Hu Hl E. destruct (doc_ok src (utf8_wfb _ Hu)) as [(bl & D & H & hd & O & HD)|(m & E' & _)]; [|congruence].
  pose proof (d_spans _ _ _ _ _ _ HD) as E2. rewrite E in E2. injection E2 as <-. destruct (d_new _ _ _ _ _ _ HD) as [s En].
  destruct (doc_heads _ _ _ _ _ _ HD Hl) as [H1 H2]. exists D. eexists _, _. split; [exact En|]. split; [exact H2|]. split; [exact H1|].
  intros A c a sp M sp' Z u ty He Hn Hr. assert (Hi : inline_box c = true) by (destruct c; try discriminate Hr; reflexivity).
  destruct (matching _ _ _ _ _ _ _ _ _ Hu E He Hn Hi) as (l & da & wa & A1 & A2 & A3). exists l, da, wa. split; [|auto]. cbn [pp_heads].
  unfold pre_of in A3. rewrite En in A3.
  assert (Hx : resolve (PP (rev D) hd (sort_heads hd)) l = (u, ty, da)).
  { destruct c; try discriminate Hr; cbn [reference target] in *.
    - destruct ty0 as [t| | ]; [destruct t|..]; try discriminate Hr; injection Hr as <- <-; exact A3.
    - destruct ty0; try discriminate Hr; injection Hr as <- <-; exact A3. }
  pose proof (C13_resolve D hd l) as X. rewrite Hx in X. exact X.
Qed.
(** The attributes of a definition leak into the next one. *)
Theorem C13_attributes_refuted : exists src evs, utf8 src /\ parse src = Ok evs /\
  definitions evs = [(B "a", (B "u", [(KClass, B "x")])); (B "b", (B "v", []))] /\
  List.In (Start (Link (B "v") (LSpan LReference)) [(KClass, B "x")]) evs.
Proof.
  exists (nls [B "{.x}"; B "[a]: u"; B "[b]: v"; []; B "[t][b]"]). eexists. split; [|split; [vm_compute; reflexivity|split; [reflexivity|]]].
  - unfold nls. cbn. repeat first [apply u_nil | apply u_1; [vm_compute; split; discriminate|] ].
  - repeat (try (left; reflexivity); right). 
Qed.
(** The id attached to a heading leaks into the next one: the second has no id attached, and its
    automatic id would be "h2". *)
Theorem C12_automatic_refuted : exists src evs pp p, utf8 src /\ parse src = Ok evs /\ p_new src = Ok (pp, p) /\
  heading_starts evs = [(B "a", [(KId, B "a")]); (B "a", [])] /\ map h_auto (pp_heads pp) = [B "h1"; B "h2"].
Proof.
  exists (nls [B "{#a}"; B "# h1"; B "## h2"]). eexists _, _, _. split; [|split; [vm_compute; reflexivity|split; [vm_compute; reflexivity|split; reflexivity]]].
  unfold nls. cbn. repeat first [apply u_nil | apply u_1; [vm_compute; split; discriminate|] ].
Qed.
(** Headings with the same text, an explicit id on a sectionless heading, and references to a definition,
    to a heading, and to nothing. *)
Definition ex_refs : bytes := nls [B "# One"; []; B "[a][r] [Two][] [b][no]"; []; B "# One"; []; B "> {#q}"; B "> # Two"; []; B "{.k}"; B "[r]: /x"].
Example Refs_ex : exists evs, parse ex_refs = Ok evs /\
  heading_starts evs = [(B "One", []); (B "One-1", []); (B "q", [(KId, B "q")])] /\
  definitions evs = [(B "r", (B "/x", [(KClass, B "k")]))] /\
  filter (fun e => match e with Start (Link _ _) _ => true | _ => false end) evs =
    [Start (Link (B "/x") (LSpan LReference)) [(KClass, B "k")]; Start (Link (B "#q") (LSpan LReference)) []; Start (Link (B "no") (LSpan LUnresolved)) []].
Proof. eexists. split; [vm_compute; reflexivity|]. repeat split. Qed.
(** The label of a collapsed reference is the text of the link: here with strong emphasis, an escape and a line break. *)
Definition lab_doc : bytes := nls [B "[*a* b\-"; B "c][]"; []; B "[a b- c]: u"].
Definition lab_evs : list (event * span) := Eval vm_compute in (match parse_spans lab_doc with Ok evs => evs | _ => [] end).
Example C13_labels_ex : parse_spans lab_doc = Ok lab_evs /\ exists A M Z sp sp', lab_evs = A ++ (Start (Link (B "u") (LSpan LReference)) [], sp) :: M ++ (End_ (Link (B "u") (LSpan LReference)), sp') :: Z /\
  nest [] (map fst M) = Some [] /\ length M = 8 /\ slice lab_doc sp' = B "][]" /\ plain_text lab_doc M = B "a b- c".
Proof.
  split; [vm_compute; reflexivity|]. exists (firstn 2 lab_evs), (firstn 8 (skipn 3 lab_evs)), (skipn 12 lab_evs), (snd (nth 2 lab_evs (Blankline, Sp 0 0))), (snd (nth 11 lab_evs (Blankline, Sp 0 0))).
  split; [vm_compute; reflexivity|]. split; [vm_compute; reflexivity|]. split; [reflexivity|]. split; vm_compute; reflexivity.
Qed.

Definition PropsRefs_all := (@C12_ids, @C12_automatic, @C12_section_heading, @C12_automatic_refuted, @C13_references, @C13_labels, @C13_labels_ex, @C13_attributes_refuted).
Print Assumptions PropsRefs_all.
