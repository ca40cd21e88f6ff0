(** * PHtml3: proofs about the renderer: footnotes *)
From Verif Require Import Base Attr Block Inline Doc Html Lib SpecHtml PHtml PHtml2.
Local Open Scope nat_scope.

Definition no_doc_end (evs : list event) : bool := forallb (fun e => negb (doc_end e)) evs.
Lemma no_doc_end_cons e evs : no_doc_end (e :: evs) = true -> doc_end e = false /\ no_doc_end evs = true.
Proof. unfold no_doc_end. cbn [forallb]. rewrite andb_true_iff, negb_true_iff. auto. Qed.

(** ** Separation of the footnotes *)
Fixpoint sep_open (stack : list (bytes * list event)) (evs : list event) : list (bytes * list event) :=
  match evs with
  | [] => stack
  | e :: evs' =>
      match e, stack with
      | Start (Footnote l) _, _ => sep_open ((l, []) :: stack) evs'
      | End_ (Footnote _), (l, b) :: st => sep_open st evs'
      | _, (l, b) :: st => sep_open ((l, b ++ [e]) :: st) evs'
      | _, [] => sep_open [] evs'
      end
  end.
Definition store1 (m : list (bytes * list event)) (n : bytes * list event) := n :: map_remove m (fst n).
Definition store (notes : list (bytes * list event)) (m : list (bytes * list event)) := fold_left store1 notes m.

Definition sep_case (stack : list (bytes * list event)) e (evs' : list event) : list event * list (bytes * list event) :=
  match kind_of e, stack with
  | KFStart l, _ => separate ((l, []) :: stack) evs'
  | KFEnd, (l, b) :: st => let (body, notes) := separate st evs' in (body, (l, b) :: notes)
  | _, (l, b) :: st => separate ((l, b ++ [e]) :: st) evs'
  | _, [] => let (body, notes) := separate [] evs' in (e :: body, notes)
  end.
Lemma separate_cons stack e evs : separate stack (e :: evs) = sep_case stack e evs.
Proof. cbn [separate]. unfold sep_case. destruct e as [c a|c| | | | | | | | | | | | | | | | |]; try destruct c; cbn [kind_of]; destruct stack as [|[l b] st]; reflexivity. Qed.
Definition sepo_case (stack : list (bytes * list event)) e (evs' : list event) :=
  match kind_of e, stack with
  | KFStart l, _ => sep_open ((l, []) :: stack) evs'
  | KFEnd, (l, b) :: st => sep_open st evs'
  | _, (l, b) :: st => sep_open ((l, b ++ [e]) :: st) evs'
  | _, [] => sep_open [] evs'
  end.
Lemma sep_open_cons stack e evs : sep_open stack (e :: evs) = sepo_case stack e evs.
Proof. cbn [sep_open]. unfold sepo_case. destruct e as [c a|c| | | | | | | | | | | | | | | | |]; try destruct c; cbn [kind_of]; destruct stack as [|[l b] st]; reflexivity. Qed.

Lemma set_notes_id s : set_notes s (f_open (r_foot s)) (f_events (r_foot s)) = s.
Proof. destruct s as [? ? ? ? ? ? ? []]; reflexivity. Qed.

Lemma res_map_bind {A C D} (f : A -> C) (r : res A) (k : C -> res D) : bind (res_map f r) k = bind r (fun a => k (f a)).
Proof. destruct r; reflexivity. Qed.
Lemma bind_ext {A C} (r : res A) (f g : A -> res C) : (forall a, r = Ok a -> f a = g a) -> bind r f = bind r g.
Proof. destruct r; simpl; auto. Qed.

Lemma bind_id (r : res (rstate * bytes)) : (let! (s, o) := r in Ok (s, [] ++ o)) = r.
Proof. destruct r as [[s o]| |]; reflexivity. Qed.

(** Rendering with footnotes = rendering what is outside of them, and storing them. *)
Lemma rbody_notes s e m : f_open (r_foot s) = [] -> (forall l, kind_of e <> KFStart l) -> doc_end e = false ->
  rbody (set_notes s [] m) e = res_map (notes_map [] m) (rbody s e).
Proof.
  intros Ho Hk Hd. unfold rbody, rview. rewrite Ho.
  change (f_open (r_foot (set_notes s [] m))) with (@nil (bytes * list event)).
  change (r_ignore (set_notes s [] m)) with (r_ignore s).
  destruct (kind_of e) eqn:K; try (destruct (r_ignore s); [reflexivity|apply rmain_notes; auto]).
  - exfalso. eapply Hk; reflexivity.
  - reflexivity.
  - reflexivity.
Qed.
Lemma rbody_frame s e s' o : f_open (r_foot s) = [] -> (forall l, kind_of e <> KFStart l) -> doc_end e = false ->
  rbody s e = Ok (s', o) ->
  r_indent s' = r_indent s /\ f_open (r_foot s') = [] /\ f_events (r_foot s') = f_events (r_foot s) /\
  f_number (r_foot s') = f_number (r_foot s) /\
  f_refs (r_foot s') = add_new (f_refs (r_foot s)) (labels_of (drop_defs (r_ignore s) [e])).
Proof.
  intros Ho Hk Hd. unfold rbody, rview. rewrite Ho.
  assert (Hdd : labels_of (drop_defs (r_ignore s) [e]) =
    match kind_of e with KDStart => [] | KDEnd => [] | _ => if r_ignore s then [] else label_of e end).
  { destruct e as [c a|c| | | | | | | | | | | | | | | | |]; try destruct c; cbn [kind_of drop_defs]; destruct (r_ignore s); reflexivity. }
  rewrite Hdd.
  destruct (kind_of e) eqn:K.
  - exfalso. eapply Hk; reflexivity.
  - destruct (r_ignore s); [intros [= <- <-]; auto|]. intros H. apply rmain_frame in H; auto.
    destruct H as (-> & _ & ->). cbn. auto.
  - intros [= <- <-]. cbn. auto.
  - intros [= <- <-]. cbn. auto.
  - destruct (r_ignore s); [intros [= <- <-]; auto|]. intros H. apply rmain_frame in H; auto.
    destruct H as (-> & _ & ->). cbn. auto.
Qed.

Definition no_fstart (evs : list event) : Prop := forall e l, List.In e evs -> kind_of e <> KFStart l.
Lemma separate_body_nofs stack evs : no_fstart (fst (separate stack evs)).
Proof.
  revert stack; induction evs as [|e evs IH]; intros stack.
  - intros ? ? [].
  - rewrite separate_cons. unfold sep_case. intros e' l'.
    destruct (kind_of e) eqn:K.
    + apply IH.
    + destruct stack as [|[l b] st].
      * specialize (IH []). destruct (separate [] evs) as [body notes]. cbn [fst] in *. intros [<-|H]; [congruence|apply IH; auto].
      * specialize (IH st). destruct (separate st evs) as [body notes]. exact (IH e' l').
    + destruct stack as [|[l b] st]; [|apply IH].
      specialize (IH []). destruct (separate [] evs) as [body notes]. cbn [fst] in *. intros [<-|H]; [congruence|apply IH; auto].
    + destruct stack as [|[l b] st]; [|apply IH].
      specialize (IH []). destruct (separate [] evs) as [body notes]. cbn [fst] in *. intros [<-|H]; [congruence|apply IH; auto].
    + destruct stack as [|[l b] st]; [|apply IH].
      specialize (IH []). destruct (separate [] evs) as [body notes]. cbn [fst] in *. intros [<-|H]; [congruence|apply IH; auto].
Qed.

Lemma set_notes_idem s a b c d : set_notes (set_notes s a b) c d = set_notes s c d.
Proof. reflexivity. Qed.

Lemma render_separate evs : forall s,
  no_doc_end evs = true ->
  render_events s evs =
  res_map (notes_map (sep_open (f_open (r_foot s)) evs) (store (snd (separate (f_open (r_foot s)) evs)) (f_events (r_foot s))))
          (render_events (set_notes s [] (f_events (r_foot s))) (fst (separate (f_open (r_foot s)) evs))).
Proof.
  induction evs as [|e evs IH]; intros s Hd.
  - cbn. unfold notes_map. cbn. rewrite set_notes_idem, set_notes_id. reflexivity.
  - apply no_doc_end_cons in Hd. destruct Hd as [Hd1 Hd].
    cbn [render_events]. rewrite render_event_body by auto.
    rewrite separate_cons, sep_open_cons. unfold sep_case, sepo_case.
    assert (Hmain : f_open (r_foot s) = [] -> (forall l, kind_of e <> KFStart l) ->
      (let! (s0, o) := rbody s e in let! (s1, o') := render_events s0 evs in Ok (s1, o ++ o')) =
      res_map (notes_map (sep_open [] evs) (store (snd (let (body, notes) := separate [] evs in (e :: body, notes))) (f_events (r_foot s))))
        (render_events (set_notes s [] (f_events (r_foot s))) (fst (let (body, notes) := separate [] evs in (e :: body, notes))))).
    { intros Ho Hk. destruct (separate [] evs) as [body notes] eqn:Es. cbn [fst snd render_events].
      rewrite render_event_body by auto.
      assert (Hs : set_notes s [] (f_events (r_foot s)) = s) by (rewrite <- Ho; apply set_notes_id). rewrite Hs.
      unfold res_map. destruct (rbody s e) as [[s1 o1]| |] eqn:E; cbn [bind]; auto.
      apply rbody_frame in E; auto. destruct E as (_ & Ho1 & He1 & _).
      rewrite (IH s1) by auto. rewrite Ho1, Es, He1. cbn [fst snd]. unfold res_map.
      replace (set_notes s1 [] (f_events (r_foot s))) with s1 by (rewrite <- He1, <- Ho1; symmetry; apply set_notes_id).
      destruct (render_events s1 body) as [[s2 o2]| |]; reflexivity. }
    destruct (kind_of e) eqn:K.
    + unfold rbody, rview. rewrite K. cbn [bind]. rewrite IH by auto.
      cbn [set_open r_foot r_set_foot f_open f_events].
      change (set_notes (set_open s ((l, []) :: f_open (r_foot s))) [] (f_events (r_foot s))) with (set_notes s [] (f_events (r_foot s))).
      rewrite bind_id. reflexivity.
    + destruct (f_open (r_foot s)) as [|[l b] st] eqn:Ho; [apply Hmain; auto; congruence|].
      unfold rbody, rview. rewrite K, Ho. cbn [bind]. rewrite IH by auto.
      cbn [r_foot r_set_foot f_open f_events].
      destruct (separate st evs) as [body notes] eqn:Es. cbn [fst snd store fold_left].
      change (store1 (f_events (r_foot s)) (l, b)) with ((l, b) :: map_remove (f_events (r_foot s)) l).
      set (m' := (l, b) :: map_remove (f_events (r_foot s)) l). clearbody m'.
      assert (Hm : forall m1 m2, render_events (set_notes s [] m1) body =
         res_map (notes_map [] m1) (render_events (set_notes s [] m2) body)).
      { intros m1 m2. assert (Hb := separate_body_nofs st evs). rewrite Es in Hb. cbn [fst] in Hb.
        assert (Hbd : no_doc_end body = true).
        { clear -Es Hd. revert st body notes Es Hd. induction evs as [|e' evs IH']; intros st body notes Es Hd.
          - cbn in Es. injection Es as <- <-. reflexivity.
          - rewrite separate_cons in Es. apply no_doc_end_cons in Hd. destruct Hd as [Hd1 Hd]. unfold sep_case in Es.
            destruct (kind_of e'); destruct st as [|[? ?] st];
              try (eapply IH'; eauto; fail);
              try (destruct (separate _ evs) as [b1 n1] eqn:E1; injection Es as <- <-; try (eapply IH'; eauto; fail);
                   cbn [no_doc_end forallb]; rewrite Hd1; cbn [negb andb]; eapply IH'; eauto). }
        clear -Hb Hbd.
        assert (Hg : forall s, f_open (r_foot s) = [] -> render_events (set_notes s [] m1) body = res_map (notes_map [] m1) (render_events s body)).
        { clear s m2. induction body as [|e body IHb]; intros s Ho.
          - reflexivity.
          - apply no_doc_end_cons in Hbd. destruct Hbd as [Hd1 Hbd].
            cbn [render_events]. rewrite !render_event_body by auto.
            assert (Hke : forall l, kind_of e <> KFStart l) by (intros l; apply Hb; left; auto).
            rewrite rbody_notes by auto. unfold res_map at 1.
            destruct (rbody s e) as [[s1 o1]| |] eqn:E; cbn [bind]; auto.
            apply rbody_frame in E; auto. destruct E as (_ & Ho1 & He1 & _).
            cbn [notes_map fst snd]. rewrite IHb; auto.
            + unfold res_map. destruct (render_events s1 body) as [[s2 o2]| |]; reflexivity.
            + intros e' l' Hin. apply Hb. right; auto. }
        rewrite <- Hg by reflexivity. reflexivity. }
      set (s1 := r_set_foot s (FN st (f_refs (r_foot s)) m' (f_number (r_foot s)))).
      change (set_notes s1 [] m') with (set_notes s [] m'). rewrite (Hm m' (f_events (r_foot s))).
      rewrite bind_id. unfold res_map. clear. destruct (render_events _ _) as [[s2 o2]| |]; reflexivity.
    + destruct (f_open (r_foot s)) as [|[l b] st] eqn:Ho; [apply Hmain; auto; congruence|].
      unfold rbody, rview. rewrite K, Ho. cbn [bind]. rewrite IH by auto.
      cbn [r_foot r_set_foot set_open f_open f_events].
      match goal with |- context [set_notes (set_open s ?x) [] ?y] => change (set_notes (set_open s x) [] y) with (set_notes s [] y) end.
      rewrite bind_id. reflexivity.
    + destruct (f_open (r_foot s)) as [|[l b] st] eqn:Ho; [apply Hmain; auto; congruence|].
      unfold rbody, rview. rewrite K, Ho. cbn [bind]. rewrite IH by auto.
      cbn [r_foot r_set_foot set_open f_open f_events].
      match goal with |- context [set_notes (set_open s ?x) [] ?y] => change (set_notes (set_open s x) [] y) with (set_notes s [] y) end.
      rewrite bind_id. reflexivity.
    + destruct (f_open (r_foot s)) as [|[l b] st] eqn:Ho; [apply Hmain; auto; congruence|].
      unfold rbody, rview. rewrite K, Ho. cbn [bind]. rewrite IH by auto.
      cbn [r_foot r_set_foot set_open f_open f_events].
      match goal with |- context [set_notes (set_open s ?x) [] ?y] => change (set_notes (set_open s x) [] y) with (set_notes s [] y) end.
      rewrite bind_id. reflexivity.
Qed.
