(** * PHtml6: proofs about the renderer: the endnotes *)
From Verif Require Import Base Attr Block Inline Doc Html Lib SpecDoc SpecHtml PHtml PHtml2 PHtml3 PHtml4 PHtml5.
Local Open Scope nat_scope.

Lemma render_list_events s evs :
  render_events s evs = (let! (s', os) := render_list s evs in Ok (s', concat os)).
Proof.
  revert s; induction evs as [|e evs IH]; intros s; [reflexivity|].
  cbn [render_events render_list]. destruct (render_event s e) as [[s1 o1]| |]; cbn [bind]; auto.
  rewrite IH. destruct (render_list s1 evs) as [[s2 o2]| |]; reflexivity.
Qed.

Definition ind_of (s : rstate) : bytes := match r_indent s with Some i => i | None => [] end.
Lemma gap_app ind a b : gap ind a -> gap ind b -> gap ind (a ++ b).
Proof.
  induction 1; intros Hb; cbn [app]; auto.
  - apply gap_nl; auto.
  - rewrite <- app_assoc. apply gap_str; auto.
Qed.
Lemma gap_indent s : gap (ind_of s) (w_indent s).
Proof.
  unfold ind_of, w_indent. destruct (r_indent s); [|apply gap_nil].
  induction (r_depth s); cbn [repeat concat]; [apply gap_nil|apply gap_str; auto].
Qed.
Lemma gap_block s d s' o : w_block s d = Ok (s', o) -> gap (ind_of s) o.
Proof.
  unfold w_block. destruct (r_indent s) as [i|] eqn:E; [|intros [= <- <-]; apply gap_nil].
  assert (H : forall n, gap (ind_of s) ((if r_first s then [] else [NL]) ++ w_indent (r_set_depth s n))).
  { intros n. apply gap_app; [destruct (r_first s); [apply gap_nil|apply gap_nl, gap_nil]|].
    apply (gap_indent (r_set_depth s n)). }
  destruct d.
  - intros [= <- <-]. replace (w_indent s) with (w_indent (r_set_depth s (r_depth s))) by (destruct s; reflexivity). apply H.
  - intros [= <- <-]. replace (w_indent s) with (w_indent (r_set_depth s (r_depth s))) by (destruct s; reflexivity). apply H.
  - destruct (r_depth s); [discriminate|]. intros [= <- <-]. apply H.
Qed.

Lemma list_ok d0 evs : forall st st' s, no_doc_end evs = true -> clean_body evs ->
  nestd st evs = Some st' -> coupled d0 st s ->
  exists s' outs, render_list s evs = Ok (s', outs) /\ coupled d0 st' s' /\ r_indent s' = r_indent s /\ texts_ok st evs outs.
Proof.
  induction evs as [|e evs IH]; intros st st' s Hd Hc H HC.
  - cbn in H. injection H as <-. exists s, []. cbn. auto.
  - apply no_doc_end_cons in Hd. destruct Hd as [Hd1 Hd].
    change (e :: evs) with ([e] ++ evs) in H. rewrite nestd_app in H.
    destruct (nestd st [e]) as [st1|] eqn:E; [|discriminate].
    destruct (Hc e) as [K1 K2]; [left; auto|].
    destruct (event_ok d0 e st st1 s Hd1 K1 K2 E HC) as (s1 & o1 & E1 & HC1 & Hi1 & Ht1).
    destruct (IH st1 st' s1) as (s2 & o2 & E2 & HC2 & Hi2 & Ht2); auto.
    { intros x Hx. apply Hc. right; auto. }
    cbn [render_list]. rewrite render_event_body, E1 by auto. cbn [bind]. rewrite E2. cbn [bind].
    do 2 eexists. split; [reflexivity|]. split; auto. split; [congruence|]. cbn [texts_ok]. split; [apply Ht1|split; [apply Ht1|]].
    assert (st1 = match e with Start c _ => c :: st | End_ _ => tl st | _ => st end) as <-; [|auto].
    cbn [nestd] in E. destruct e; try congruence.
    + destruct st as [|[] st]; congruence.
    + destruct st as [|c' st]; [discriminate|]. destruct (container_eq_dec _ _); [|discriminate]. cbn. congruence.
Qed.
Lemma nestd_keep evs : forall st, nestd st (filter keep evs) = nestd st evs.
Proof.
  induction evs as [|e evs IH]; intros st; [reflexivity|]. cbn [filter].
  destruct (keep e) eqn:E.
  - cbn [nestd]. destruct e; auto; destruct st as [|c' st]; auto; try (destruct c'; auto). all: destruct (container_eq_dec _ _); auto.
  - destruct e; try discriminate E; cbn [nestd]; auto.
Qed.

(** ** One footnote *)
Lemma foot_events_run g d0 evs : forall st st' s u,
  no_doc_end evs = true -> clean_body evs -> nestd st evs = Some st' -> coupled d0 st s ->
  exists s' o u' outs, foot_events (render_f (S g)) s evs u = Ok (s', o, u') /\
    render_list s (filter keep evs) = Ok (s', outs) /\ coupled d0 st' s' /\ r_indent s' = r_indent s /\
    (forall tl c, weave (ind_of s) tl ((if u' then [] else []) ++ c) -> weave (ind_of s) (outs ++ tl) (o ++ c)).
Proof.
  induction evs as [|e evs IH]; intros st st' s u Hd Hc H HC.
  - cbn in H. injection H as <-. exists s, [], u, []. cbn [foot_events filter render_list].
    split; [auto|]. split; [auto|]. split; [auto|]. split; [auto|]. intros tl c Hw. destruct u; auto.
  - apply no_doc_end_cons in Hd. destruct Hd as [Hd1 Hd].
    assert (Hc' : clean_body evs) by (intros x Hx; apply Hc; right; auto).
    change (e :: evs) with ([e] ++ evs) in H. rewrite nestd_app in H.
    destruct (nestd st [e]) as [st1|] eqn:E; [|discriminate].
    destruct (Hc e) as [K1 K2]; [left; auto|].
    destruct (keep e) eqn:Ek.
    + destruct (event_ok d0 e st st1 s Hd1 K1 K2 E HC) as (s1 & o1 & E1 & HC1 & Hi1 & _).
      set (u1 := match e with End_ Paragraph => negb (tight_top s1) | _ => false end).
      destruct (IH st1 st' s1 u1 Hd Hc' H HC1) as (s2 & o2 & u2 & outs & F1 & F2 & F3 & F4 & F5).
      exists s2, ((if u then B "</p>" else []) ++ o1 ++ o2), u2, (o1 :: outs).
      split.
      { cbn [foot_events].
        assert (Er : (let! (s, o) := render_f (S g) s e in
           let! (s0, o', u0) := foot_events (render_f (S g)) s evs (match e with End_ Paragraph => negb (tight_top s) | _ => false end) in
           Ok (s0, (if u then B "</p>" else []) ++ o ++ o', u0)) = Ok (s2, (if u then B "</p>" else []) ++ o1 ++ o2, u2)).
        { rewrite render_f_body by auto. rewrite E1. cbn [bind]. fold u1. rewrite F1. reflexivity. }
        destruct e; try discriminate Ek; exact Er. }
      split.
      { cbn [filter]. rewrite Ek. cbn [render_list]. rewrite render_event_body, E1 by auto. cbn [bind]. rewrite F2. reflexivity. }
      split; [auto|]. split; [congruence|].
      intros tl c Hw. cbn [app]. rewrite <- !app_assoc. 
      replace (ind_of s) with (ind_of s1) in * by (unfold ind_of; rewrite Hi1; auto).
      assert (Hw' : weave (ind_of s1) ((o1 :: outs) ++ tl) (o1 ++ o2 ++ c)) by (cbn [app]; apply weave_out; auto).
      destruct u; [apply weave_close; auto|exact Hw'].
    + assert (st1 = st) as -> by (destruct e; try discriminate Ek; cbn in E; congruence).
      destruct (IH st st' s u Hd Hc' H HC) as (s2 & o2 & u2 & outs & F1 & F2 & F3 & F4 & F5).
      exists s2, o2, u2, outs. split; [destruct e; try discriminate Ek; exact F1|].
      split; [cbn [filter]; rewrite Ek; exact F2|]. auto.
Qed.

(** ** Numbers in the outputs *)
Definition prefix {A} (a b : list A) : Prop := exists c, b = a ++ c.
Lemma prefix_trans {A} (a b c : list A) : prefix a b -> prefix b c -> prefix a c.
Proof. intros [x ->] [y ->]. exists (x ++ y). rewrite app_assoc. reflexivity. Qed.
Lemma add_new_prefix refs ls : prefix refs (add_new refs ls).
Proof. destruct (add_new_ext refs ls) as (x & -> & _). exists x. auto. Qed.
Lemma prefix_nth {A} (a b : list A) i x : prefix a b -> nth_error a i = Some x -> nth_error b i = Some x.
Proof. intros [c ->] H. rewrite nth_error_app1; auto. apply nth_error_Some. congruence. Qed.

Lemma ref_rbody s l s' o : f_open (r_foot s) = [] -> rbody s (FootnoteReference l) = Ok (s', o) ->
  o = [] \/ exists i, nth_error (f_refs (r_foot s')) i = Some l /\ o = anchor (S i).
Proof.
  intros Ho. unfold rbody, rview. rewrite Ho. cbn [kind_of]. destruct (r_ignore s); [intros [= <- <-]; auto|].
  cbn [rmain]. destruct (foot_reference_spec (r_foot s) l) as [H1 (i & H2 & H3)].
  destruct (foot_reference (r_foot s) l) as [f n]. cbn [fst snd] in *. subst f n.
  intros [= <- <-]. destruct (Nat.eqb (r_img s) 0); auto. right. exists i. split; auto.
Qed.
Lemma render_list_refs evs : forall s s' outs final,
  no_doc_end evs = true -> clean_body evs -> f_open (r_foot s) = [] ->
  render_list s evs = Ok (s', outs) -> prefix (f_refs (r_foot s')) final -> Forall2 (ref_out final) evs outs.
Proof.
  intros s s' outs final. revert s s' outs. induction evs as [|e evs IH]; intros s s' outs Hd Hc Ho H Hp.
  - cbn in H. injection H as <- <-. constructor.
  - apply no_doc_end_cons in Hd. destruct Hd as [Hd1 Hd].
    assert (Hc' : clean_body evs) by (intros x Hx; apply Hc; right; auto).
    cbn [render_list] in H. apply bind_ok in H. destruct H as ([s1 o1] & H1 & H).
    apply bind_ok in H. destruct H as ([s2 o2] & H2 & H). injection H as <- <-.
    rewrite render_event_body in H1 by auto.
    pose proof H1 as F. apply rbody_frame in F; auto; [|apply Hc; left; auto]. destruct F as (_ & Fo & _ & _ & Fr).
    constructor; [|eapply IH; eauto].
    intros l ->. destruct (ref_rbody _ _ _ _ Ho H1) as [->|(i & Hi & ->)]; auto.
    right. exists i. split; auto. eapply prefix_nth; [|exact Hi].
    eapply prefix_trans; [|exact Hp].
    pose proof (render_list_events s1 evs) as He. rewrite H2 in He. cbn [bind] in He.
    apply render_refs in He; auto; [|intros x l' Hx; apply Hc'; auto]. destruct He as (_ & _ & ->). cbn [f_refs].
    apply add_new_prefix.
Qed.

(** ** The notes *)
Lemma store_app a b m : store (a ++ b) m = store b (store a m).
Proof. unfold store. apply fold_left_app. Qed.
Lemma map_get_remove m k l : map_get (map_remove m k) l = if bytes_eqb k l then None else map_get m l.
Proof.
  unfold map_get, map_remove. induction m as [|[x b] m IH]; [destruct (bytes_eqb k l); auto|].
  cbn [filter find fst]. destruct (bytes_eqb x k) eqn:E1; cbn [negb].
  - rewrite IH. destruct (bytes_eqb k l) eqn:E2; auto.
    destruct (bytes_eqb x l) eqn:E3; auto. apply bytes_eqb_eq in E1, E3. subst. rewrite bytes_eqb_refl in E2. discriminate.
  - cbn [find fst]. destruct (bytes_eqb x l) eqn:E3.
    + destruct (bytes_eqb k l) eqn:E2; auto. apply bytes_eqb_eq in E2, E3. subst. rewrite bytes_eqb_refl in E1. discriminate.
    + exact IH.
Qed.
Lemma map_get_cons x b m l : map_get ((x, b) :: m) l = if bytes_eqb x l then Some b else map_get m l.
Proof. unfold map_get. cbn [find fst]. destruct (bytes_eqb x l); reflexivity. Qed.
Definition get_body (m : list (bytes * list event)) (l : bytes) : list event :=
  match map_get m l with Some b => b | None => [] end.
Lemma store_body notes l : get_body (store notes []) l = note_body notes l.
Proof.
  unfold get_body. induction notes as [|[k b] notes IH] using rev_ind; [reflexivity|].
  rewrite store_app. cbn [store fold_left]. unfold store1. cbn [fst].
  rewrite map_get_cons, map_get_remove. unfold note_body. rewrite rev_app_distr. cbn [rev app find fst].
  destruct (bytes_eqb k l) eqn:E.
  - apply bytes_eqb_eq in E. subst k. destruct (list_eq_dec ascii_dec l l); [auto|congruence].
  - destruct (list_eq_dec ascii_dec k l) as [->|]; [rewrite bytes_eqb_refl in E; discriminate|]. exact IH.
Qed.

Definition good_body (b : list event) : Prop := no_doc_end b = true /\ clean_body b /\ nestd [] b = Some [].
Lemma good_nil : good_body [].
Proof. split; [auto|split; [intros ? []|auto]]. Qed.

Lemma sep_bodies evs : forall stack,
  no_doc_end evs = true -> (forall l b, List.In (l, b) stack -> no_doc_end b = true /\ clean_body b) ->
  forall l b, List.In (l, b) (snd (separate stack evs)) -> no_doc_end b = true /\ clean_body b.
Proof.
  induction evs as [|e evs IH]; intros stack Hd Hs l b Hin; [destruct Hin|].
  apply no_doc_end_cons in Hd. destruct Hd as [Hd1 Hd].
  rewrite separate_cons in Hin. unfold sep_case in Hin.
  assert (Hpush : forall l0 b0 st, stack = (l0, b0) :: st -> (forall l, kind_of e <> KFStart l) -> kind_of e <> KFEnd ->
     forall l1 b1, List.In (l1, b1) ((l0, b0 ++ [e]) :: st) -> no_doc_end b1 = true /\ clean_body b1).
  { intros l0 b0 st -> K1 K2 l1 b1 [[= <- <-]|Hi]; [|apply (Hs l1); right; auto].
    destruct (Hs l0 b0) as [H1 H2]; [left; auto|]. split.
    - unfold no_doc_end in *. rewrite forallb_app, H1. cbn [forallb]. rewrite Hd1. reflexivity.
    - intros x Hx. apply in_app_iff in Hx. destruct Hx as [Hx|[<-|[]]]; auto. }
  assert (Hout : List.In (l, b) (snd (let (body, notes) := separate [] evs in (e :: body, notes))) -> no_doc_end b = true /\ clean_body b).
  { intros Hi. apply (IH [] Hd) with (l := l); [intros ? ? []|]. destruct (separate [] evs); exact Hi. }
  destruct (kind_of e) eqn:K.
  - eapply IH; [auto| |exact Hin]. intros l1 b1 [[= <- <-]|Hi]; eauto. split; [reflexivity|intros ? []].
  - destruct stack as [|[l0 b0] st]; [auto|].
    destruct (separate st evs) as [body notes] eqn:E. cbn [snd] in Hin. destruct Hin as [[= <- <-]|Hin].
    + apply (Hs l0). left; auto.
    + apply (IH st Hd) with (l := l); [intros; eapply Hs; right; eauto|]. rewrite E. auto.
  - destruct stack as [|[l0 b0] st]; [auto|]. eapply IH; [auto| |exact Hin]. eapply Hpush; eauto; congruence.
  - destruct stack as [|[l0 b0] st]; [auto|]. eapply IH; [auto| |exact Hin]. eapply Hpush; eauto; congruence.
  - destruct stack as [|[l0 b0] st]; [auto|]. eapply IH; [auto| |exact Hin]. eapply Hpush; eauto; congruence.
Qed.

(** ** The loop over the notes *)
Definition notes_inv (notes : list (bytes * list event)) (f : footnotes) : Prop :=
  NoDup (f_refs f) /\ f_number f <= length (f_refs f) /\
  forall l, ~ List.In l (firstn (f_number f) (f_refs f)) -> get_body (f_events f) l = note_body notes l.

Lemma clean_filter f b : clean_body b -> clean_body (filter f b).
Proof. intros H x Hx. apply filter_In in Hx. apply H. tauto. Qed.
Lemma no_doc_end_filter f b : no_doc_end b = true -> no_doc_end (filter f b) = true.
Proof.
  unfold no_doc_end. rewrite !forallb_forall. intros H x Hx. apply filter_In in Hx. apply H. tauto.
Qed.
Lemma drop_keep ign b : labels_of (drop_defs ign (filter keep b)) = labels_of (drop_defs ign b).
Proof.
  revert ign; induction b as [|e b IH]; intros ign; [reflexivity|]. cbn [filter].
  destruct (keep e) eqn:E.
  - rewrite !drop_defs_cons. destruct (kind_of e), ign; auto; change (labels_of (e :: ?x)) with (label_of e ++ labels_of x);
      unfold labels_of in *; cbn [flat_map]; rewrite IH; reflexivity.
  - destruct e; try discriminate E; rewrite drop_defs_cons; cbn [kind_of]; rewrite IH; destruct ign; reflexivity.
Qed.

Lemma numbered_prefix notes refs i final : numbered notes refs i final -> prefix refs final.
Proof.
  induction 1; [exists []; rewrite app_nil_r; auto|].
  eapply prefix_trans; [apply add_new_prefix|exact IHnumbered].
Qed.
Lemma numbered_nodup notes refs i final : numbered notes refs i final -> NoDup refs -> NoDup final.
Proof. induction 1; auto. intros Hn. apply IHnumbered, add_new_nodup; auto. Qed.

Lemma epi_loop_run g d0 notes : (forall l, good_body (note_body notes l)) ->
  forall fu s, coupled d0 [] s -> notes_inv notes (r_foot s) -> epi_loop fu (render_f (S g)) s <> Fuel ->
  exists s' o items final, epi_loop fu (render_f (S g)) s = Ok (s', o) /\ coupled d0 [] s' /\ r_indent s' = r_indent s /\
    numbered notes (f_refs (r_foot s)) (f_number (r_foot s)) final /\
    o = concat items /\
    Forall2 (item_spec (ind_of s) notes final) (seq (S (f_number (r_foot s))) (length final - f_number (r_foot s))) items.
Proof.
  intros Hgood. induction fu as [|fu IH]; intros s HC (Hnd & Hnum & Hmap) HF; cbn [epi_loop] in *.
  - destruct (foot_next (r_foot s)) as [[[n evs] f]|] eqn:E; [congruence|].
    apply foot_next_none in E. assert (En : f_number (r_foot s) = length (f_refs (r_foot s))) by lia.
    exists s, [], [], (f_refs (r_foot s)). split; [auto|]. split; [auto|]. split; [auto|]. split; [rewrite En; constructor|].
    split; [auto|]. rewrite En, Nat.sub_diag. constructor.
  - destruct (foot_next (r_foot s)) as [[[n evs] f]|] eqn:E.
    2:{ apply foot_next_none in E. assert (En : f_number (r_foot s) = length (f_refs (r_foot s))) by lia.
        exists s, [], [], (f_refs (r_foot s)). split; [auto|]. split; [auto|]. split; [auto|]. split; [rewrite En; constructor|].
        split; [auto|]. rewrite En, Nat.sub_diag. constructor. }
    unfold foot_next in E. destruct (nth_error (f_refs (r_foot s)) (f_number (r_foot s))) as [l|] eqn:El; [|discriminate].
    injection E as <- <- <-.
    set (k := f_number (r_foot s)) in *.
    assert (Hkl : k < length (f_refs (r_foot s))) by (apply nth_error_Some; congruence).
    assert (Hnl : ~ List.In l (firstn k (f_refs (r_foot s)))).
    { intros Hin. apply In_nth_error in Hin. destruct Hin as [j Hj].
      assert (Hjk : j < k). { assert (j < length (firstn k (f_refs (r_foot s)))) by (apply nth_error_Some; congruence). rewrite firstn_length in H. lia. }
      rewrite nth_error_firstn in Hj by auto.
      assert (j = k); [|lia]. apply (proj1 (NoDup_nth_error _) Hnd); [lia|congruence]. }
    pose proof (Hmap l Hnl) as Hb. unfold get_body in Hb. fold k in Hb.
    set (b := match map_get (f_events (r_foot s)) l with Some l0 => l0 | None => [] end) in *.
    destruct (Hgood l) as (Hg1 & Hg2 & Hg3). rewrite <- Hb in Hg1, Hg2, Hg3.
    set (f1 := FN (f_open (r_foot s)) (f_refs (r_foot s)) (map_remove (f_events (r_foot s)) l) (S k)) in *.
    set (s1 := r_set_foot s f1) in *.
    assert (HC1 : coupled d0 [] s1) by (destruct HC as (? & ? & ? & ? & ?); split; [auto|split; [auto|auto]]).
    destruct (w_block_same_ok s1) as [o1 E1]. rewrite E1 in *. cbn [bind] in *.
    destruct (foot_events_run g d0 b [] [] s1 false Hg1 Hg2 Hg3 HC1) as (s2 & o2 & u & outs & F1 & F2 & F3 & F4 & F5).
    rewrite F1 in *. cbn [bind] in *.
    destruct (w_block_same_ok s2) as [o3 E3].
    assert (E4 : exists o4, (if u then Ok (s2, []) else let! (s, o) := w_block s2 DSame in Ok (s, o ++ B "<p>")) = Ok (s2, o4) /\
       weave (ind_of s1) outs (o2 ++ o4)).
    { destruct u.
      - exists []. split; auto. rewrite <- (app_nil_r outs). apply F5. constructor.
      - rewrite E3. cbn [bind]. eexists. split; [reflexivity|]. rewrite <- (app_nil_r outs). apply F5. cbn [app].
        rewrite <- (app_nil_r (B "<p>")). apply weave_open; [|constructor].
        replace (ind_of s1) with (ind_of s2) by (unfold ind_of; rewrite F4; auto). eapply gap_block; eauto. }
    destruct E4 as (o4 & E4 & Hw). rewrite E4 in *. cbn [bind] in *. rewrite E3 in *. cbn [bind] in *.
    pose proof (render_list_events s1 (filter keep b)) as Hr. rewrite F2 in Hr. cbn [bind] in Hr.
    apply render_refs in Hr; [|apply no_doc_end_filter; auto|apply HC1|intros x l' Hx; apply (clean_filter keep b Hg2); auto].
    destruct Hr as (_ & Hig & Hfoot). rewrite drop_keep in Hfoot.
    assert (Hig1 : r_ignore s1 = false) by (destruct HC as (? & ? & ? & ? & ?); auto). rewrite Hig1 in Hfoot.
    cbn [s1 r_set_foot r_foot f1 f_refs f_events f_number] in Hfoot.
    destruct (IH s2 F3) as (s3 & o5 & items & final & G1 & G2 & G3 & G4 & G5 & G6).
    { rewrite Hfoot. split; [|split]; cbn [f_refs f_number f_events].
      - apply add_new_nodup; auto.
      - destruct (add_new_ext (f_refs (r_foot s)) (labels_of (drop_defs false b))) as (x & -> & _). rewrite app_length. lia.
      - intros l' Hl'. destruct (add_new_ext (f_refs (r_foot s)) (labels_of (drop_defs false b))) as (x & Ex & _). rewrite Ex in Hl'.
        rewrite firstn_app in Hl'. replace (S k - length (f_refs (r_foot s))) with 0 in Hl' by lia.
        rewrite firstn_O, app_nil_r in Hl'.
        assert (Hsp : firstn (S k) (f_refs (r_foot s)) = firstn k (f_refs (r_foot s)) ++ [l]).
        { clear -El. revert El. generalize (f_refs (r_foot s)) as L. induction k as [|k' IHk]; intros [|y L] El; try discriminate.
          - cbn in El. injection El as <-. reflexivity.
          - cbn [nth_error] in El. cbn [firstn app]. f_equal. apply IHk; auto. }
        rewrite Hsp, in_app_iff in Hl'. unfold get_body. rewrite map_get_remove.
        destruct (bytes_eqb l l') eqn:E9; [apply bytes_eqb_eq in E9; subst; exfalso; apply Hl'; right; left; auto|].
        apply Hmap. intros Hi. apply Hl'. left; auto. }
    { intros HF2. apply HF. rewrite HF2. reflexivity. }
    rewrite G1. cbn [bind].
    rewrite Hfoot in G4, G6. cbn [f_refs f_number] in G4, G6. rewrite Hb in G4.
    assert (Hpre : prefix (f_refs (r_foot s)) final) by (eapply prefix_trans; [apply add_new_prefix|eapply numbered_prefix; exact G4]).
    assert (Hlen : length (f_refs (r_foot s)) <= length final) by (destruct Hpre as [x ->]; rewrite app_length; lia).
    do 2 eexists. exists ((o1 ++ item_start (S k) ++ (o2 ++ o4) ++ backlink (S k) ++ o3 ++ B "</li>") :: items), final.
    split; [reflexivity|]. split; [auto|]. split; [rewrite G3, F4; reflexivity|].
    split; [eapply num_step; eauto|].
    split.
    { cbn [concat]. subst o5. unfold item_start, backlink. rewrite !app_assoc. reflexivity. }
    replace (length final - k) with (S (length final - S k)) by lia. cbn [seq]. constructor.
    + exists l, o1, o3, s1, s2, outs, (o2 ++ o4). cbn [Nat.sub]. rewrite Nat.sub_0_r.
      split; [eapply prefix_nth; eauto|]. split; [rewrite <- Hb; exact F2|].
      split. { eapply render_list_refs; [| | |rewrite <- Hb; exact F2|].
        - rewrite <- Hb. apply no_doc_end_filter; auto.
        - rewrite <- Hb. apply clean_filter; auto.
        - apply HC1.
        - rewrite Hfoot. cbn [f_refs]. rewrite Hb. eapply numbered_prefix; exact G4. }
      split. { destruct (list_ok d0 (filter keep b) [] [] s1) as (s9 & outs9 & R1 & _ & _ & R2); auto.
        - apply no_doc_end_filter; auto.
        - apply clean_filter; auto.
        - rewrite nestd_keep. auto.
        - rewrite <- Hb. rewrite F2 in R1. injection R1 as <- <-. exact R2. }
      split; [exact Hw|]. split; [exact (gap_block _ _ _ _ E1)|]. split; [|reflexivity].
      replace (ind_of s) with (ind_of s2) by (unfold ind_of; rewrite F4; reflexivity). eapply gap_block; eauto.
    + replace (ind_of s) with (ind_of s2) by (unfold ind_of; rewrite F4; reflexivity). exact G6.
Qed.

(** ** The whole document *)
Lemma no_document_doc_end inner : no_document inner -> no_doc_end inner = true.
Proof.
  intros H. unfold no_doc_end. apply forallb_forall. intros e He. specialize (H e He).
  destruct e as [|c| | | | | | | | | | | | | | | | |]; auto. destruct c; auto.
Qed.

Lemma r_new_coupled ind : coupled (r_depth (r_new ind)) [] (r_new ind).
Proof. split; [auto|]. split; [intros _; cbn; lia|]. auto. Qed.

Lemma separate_clean evs : forall stack st st' base, nestd st evs = Some st' -> layers st stack base -> clean_body (fst (separate stack evs)).
Proof.
  induction evs as [|e evs IH]; intros stack st st' base H L; [intros ? []|].
  rewrite separate_cons. unfold sep_case.
  assert (Hout : stack = [] -> (forall l, kind_of e <> KFStart l) -> kind_of e <> KFEnd ->
      clean_body (fst (let (body, notes) := separate [] evs in (e :: body, notes)))).
  { intros -> K1 K2. inversion L as [base0 Hb|]; subst. clear L.
    change (e :: evs) with ([e] ++ evs) in H. rewrite nestd_app in H.
    destruct (nestd base [e]) as [st1|] eqn:E; [|discriminate].
    assert (Hl : layers st1 [] st1).
    { constructor. cbn [nestd] in E. destruct e; try (injection E as <-; auto; fail).
      - assert (Ef : is_fn c = false) by (destruct c; try reflexivity; exfalso; eapply K1; reflexivity).
        assert (st1 = c :: base) as -> by (destruct base as [|[] base]; congruence).
        rewrite cnt_cons, Ef. auto.
      - destruct base as [|c' base]; [discriminate|]. destruct (container_eq_dec c c'); [|discriminate].
        injection E as <-. rewrite cnt_cons in Hb. lia. }
    specialize (IH _ _ _ _ H Hl). destruct (separate [] evs) as [body notes]. cbn [fst] in *.
    intros x [<-|Hx]; auto. }
  assert (Hin : forall l b stk, stack = (l, b) :: stk -> (forall l, kind_of e <> KFStart l) -> kind_of e <> KFEnd ->
      clean_body (fst (separate ((l, b ++ [e]) :: stk) evs))).
  { intros l b stk -> K1 K2. change (e :: evs) with ([e] ++ evs) in H. rewrite nestd_app in H.
    destruct (nestd st [e]) as [st1|] eqn:E; [|discriminate].
    destruct (sep_nest [e] st st1 _ _ E L) as (base' & _ & L' & _).
    rewrite sep_open_cons in L'. unfold sepo_case in L'.
    destruct (kind_of e) eqn:K; try (exfalso; eapply K1; reflexivity); try congruence; eapply IH; eauto. }
  destruct (kind_of e) eqn:K.
  - assert (He : exists a, e = Start (Footnote l) a) by (destruct e as [c a|c| | | | | | | | | | | | | | | | |]; try destruct c; try discriminate; injection K as <-; eauto).
    destruct He as [a ->]. cbn [nestd] in H.
    assert (Ht : top_leaf st = false) by (destruct st as [|[] st]; auto; discriminate).
    assert (H' : nestd (Footnote l :: st) evs = Some st') by (destruct st as [|[] st]; auto; discriminate).
    eapply IH; eauto. apply (layS [] l l [] st stack base); auto.
  - assert (He : exists l, e = End_ (Footnote l)) by (destruct e as [c a|c| | | | | | | | | | | | | | | | |]; try destruct c; try discriminate; eauto).
    destruct He as [l2 ->]. cbn [nestd] in H.
    destruct stack as [|[l b] stk].
    + inversion L as [base0 Hb|]; subst. destruct base as [|c' base]; [discriminate|].
      destruct (container_eq_dec _ _); [|discriminate]. subst c'. rewrite cnt_cons in Hb. discriminate.
    + inversion L as [|seg l0 l' b0 st0 stk0 base0 Hs Hb HL Htl]; subst. clear L.
      destruct seg as [|c' seg]; cbn [app] in H.
      * destruct (container_eq_dec _ _); [|discriminate]. specialize (IH _ _ _ _ H HL).
        destruct (separate stk evs) as [body notes]. exact IH.
      * destruct (container_eq_dec _ _); [|discriminate]. subst c'. rewrite cnt_cons in Hs. discriminate.
  - destruct stack as [|[l b] stk]; [apply Hout; auto; congruence|]. eapply Hin; auto; congruence.
  - destruct stack as [|[l b] stk]; [apply Hout; auto; congruence|]. eapply Hin; auto; congruence.
  - destruct stack as [|[l b] stk]; [apply Hout; auto; congruence|]. eapply Hin; auto; congruence.
Qed.
Lemma no_doc_end_sep evs : forall stack, no_doc_end evs = true -> no_doc_end (fst (separate stack evs)) = true.
Proof.
  induction evs as [|e evs IH]; intros stack Hd; [reflexivity|].
  apply no_doc_end_cons in Hd. destruct Hd as [Hd1 Hd]. rewrite separate_cons. unfold sep_case.
  destruct (kind_of e); destruct stack as [|[l0 b0] st]; auto;
    try (specialize (IH [] Hd); destruct (separate [] evs) as [body notes]; cbn [fst no_doc_end forallb] in *; rewrite Hd1; exact IH).
  specialize (IH st Hd). destruct (separate st evs) as [body notes]. exact IH.
Qed.

Lemma note_body_good notes : Forall (fun n => good_body (snd n)) notes -> forall l, good_body (note_body notes l).
Proof.
  intros H l. unfold note_body. match goal with |- context [find ?f (rev notes)] => destruct (find f (rev notes)) as [[k b]|] eqn:E end; [|apply good_nil].
  apply find_some in E. destruct E as [E _]. apply in_rev in E. rewrite Forall_forall in H. apply (H _ E).
Qed.

Lemma render_document ind a inner : no_document inner -> nestd [] inner = Some [] ->
  let body := fst (separate [] inner) in
  let notes := snd (separate [] inner) in
  exists s o outs tail final,
    render_events (r_new ind) (Start Document a :: inner ++ [End_ Document]) = Ok (s, o) /\
    (exists t, render_list (r_new ind) body = Ok (t, outs)) /\
    o = concat outs ++ tail /\
    numbered notes (add_new [] (labels_of (drop_defs false body))) 0 final /\
    Forall2 (ref_out final) body outs /\
    texts_ok [] body outs /\
    tail_spec (ind_of (r_new ind)) notes final tail.
Proof.
  intros Hnd Hn body notes.
  assert (Hde := no_document_doc_end inner Hnd).
  assert (L0 : layers [] [] []) by (constructor; auto).
  destruct (sep_nest inner [] [] [] [] Hn L0) as (base' & B1 & B2 & B3).
  assert (Hop : sep_open [] inner = [] /\ base' = []).
  { inversion B2; subst; auto. destruct seg; discriminate. }
  destruct Hop as [Hop ->].
  assert (Hcb : clean_body body) by (eapply separate_clean; eauto).
  assert (Hdb : no_doc_end body = true) by (apply no_doc_end_sep; auto).
  assert (Hgood : forall l, good_body (note_body notes l)).
  { apply note_body_good. rewrite Forall_forall in *. intros [l b] Hin. 
    destruct (sep_bodies inner [] Hde) with (l := l) (b := b) as [G1 G2]; [intros ? ? []|exact Hin|].
    split; [auto|]. split; [auto|]. apply (B3 (l, b) Hin). }
  destruct (body_ok _ body [] [] (r_new ind) Hdb Hcb B1 (r_new_coupled ind)) as (s1 & o1 & E1 & HC1 & Hi1).
  assert (Edoc : render_events (r_new ind) (Start Document a :: inner ++ [End_ Document]) =
     (let! (s2, o2) := render_events (r_new ind) inner in let! (s3, o3) := render_event s2 (End_ Document) in Ok (s3, o2 ++ o3))).
  { cbn [render_events]. rewrite render_event_body by reflexivity. change (rbody (r_new ind) (Start Document a)) with (Ok (r_new ind, @nil ascii)).
    cbn [bind]. rewrite bind_id, render_events_app. apply bind_ext. intros [s2 o2] _. cbn [render_events].
    destruct (render_event s2 (End_ Document)) as [[s3 o3]| |]; cbn [bind]; auto. rewrite app_nil_r. reflexivity. }
  rewrite Edoc. clear Edoc.
  rewrite (render_separate inner (r_new ind) Hde). change (f_open (r_foot (r_new ind))) with (@nil (bytes * list event)).
  change (f_events (r_foot (r_new ind))) with (@nil (bytes * list event)).
  change (set_notes (r_new ind) [] []) with (r_new ind). rewrite Hop. fold body notes. rewrite E1.
  cbn [res_map bind notes_map fst snd].
  set (s2 := set_notes s1 [] (store notes [])).
  pose proof (render_list_events (r_new ind) body) as HL. rewrite E1 in HL.
  destruct (render_list (r_new ind) body) as [[t outs]| |] eqn:EL; cbn [bind] in HL; try discriminate. injection HL as <- ->.
  pose proof (render_refs body (r_new ind) s1 _ Hdb eq_refl (fun e l Hin => proj1 (Hcb e Hin) l) E1) as (_ & Hig & Hfoot).
  cbn [r_new r_foot r_ignore f_refs f_events f_number] in Hfoot.
  assert (Htx : texts_ok [] body outs).
  { destruct (list_ok _ body [] [] (r_new ind) Hdb Hcb B1 (r_new_coupled ind)) as (s9 & outs9 & R1 & _ & _ & R2).
    rewrite EL in R1. injection R1 as <- <-. exact R2. }
  assert (HC2 : coupled (r_depth (r_new ind)) [] s2).
  { destruct HC1 as (C1 & C2 & C3 & C4 & C5). split; [reflexivity|]. split; [exact C2|]. split; [exact C3|]. split; [exact C4|]. exact C5. }
  assert (Hinv : notes_inv notes (r_foot s2)).
  { unfold s2. cbn [set_notes r_set_foot r_foot]. rewrite Hfoot. cbn [f_refs f_number].
    split; cbn [f_refs f_number f_events]; [apply add_new_nodup; constructor|]. split; [lia|]. intros l _. apply store_body. }
  assert (Hcl : clean_foot (r_foot s2)).
  { split; cbn; [|intros ? ? []]. intros l b Hin.
    assert (Hst : forall m, (forall l b, List.In (l, b) m -> clean_body b) -> forall ns, (forall l b, List.In (l, b) ns -> clean_body b) ->
       forall l b, List.In (l, b) (store ns m) -> clean_body b).
    { clear. intros m Hm ns. revert m Hm. induction ns as [|[k c] ns IH]; intros m Hm Hns l b Hin; [eapply Hm; eauto|].
      cbn [store fold_left] in Hin. apply (IH (store1 m (k, c))) with (l := l); auto.
      - intros l1 b1 [[= <- <-]|H]; [apply (Hns k); left; auto|]. apply map_remove_in in H. eauto.
      - intros l1 b1 H. apply (Hns l1); right; auto. }
    apply (Hst [] ltac:(intros ? ? []) notes) with (l := l); auto.
    intros l1 b1 H1. destruct (sep_bodies inner [] Hde) with (l := l1) (b := b1) as [_ G2]; [intros ? ? []|exact H1|exact G2]. }
  (* the epilogue *)
  set (fb := foot_bound (r_foot s2)).
  assert (Eep : render_event s2 (End_ Document) = render_epilogue (S fb) (render_f (S fb)) s2).
  { unfold render_event. fold fb. cbn [render_f]. rewrite render_body_view. unfold rview. cbn [kind_of].
    change (f_open (r_foot s2)) with (@nil (bytes * list event)).
    destruct HC2 as (_ & _ & C3 & C4 & _). rewrite C4. cbn [top_ld]. cbn [rmain is_block_container bind]. rewrite C3.
    cbn [cnt filter length Nat.ltb Nat.leb andb close_tag bind].
    change (fix render_f (fuel : nat) (s : rstate) (e : event) {struct fuel} : res (rstate * bytes) :=
      match fuel with 0 => Fuel | S f => render_body (fun s0 => render_epilogue f (render_f f) s0) s e end) with render_f.
    change (fun (s : rstate) (e : event) => render_body (fun s0 : rstate => render_epilogue fb (render_f fb) s0) s e) with (render_f (S fb)).
    destruct (render_epilogue (S fb) (render_f (S fb)) s2) as [[? ?]| |]; reflexivity. }
  destruct (epi_loop_phi fb (epi_ok_all fb) (S fb) s2 Hcl eq_refl) as [HnF _]; [pose proof (phi_bound (r_foot s2)); unfold fb; lia|pose proof (phi_bound (r_foot s2)); unfold fb; lia|].
  destruct (epi_loop_run fb (r_depth (r_new ind)) notes Hgood (S fb) s2 HC2 Hinv HnF) as (s3 & o3 & items & final & G1 & G2 & G3 & G4 & G5 & G6).
  assert (Hrefs : f_refs (r_foot s2) = add_new [] (labels_of (drop_defs false body)) /\ f_number (r_foot s2) = 0).
  { unfold s2. cbn [set_notes r_set_foot r_foot]. rewrite Hfoot. split; reflexivity. }
  destruct Hrefs as [Hrefs Hnum]. rewrite Hrefs, Hnum in G4. rewrite Hnum, Nat.sub_0_r in G6.
  assert (Hind : ind_of s2 = ind_of (r_new ind)) by (unfold ind_of, s2; cbn [set_notes r_set_foot r_indent]; rewrite Hi1; reflexivity).
  rewrite Hind in G6.
  assert (Hind3 : r_indent s3 = r_indent (r_new ind)) by (rewrite G3; exact Hi1).
  assert (Hlast : gap (ind_of (r_new ind)) (match r_indent (r_new ind) with Some _ => [NL] | None => [] end)).
  { destruct (r_indent (r_new ind)); [apply gap_nl|]; apply gap_nil. }
  assert (Htail : exists s4 tail, render_epilogue (S fb) (render_f (S fb)) s2 = Ok (s4, tail) /\ tail_spec (ind_of (r_new ind)) notes final tail).
  { unfold render_epilogue. destruct (f_refs (r_foot s2)) as [|r0 rs] eqn:Er.
    - cbn [bind]. do 2 eexists. split; [reflexivity|]. left. split.
      + rewrite <- Hrefs in G4. inversion G4; subst; auto. destruct (nth_error [] 0) eqn:En in H; discriminate.
      + cbn [app]. replace (r_indent s2) with (r_indent (r_new ind)) by (symmetry; exact Hi1). exact Hlast.
    - destruct (w_block_same_ok s2) as [w E2]. rewrite E2. cbn [bind]. rewrite E2. cbn [bind]. rewrite E2. cbn [bind].
      rewrite G1. cbn [bind]. destruct (w_block_same_ok s3) as [w' E3]. rewrite E3. cbn [bind]. rewrite E3. cbn [bind].
      do 2 eexists. split; [reflexivity|]. right. split.
      + apply numbered_prefix in G4. destruct G4 as [x Ex]. rewrite Ex, <- Hrefs. discriminate.
      + exists w, w, w, w', w', (match r_indent (r_new ind) with Some _ => [NL] | None => [] end), items.
        apply gap_block in E2, E3. rewrite Hind in E2. replace (ind_of s3) with (ind_of (r_new ind)) in E3 by (unfold ind_of; rewrite Hind3; auto).
        repeat (split; [assumption|]). rewrite G5, Hind3. rewrite <- !app_assoc. reflexivity. }
  destruct Htail as (s4 & tail & Et & Hts). rewrite Eep, Et. cbn [bind].
  exists s4, (concat outs ++ tail), outs, tail, final.
  split; [reflexivity|]. split; [eauto|]. split; [reflexivity|]. split; [exact G4|]. split; [|split; [exact Htx|exact Hts]].
  apply (render_list_refs body (r_new ind) s1 outs final Hdb Hcb eq_refl EL). rewrite Hfoot. cbn [f_refs]. eapply numbered_prefix; exact G4.
Qed.
