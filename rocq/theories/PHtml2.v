(** * PHtml2: proofs about the renderer: what an event does to the state *)
From Verif Require Import Base Attr Block Inline Doc Html Lib SpecHtml PHtml.
Local Open Scope nat_scope.

(** The state with other footnote stacks. *)
Definition set_notes (s : rstate) (o m : list (bytes * list event)) : rstate :=
  r_set_foot s (FN o (f_refs (r_foot s)) m (f_number (r_foot s))).
Definition res_map {A C} (f : A -> C) (r : res A) : res C := let! a := r in Ok (f a).
Definition notes_map (o m : list (bytes * list event)) (p : rstate * bytes) := (set_notes (fst p) o m, snd p).

Lemma w_block_notes s d o m : w_block (set_notes s o m) d = res_map (notes_map o m) (w_block s d).
Proof.
  destruct s as [[str|] dep raw img ti fi ig [op refs evs num]], d; try reflexivity.
  unfold w_block. cbn. destruct dep; reflexivity.
Qed.
Lemma open_tag_notes s c o m :
  open_tag (set_notes s o m) c =
  res_map (fun t => match t with inl s => inl (set_notes s o m) | inr p => inr (notes_map o m p) end) (open_tag s c).
Proof.
  destruct s as [ind dep raw img ti fi ig [op refs evs num]], c; try reflexivity.
  - destruct ti as [|[] ti]; reflexivity.
  - destruct head; reflexivity.
  - cbn. destruct img; reflexivity.
Qed.
Lemma close_open_tag_notes s c o m :
  close_open_tag (set_notes s o m) c = res_map (notes_map o m) (close_open_tag s c).
Proof.
  destruct c; try reflexivity; cbn [close_open_tag].
  - rewrite w_block_notes. destruct (w_block s DSame) as [[s1 o1]| |]; reflexivity.
  - destruct a; reflexivity.
Qed.
Lemma close_tag_notes s c o m :
  close_tag (set_notes s o m) c =
  res_map (fun t => match t with inl (inl u) => inl (inl u) | inl (inr s) => inl (inr (set_notes s o m))
                               | inr p => inr (notes_map o m p) end) (close_tag s c).
Proof.
  destruct s as [ind dep raw img ti fi ig [op refs evs num]], c; try reflexivity.
  - destruct ti as [|[] ti]; reflexivity.
  - destruct head; reflexivity.
  - cbn. destruct (usub img 1 "html.rs:617"); reflexivity.
Qed.
Lemma rmain_notes epi s e o m : doc_end e = false ->
  rmain epi (set_notes s o m) e = res_map (notes_map o m) (rmain epi s e).
Proof.
  intros Hd. destruct e; try reflexivity.
  - (* Start *) cbn [rmain].
    assert (E : (if is_block c then w_block (set_notes s o m) (if is_block_container c then DUp else DSame)
                 else Ok (set_notes s o m, []))
            = res_map (notes_map o m) (if is_block c then w_block s (if is_block_container c then DUp else DSame) else Ok (s, []))).
    { destruct (is_block c); [apply w_block_notes|reflexivity]. }
    rewrite E; clear E. destruct (if is_block c then _ else _) as [[s1 o1]| |]; cbn [bind res_map notes_map fst snd]; auto.
    change (r_img (set_notes s1 o m)) with (r_img s1). destruct (_ && _); [reflexivity|].
    rewrite open_tag_notes. destruct (open_tag s1 c) as [[s2|[s2 o2]]| |]; cbn [bind res_map notes_map fst snd]; auto.
    rewrite close_open_tag_notes. destruct (close_open_tag s2 c) as [[s3 o3]| |]; reflexivity.
  - (* End *) cbn [rmain].
    assert (E : (if is_block_container c then w_block (set_notes s o m) DDown
                 else Ok (set_notes s o m, []))
            = res_map (notes_map o m) (if is_block_container c then w_block s DDown else Ok (s, []))).
    { destruct (is_block_container c); [apply w_block_notes|reflexivity]. }
    rewrite E; clear E. destruct (if is_block_container c then _ else _) as [[s1 o1]| |]; cbn [bind res_map notes_map fst snd]; auto.
    change (r_img (set_notes s1 o m)) with (r_img s1). destruct (_ && _); [reflexivity|].
    rewrite close_tag_notes. destruct (close_tag s1 c) as [[[u|s2]|[s2 o2]]| |] eqn:E2; cbn [bind res_map notes_map fst snd]; auto.
    apply close_tag_doc in E2. subst c. discriminate.
  - (* FootnoteReference *)
    cbn [rmain]. unfold foot_reference. cbn [set_notes r_foot r_set_foot f_refs].
    destruct (position _ _); reflexivity.
  - cbn [rmain]. rewrite w_block_notes. destruct (w_block s DSame) as [[s1 o1]| |]; reflexivity.
  - cbn [rmain]. rewrite w_block_notes. destruct (w_block s DSame) as [[s1 o1]| |]; reflexivity.
Qed.

(** ** What an event does to the footnotes *)
Lemma position_add refs l :
  match position (bytes_eqb l) refs with
  | Some i => nth_error refs i = Some l /\ add_new refs [l] = refs
  | None => add_new refs [l] = refs ++ [l] /\ ~ List.In l refs
  end.
Proof.
  cbn [add_new]. destruct (in_dec (list_eq_dec ascii_dec) l refs) as [Hin|Hin].
  - assert (H : exists i, position (bytes_eqb l) refs = Some i /\ nth_error refs i = Some l).
    { induction refs as [|x refs IH]; [destruct Hin|]. cbn [position].
      destruct (bytes_eqb l x) eqn:E.
      - apply bytes_eqb_eq in E. subst x. exists 0. auto.
      - destruct Hin as [->|Hin]; [rewrite bytes_eqb_refl in E; discriminate|].
        destruct (IH Hin) as (i & -> & Hi). exists (S i). auto. }
    destruct H as (i & -> & Hi). auto.
  - assert (H : position (bytes_eqb l) refs = None).
    { clear -Hin. induction refs as [|x refs IH]; [reflexivity|]. cbn [position].
      destruct (bytes_eqb l x) eqn:E.
      - apply bytes_eqb_eq in E. subst x. exfalso. apply Hin. left; auto.
      - rewrite IH; auto. intros H. apply Hin. right; auto. }
    rewrite H. auto.
Qed.
Lemma foot_reference_spec f l :
  fst (foot_reference f l) = FN (f_open f) (add_new (f_refs f) [l]) (f_events f) (f_number f) /\
  exists i, snd (foot_reference f l) = S i /\ nth_error (add_new (f_refs f) [l]) i = Some l.
Proof.
  unfold foot_reference. pose proof (position_add (f_refs f) l) as H.
  destruct (position (bytes_eqb l) (f_refs f)) as [i|].
  - destruct H as [Hn ->]. split; [destruct f; reflexivity|]. exists i. split; [simpl; lia|auto].
  - destruct H as [-> _]. cbn [fst snd]. split; auto.
    exists (length (f_refs f)). rewrite app_length. cbn [length]. split; [lia|].
    rewrite nth_error_app2, Nat.sub_diag by lia. reflexivity.
Qed.

Definition label_of (e : event) : list bytes := match e with FootnoteReference l => [l] | _ => [] end.

Lemma w_block_frame s d s' o : w_block s d = Ok (s', o) ->
  s' = r_set_depth s (r_depth s') .
Proof.
  unfold w_block. destruct (r_indent s) eqn:E.
  - destruct d; [intros [= <- <-]; reflexivity|intros [= <- <-]; destruct s; reflexivity|].
    destruct (r_depth s); [discriminate|]. intros [= <- <-]. reflexivity.
  - intros [= <- <-]. destruct s; reflexivity.
Qed.
Lemma open_tag_frame s c s' : 
  open_tag s c = Ok (inl s') \/ (exists o, open_tag s c = Ok (inr (s', o))) ->
  r_indent s' = r_indent s /\ r_depth s' = r_depth s /\ r_first s' = r_first s /\ r_ignore s' = r_ignore s /\ r_foot s' = r_foot s.
Proof.
  intros H. destruct c; cbn [open_tag] in H;
    try (destruct H as [[= <-]|(o & [= <- <-])]; repeat split; reflexivity);
    try (destruct H as [[=]|(o & [=])]; fail).
  - destruct (tight_top s); destruct H as [H|(o & H)]; inv H; repeat split; reflexivity.
  - destruct head; destruct H as [H|(o & H)]; inv H; repeat split; reflexivity.
  - destruct (Nat.eqb _ _); destruct H as [H|(o & H)]; inv H; repeat split; reflexivity.
Qed.
Lemma close_open_tag_frame s c s' o : close_open_tag s c = Ok (s', o) -> s' = s.
Proof.
  destruct c; cbn [close_open_tag]; try (intros [= <- <-]; reflexivity); try destruct a; try (intros [= <- <-]; reflexivity).
  intros H. apply bind_ok in H. destruct H as ([s1 o1] & H & H2). injection H2 as <- <-.
  unfold w_block in H. destruct (r_indent s); injection H as <- <-; reflexivity.
Qed.
Lemma close_tag_frame s c s' :
  close_tag s c = Ok (inl (inr s')) \/ (exists o, close_tag s c = Ok (inr (s', o))) ->
  r_indent s' = r_indent s /\ r_depth s' = r_depth s /\ r_first s' = r_first s /\ r_ignore s' = r_ignore s /\ r_foot s' = r_foot s.
Proof.
  intros H. destruct c; cbn [close_tag] in H;
    try (destruct H as [[= <-]|(o & [= <- <-])]; repeat split; reflexivity);
    try (destruct H as [[=]|(o & [=])]; fail).
  - destruct (tight_top s); destruct H as [H|(o & H)]; inv H; repeat split; reflexivity.
  - destruct head; destruct H as [H|(o & H)]; inv H; repeat split; reflexivity.
  - destruct (usub _ _ _); destruct H as [H|(o & H)]; inv H; repeat split; reflexivity.
Qed.

Lemma rmain_frame epi s e s' o : doc_end e = false -> rmain epi s e = Ok (s', o) ->
  r_indent s' = r_indent s /\ r_ignore s' = r_ignore s /\
  r_foot s' = FN (f_open (r_foot s)) (add_new (f_refs (r_foot s)) (label_of e)) (f_events (r_foot s)) (f_number (r_foot s)).
Proof.
  intros Hd H. assert (Hs : r_foot s = FN (f_open (r_foot s)) (f_refs (r_foot s)) (f_events (r_foot s)) (f_number (r_foot s))) by (destruct (r_foot s); reflexivity).
  destruct e; cbn [rmain label_of add_new] in *;
    try (injection H as <- <-; repeat split; auto; fail).
  - apply bind_ok in H. destruct H as ([s1 o1] & H1 & H).
    assert (E1 : r_indent s1 = r_indent s /\ r_ignore s1 = r_ignore s /\ r_foot s1 = r_foot s).
    { destruct (is_block c); [|injection H1 as <- <-; auto]. apply w_block_frame in H1. rewrite H1. auto. }
    rewrite <- Hs. destruct E1 as (E1 & E2 & E3). rewrite <- E1, <- E2, <- E3. clear H1 E1 E2 E3.
    destruct (_ && _); [injection H as <- <-; auto|].
    apply bind_ok in H. destruct H as ([s2|[s2 o2]] & H2 & H).
    + injection H as <- <-. destruct (open_tag_frame s1 c s2) as (? & ? & ? & ? & ?); auto.
    + apply bind_ok in H. destruct H as ([s3 o3] & H3 & H). injection H as <- <-.
      apply close_open_tag_frame in H3. subst s3. destruct (open_tag_frame s1 c s2) as (? & ? & ? & ? & ?); eauto.
  - apply bind_ok in H. destruct H as ([s1 o1] & H1 & H).
    assert (E1 : r_indent s1 = r_indent s /\ r_ignore s1 = r_ignore s /\ r_foot s1 = r_foot s).
    { destruct (is_block_container c); [|injection H1 as <- <-; auto]. apply w_block_frame in H1. rewrite H1. auto. }
    rewrite <- Hs. destruct E1 as (E1 & E2 & E3). rewrite <- E1, <- E2, <- E3. clear H1 E1 E2 E3.
    destruct (_ && _); [injection H as <- <-; auto|].
    apply bind_ok in H. destruct H as ([[u|s2]|[s2 o2]] & H2 & H).
    + apply close_tag_doc in H2. subst c. discriminate.
    + injection H as <- <-. destruct (close_tag_frame s1 c s2) as (? & ? & ? & ? & ?); eauto.
    + injection H as <- <-. destruct (close_tag_frame s1 c s2) as (? & ? & ? & ? & ?); eauto.
  - pose proof (foot_reference_spec (r_foot s) label) as [Hf _].
    destruct (foot_reference (r_foot s) label) as [f n]. cbn [fst] in Hf. injection H as <- <-.
    cbn [r_set_first r_set_foot r_indent r_ignore r_foot]. auto.
  - apply bind_ok in H. destruct H as ([s1 o1] & H1 & H). injection H as <- <-. apply w_block_frame in H1. rewrite H1. auto.
  - apply bind_ok in H. destruct H as ([s1 o1] & H1 & H). injection H as <- <-. apply w_block_frame in H1. rewrite H1. auto.
Qed.
