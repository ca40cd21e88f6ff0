(** * PHtml4: proofs about the renderer: link definitions, numbers, termination *)
From Verif Require Import Base Attr Block Inline Doc Html Lib SpecHtml PHtml PHtml2 PHtml3.
Local Open Scope nat_scope.

(** ** Link definitions *)
Fixpoint ign_after (ign : bool) (evs : list event) : bool :=
  match evs with
  | [] => ign
  | Start (LinkDefinition _) _ :: r => ign_after true r
  | End_ (LinkDefinition _) :: r => ign_after false r
  | _ :: r => ign_after ign r
  end.
Lemma drop_defs_cons ign e r :
  drop_defs ign (e :: r) =
  match kind_of e with
  | KDStart => drop_defs true r
  | KDEnd => drop_defs false r
  | _ => if ign then drop_defs true r else e :: drop_defs false r
  end.
Proof. destruct e as [c a|c| | | | | | | | | | | | | | | | |]; try destruct c; reflexivity. Qed.
Lemma ign_after_cons ign e r :
  ign_after ign (e :: r) =
  match kind_of e with KDStart => ign_after true r | KDEnd => ign_after false r | _ => ign_after ign r end.
Proof. destruct e as [c a|c| | | | | | | | | | | | | | | | |]; try destruct c; reflexivity. Qed.
Lemma drop_defs_app ign a b : drop_defs ign (a ++ b) = drop_defs ign a ++ drop_defs (ign_after ign a) b.
Proof.
  revert ign; induction a as [|e a IH]; intros ign; [reflexivity|].
  cbn [app]. rewrite !drop_defs_cons, ign_after_cons.
  destruct (kind_of e), ign; rewrite IH; reflexivity.
Qed.
Lemma ign_after_app ign a b : ign_after ign (a ++ b) = ign_after (ign_after ign a) b.
Proof.
  revert ign; induction a as [|e a IH]; intros ign; [reflexivity|].
  cbn [app]. rewrite !ign_after_cons. destruct (kind_of e); apply IH.
Qed.

Definition ign_map (b : bool) (p : rstate * bytes) := (r_set_ignore (fst p) b, snd p).
Lemma r_set_ignore_id s : r_set_ignore s (r_ignore s) = s.
Proof. destruct s; reflexivity. Qed.
Lemma r_set_ignore_twice s a b : r_set_ignore (r_set_ignore s a) b = r_set_ignore s b.
Proof. reflexivity. Qed.

Lemma render_drop evs : forall s,
  no_doc_end evs = true -> f_open (r_foot s) = [] -> no_fstart evs ->
  render_events s evs =
  res_map (ign_map (ign_after (r_ignore s) evs))
          (render_events (r_set_ignore s false) (drop_defs (r_ignore s) evs)).
Proof.
  induction evs as [|e evs IH]; intros s Hd Ho Hf.
  - cbn. unfold ign_map. cbn. rewrite r_set_ignore_twice, r_set_ignore_id. reflexivity.
  - apply no_doc_end_cons in Hd. destruct Hd as [Hd1 Hd].
    assert (Hke : forall l, kind_of e <> KFStart l) by (intros l; apply Hf; left; auto).
    assert (Hf' : no_fstart evs) by (intros e' l' Hin; apply Hf; right; auto).
    cbn [render_events]. rewrite render_event_body by auto.
    rewrite drop_defs_cons, ign_after_cons.
    assert (Hmain : kind_of e <> KDStart -> kind_of e <> KDEnd ->
      (let! (s0, o) := rbody s e in let! (s1, o') := render_events s0 evs in Ok (s1, o ++ o')) =
      res_map (ign_map (ign_after (r_ignore s) evs))
        (render_events (r_set_ignore s false)
           (if r_ignore s then drop_defs true evs else e :: drop_defs false evs))).
    { intros K1 K2. destruct (r_ignore s) eqn:Ei.
      - assert (E : rbody s e = Ok (s, [])).
        { unfold rbody, rview. rewrite Ho, Ei. destruct (kind_of e); try congruence; auto; exfalso; eapply Hke; eauto. }
        rewrite E. cbn [bind]. rewrite IH by auto. rewrite Ei, bind_id. reflexivity.
      - cbn [render_events]. rewrite render_event_body by auto.
        replace (r_set_ignore s false) with s by (rewrite <- Ei; symmetry; apply r_set_ignore_id).
        unfold res_map. destruct (rbody s e) as [[s1 o1]| |] eqn:E; cbn [bind]; auto.
        pose proof E as E'. apply rbody_frame in E'; auto. destruct E' as (_ & Ho1 & _ & _ & _).
        assert (Ei1 : r_ignore s1 = false).
        { unfold rbody, rview in E. rewrite Ho, Ei in E.
          destruct (kind_of e); try congruence; try (exfalso; eapply Hke; eauto; fail);
            apply rmain_frame in E; auto; destruct E as (_ & -> & _); auto. }
        rewrite IH by auto. rewrite Ei1. unfold res_map.
        replace (r_set_ignore s1 false) with s1 by (rewrite <- Ei1; symmetry; apply r_set_ignore_id).
        destruct (render_events s1 _) as [[s2 o2]| |]; reflexivity. }
    destruct (kind_of e) eqn:K.
    + exfalso; eapply Hke; eauto.
    + apply Hmain; congruence.
    + clear Hmain. unfold rbody, rview. rewrite K, Ho. cbn [bind]. rewrite IH by auto. rewrite bind_id. reflexivity.
    + clear Hmain. unfold rbody, rview. rewrite K, Ho. cbn [bind]. rewrite IH by auto. rewrite bind_id. reflexivity.
    + apply Hmain; congruence.
Qed.

(** ** Numbers *)
Lemma add_new_app refs a b : add_new refs (a ++ b) = add_new (add_new refs a) b.
Proof. revert refs; induction a as [|l a IH]; intros refs; [reflexivity|]. cbn [app add_new]. apply IH. Qed.
Lemma add_new_ext refs ls : exists ext, add_new refs ls = refs ++ ext /\ length ext <= length ls.
Proof.
  revert refs; induction ls as [|l ls IH]; intros refs; cbn [add_new].
  - exists []. rewrite app_nil_r. auto.
  - destruct (in_dec (list_eq_dec ascii_dec) l refs).
    + destruct (IH refs) as (ext & -> & ?). exists ext. cbn [length]. split; auto.
    + destruct (IH (refs ++ [l])) as (ext & -> & ?). exists (l :: ext). rewrite <- app_assoc. cbn [length app]. split; auto. lia.
Qed.
Lemma add_new_nodup refs ls : NoDup refs -> NoDup (add_new refs ls).
Proof.
  revert refs; induction ls as [|l ls IH]; intros refs H; cbn [add_new]; auto.
  destruct (in_dec (list_eq_dec ascii_dec) l refs); apply IH; auto.
  apply NoDup_Add with (a := l) (l := refs); [|split; auto].
  clear. induction refs; cbn [app]; [apply Add_head|apply Add_cons; auto].
Qed.
Lemma add_new_in refs ls l : List.In l (add_new refs ls) <-> List.In l refs \/ List.In l ls.
Proof.
  revert refs; induction ls as [|x ls IH]; intros refs; cbn [add_new].
  - cbn. tauto.
  - destruct (in_dec (list_eq_dec ascii_dec) x refs) as [Hin|Hin]; rewrite IH.
    + cbn [List.In]. split; [tauto|]. intros [?|[<-|?]]; auto.
    + rewrite in_app_iff. cbn [List.In]. tauto.
Qed.
Lemma labels_of_app a b : labels_of (a ++ b) = labels_of a ++ labels_of b.
Proof. unfold labels_of. apply flat_map_app. Qed.

Lemma render_refs evs : forall s s' o,
  no_doc_end evs = true -> f_open (r_foot s) = [] -> no_fstart evs ->
  render_events s evs = Ok (s', o) ->
  r_indent s' = r_indent s /\ r_ignore s' = ign_after (r_ignore s) evs /\
  r_foot s' = FN [] (add_new (f_refs (r_foot s)) (labels_of (drop_defs (r_ignore s) evs))) (f_events (r_foot s)) (f_number (r_foot s)).
Proof.
  induction evs as [|e evs IH]; intros s s' o Hd Ho Hf H.
  - cbn in H. injection H as <- <-. cbn. destruct (r_foot s); cbn in *; subst; auto.
  - apply no_doc_end_cons in Hd. destruct Hd as [Hd1 Hd].
    assert (Hke : forall l, kind_of e <> KFStart l) by (intros l; apply Hf; left; auto).
    assert (Hf' : no_fstart evs) by (intros e' l' Hin; apply Hf; right; auto).
    cbn [render_events] in H. rewrite render_event_body in H by auto.
    apply bind_ok in H. destruct H as ([s1 o1] & H1 & H).
    apply bind_ok in H. destruct H as ([s2 o2] & H2 & H). injection H as <- <-.
    pose proof H1 as F. apply rbody_frame in F; auto. destruct F as (Fi & Fo & Fe & Fn & Fr).
    assert (Eig : r_ignore s1 = ign_after (r_ignore s) [e]).
    { rewrite ign_after_cons. cbn [ign_after]. unfold rbody, rview in H1. rewrite Ho in H1.
      destruct (kind_of e); try (injection H1 as <- <-; reflexivity);
        (destruct (r_ignore s) eqn:Ei; [injection H1 as <- <-; auto|]);
        apply rmain_frame in H1; auto; destruct H1 as (_ & -> & _); auto. }
    apply IH in H2; auto. destruct H2 as (-> & -> & ->).
    change (e :: evs) with ([e] ++ evs). rewrite ign_after_app, drop_defs_app, labels_of_app, add_new_app.
    rewrite Eig, Fr, Fe, Fn. auto.
Qed.

(** ** Termination *)
Definition clean_body (evs : list event) : Prop := forall e, List.In e evs -> (forall l, kind_of e <> KFStart l) /\ kind_of e <> KFEnd.
Definition clean_foot (f : footnotes) : Prop :=
  (forall l b, List.In (l, b) (f_events f) -> clean_body b) /\ (forall l b, List.In (l, b) (f_open f) -> clean_body b).
Definition sizes (m : list (bytes * list event)) : nat := list_sum (map (fun e => length (snd e)) m).
Definition phi (f : footnotes) : nat := (length (f_refs f) - f_number f) + sizes (f_events f).

Lemma sizes_cons x m : sizes (x :: m) = length (snd x) + sizes m.
Proof. reflexivity. Qed.
Lemma sizes_remove m k : sizes (map_remove m k) + match map_get m k with Some l => length l | None => 0 end <= sizes m.
Proof.
  unfold map_get. induction m as [|[l b] m IH]; [auto|].
  cbn [map_remove filter find]. fold (map_remove m k). cbn [fst].
  destruct (bytes_eqb l k); cbn [negb option_map].
  - rewrite sizes_cons. cbn [snd]. lia.
  - rewrite !sizes_cons. cbn [snd]. lia.
Qed.
Lemma map_remove_in m k x : List.In x (map_remove m k) -> List.In x m.
Proof. unfold map_remove. rewrite filter_In. tauto. Qed.
Lemma map_get_in m k b : map_get m k = Some b -> List.In (k, b) m.
Proof.
  unfold map_get. destruct (find _ m) as [[l b']|] eqn:E; cbn; [|discriminate]. intros [= ->].
  apply find_some in E. destruct E as [E1 E2]. apply bytes_eqb_eq in E2. cbn in E2. subst l. auto.
Qed.

(** An event other than the end of the document is never out of fuel. *)
Lemma w_block_nofuel s d : w_block s d <> Fuel.
Proof. unfold w_block. destruct (r_indent s), d; try discriminate. destruct (r_depth s); discriminate. Qed.
Lemma open_tag_nofuel s c : open_tag s c <> Fuel.
Proof. destruct c; cbn; try discriminate; try destruct (tight_top s); try destruct head; try destruct (r_img s); try discriminate. Qed.
Lemma close_open_tag_nofuel s c : close_open_tag s c <> Fuel.
Proof. 
  destruct c; cbn; try discriminate.
  - pose proof (w_block_nofuel s DSame). destruct (w_block s DSame) as [[? ?]| |]; cbn; congruence.
  - destruct a; discriminate.
Qed.
Lemma close_tag_nofuel s c : close_tag s c <> Fuel.
Proof. destruct c; cbn; try discriminate; try destruct (tight_top s); try destruct head; try (unfold usub; destruct (Nat.leb _ _)); discriminate. Qed.

Ltac nofuel_bind H :=
  match goal with
  | |- bind ?r _ <> Fuel => let E := fresh "E" in destruct r as [?| |] eqn:E; cbn [bind]; [|discriminate|exfalso; revert E; apply H]
  end.
Lemma rmain_nofuel epi s e : (doc_end e = true -> forall s', r_foot s' = r_foot s -> epi s' <> Fuel) -> rmain epi s e <> Fuel.
Proof.
  intros He. destruct e; cbn [rmain]; try discriminate.
  - assert (H : (if is_block c then w_block s (if is_block_container c then DUp else DSame) else Ok (s, [])) <> Fuel)
      by (destruct (is_block c); [apply w_block_nofuel|discriminate]).
    destruct (if is_block c then _ else _) as [[s1 o1]| |]; cbn [bind]; [|discriminate|congruence]. destruct (_ && _); [discriminate|].
    nofuel_bind open_tag_nofuel. destruct a0 as [s2|[s2 o2]]; [discriminate|].
    nofuel_bind close_open_tag_nofuel. destruct a0 as [s3 o3]. discriminate.
  - assert (H : (if is_block_container c then w_block s DDown else Ok (s, [])) <> Fuel)
      by (destruct (is_block_container c); [apply w_block_nofuel|discriminate]).
    destruct (if is_block_container c then w_block s DDown else Ok (s, [])) as [[s1 o1]| |] eqn:E; cbn [bind]; [|discriminate|congruence].
    destruct (_ && _); [discriminate|].
    destruct (close_tag s1 c) as [[[u|s2]|[s2 o2]]| |] eqn:E2; cbn [bind]; try discriminate.
    + apply close_tag_doc in E2. subst c. cbn in E. injection E as <- <-.
      specialize (He eq_refl s eq_refl). destruct (epi s) as [[? ?]| |]; cbn; congruence.
    + exfalso; revert E2; apply close_tag_nofuel.
  - destruct (foot_reference (r_foot s) label). discriminate.
  - pose proof (w_block_nofuel s DSame). destruct (w_block s DSame) as [[? ?]| |]; cbn; congruence.
  - pose proof (w_block_nofuel s DSame). destruct (w_block s DSame) as [[? ?]| |]; cbn; congruence.
Qed.

Definition epi_ok (f : nat) : Prop := forall s,
  clean_foot (r_foot s) -> f_open (r_foot s) = [] -> phi (r_foot s) <= f ->
  render_epilogue f (render_f f) s <> Fuel /\
  forall s' o, render_epilogue f (render_f f) s = Ok (s', o) ->
    clean_foot (r_foot s') /\ f_open (r_foot s') = [] /\ phi (r_foot s') <= phi (r_foot s).

Lemma phi_ref f l : phi (FN (f_open f) (add_new (f_refs f) l) (f_events f) (f_number f)) <= phi f + length l.
Proof.
  unfold phi. cbn [f_refs f_number f_events]. destruct (add_new_ext (f_refs f) l) as (ext & -> & H).
  rewrite app_length. lia.
Qed.

(** One event of a footnote. *)
Lemma rbody_phi g s e : epi_ok g -> clean_foot (r_foot s) -> f_open (r_foot s) = [] ->
  (forall l, kind_of e <> KFStart l) -> phi (r_foot s) <= g ->
  render_f (S g) s e <> Fuel /\
  forall s' o, render_f (S g) s e = Ok (s', o) ->
    clean_foot (r_foot s') /\ f_open (r_foot s') = [] /\ phi (r_foot s') <= phi (r_foot s) + 1.
Proof.
  intros Hg Hc Ho Hk Hp. cbn [render_f]. rewrite render_body_view.
  destruct (doc_end e) eqn:Hd.
  - assert (e = End_ Document) as -> by (destruct e as [|c| | | | | | | | | | | | | | | | |]; try discriminate; destruct c; try discriminate; reflexivity).
    unfold rview. cbn [kind_of]. rewrite Ho. destruct (r_ignore s).
    { split; [discriminate|]. intros s' o [= <- <-]. split; [auto|split; [auto|lia]]. }
    cbn [rmain is_block_container bind]. destruct (_ && _).
    { split; [discriminate|]. intros s' o [= <- <-]. split; [auto|split; [auto|lia]]. }
    cbn [close_tag bind]. specialize (Hg s Hc Ho Hp). destruct Hg as [Hn Hg].
    destruct (render_epilogue g (render_f g) s) as [[s' o]| |] eqn:E; cbn [bind]; try congruence.
    + split; [discriminate|]. intros s2 o2 [= <- <-]. specialize (Hg _ _ eq_refl). destruct Hg as (? & ? & ?). split; [auto|split; [auto|lia]].
    + split; discriminate.
  - split.
    + unfold rview. rewrite Ho. destruct (kind_of e); try discriminate;
        (destruct (r_ignore s); [discriminate|apply rmain_nofuel; congruence]).
    + intros s' o H. unfold rview in H. rewrite Ho in H.
      assert (Hsame : forall s0, r_foot s0 = r_foot s -> clean_foot (r_foot s0) /\ f_open (r_foot s0) = [] /\ phi (r_foot s0) <= phi (r_foot s) + 1).
      { intros s0 ->. split; auto. split; auto. lia. }
      assert (Hmain : rmain (fun s0 => render_epilogue g (render_f g) s0) s e = Ok (s', o) -> clean_foot (r_foot s') /\ f_open (r_foot s') = [] /\ phi (r_foot s') <= phi (r_foot s) + 1).
      { intros Hm. apply rmain_frame in Hm; auto. destruct Hm as (_ & _ & ->). split; [|split].
        - destruct Hc as [Hc1 Hc2]. split; cbn; auto.
        - cbn. auto.
        - eapply Nat.le_trans; [apply phi_ref|]. destruct e; cbn; lia. }
      destruct (kind_of e); try (exfalso; eapply Hk; eauto; fail);
        try (injection H as <- <-; apply Hsame; reflexivity);
        (destruct (r_ignore s); [injection H as <- <-; apply Hsame; reflexivity|auto]).
Qed.

Lemma foot_events_phi g evs : epi_ok g -> clean_body evs -> forall s u,
  clean_foot (r_foot s) -> f_open (r_foot s) = [] -> phi (r_foot s) + length evs <= g ->
  foot_events (render_f (S g)) s evs u <> Fuel /\
  forall s' o u', foot_events (render_f (S g)) s evs u = Ok (s', o, u') ->
    clean_foot (r_foot s') /\ f_open (r_foot s') = [] /\ phi (r_foot s') <= phi (r_foot s) + length evs.
Proof.
  intros Hg. induction evs as [|e evs IH]; intros Hb s u Hc Ho Hp.
  - cbn [foot_events]. split; [discriminate|]. intros s' o u' [= <- <- <-]. split; auto. split; auto. lia.
  - assert (Hb' : clean_body evs) by (intros x Hx; apply Hb; right; auto). cbn [length] in *.
    assert (Hskip : forall u, foot_events (render_f (S g)) s evs u <> Fuel /\
      forall s' o u', foot_events (render_f (S g)) s evs u = Ok (s', o, u') ->
      clean_foot (r_foot s') /\ f_open (r_foot s') = [] /\ phi (r_foot s') <= phi (r_foot s) + S (length evs)).
    { intros u0. destruct (IH Hb' s u0 Hc Ho) as [H1 H2]; [lia|]. split; auto. intros s' o u' E. destruct (H2 _ _ _ E) as (? & ? & ?). split; auto. split; auto. lia. }
    assert (Hr : forall u1 : rstate -> bool,
       (let! (s1, o) := render_f (S g) s e in let! (s2, o', u2) := foot_events (render_f (S g)) s1 evs (u1 s1) in
        Ok (s2, (if u then B "</p>" else []) ++ o ++ o', u2)) <> Fuel /\
      forall s' o u', (let! (s1, o) := render_f (S g) s e in let! (s2, o', u2) := foot_events (render_f (S g)) s1 evs (u1 s1) in
        Ok (s2, (if u then B "</p>" else []) ++ o ++ o', u2)) = Ok (s', o, u') ->
      clean_foot (r_foot s') /\ f_open (r_foot s') = [] /\ phi (r_foot s') <= phi (r_foot s) + S (length evs)).
    { intros u1. destruct (rbody_phi g s e Hg Hc Ho) as [Hn H1].
      - apply Hb. left; auto.
      - lia.
      - destruct (render_f (S g) s e) as [[s1 o1]| |]; cbn [bind]; [|split; discriminate|congruence].
        destruct (H1 _ _ eq_refl) as (Hc1 & Ho1 & Hp1).
        destruct (IH Hb' s1 (u1 s1) Hc1 Ho1) as [Hn2 H2]; [lia|].
        destruct (foot_events _ s1 evs _) as [[[s2 o2] u2]| |]; cbn [bind]; [|split; discriminate|congruence].
        split; [discriminate|]. intros s' o u' [= <- <- <-]. destruct (H2 _ _ _ eq_refl) as (? & ? & ?).
        split; auto. split; auto. lia. }
    cbn [foot_events]. destruct e; try apply Hskip; try apply (Hr (fun _ => false)).
    destruct c; try apply (Hr (fun _ => false)). apply (Hr (fun s => negb (tight_top s))).
Qed.

Lemma foot_next_phi f n evs f' : clean_foot f -> foot_next f = Some (n, evs, f') ->
  clean_foot f' /\ f_open f' = f_open f /\ clean_body (match evs with Some l => l | None => [] end) /\
  phi f' + length (match evs with Some l => l | None => [] end) + 1 <= phi f.
Proof.
  intros [Hc1 Hc2] H. unfold foot_next in H. destruct (nth_error (f_refs f) (f_number f)) as [l|] eqn:E; [|discriminate].
  injection H as <- <- <-. split; [|split; [|split]].
  - split; cbn; auto. intros l0 b Hin. apply map_remove_in in Hin. eauto.
  - reflexivity.
  - destruct (map_get (f_events f) l) eqn:Eg; [|intros ? []]. apply map_get_in in Eg. eauto.
  - unfold phi. cbn [f_refs f_number f_events].
    assert (f_number f < length (f_refs f)) by (apply nth_error_Some; congruence).
    pose proof (sizes_remove (f_events f) l) as H1. destruct (map_get (f_events f) l); cbn [length]; lia.
Qed.
Lemma foot_next_none f : foot_next f = None <-> length (f_refs f) <= f_number f.
Proof.
  unfold foot_next. destruct (nth_error (f_refs f) (f_number f)) eqn:E.
  - assert (f_number f < length (f_refs f)) by (apply nth_error_Some; congruence). split; [discriminate|lia].
  - apply nth_error_None in E. split; auto.
Qed.

Lemma w_block_same s s' o : w_block s DSame = Ok (s', o) -> s' = s.
Proof. unfold w_block. destruct (r_indent s); intros [= <- <-]; reflexivity. Qed.
Lemma w_block_same_ok s : exists o, w_block s DSame = Ok (s, o).
Proof. unfold w_block. destruct (r_indent s); eauto. Qed.

Lemma epi_loop_phi g : epi_ok g -> forall fu s,
  clean_foot (r_foot s) -> f_open (r_foot s) = [] -> phi (r_foot s) <= fu -> phi (r_foot s) <= S g ->
  epi_loop fu (render_f (S g)) s <> Fuel /\
  forall s' o, epi_loop fu (render_f (S g)) s = Ok (s', o) ->
    clean_foot (r_foot s') /\ f_open (r_foot s') = [] /\ phi (r_foot s') <= phi (r_foot s).
Proof.
  intros Hg. induction fu as [|fu IH]; intros s Hc Ho Hp Hp2; cbn [epi_loop].
  - destruct (foot_next (r_foot s)) as [[[n evs] f]|] eqn:E.
    + destruct (foot_next_phi _ _ _ _ Hc E) as (_ & _ & _ & ?). lia.
    + split; [discriminate|]. intros s' o [= <- <-]. auto.
  - destruct (foot_next (r_foot s)) as [[[n evs] f]|] eqn:E.
    2:{ split; [discriminate|]. intros s' o [= <- <-]. auto. }
    destruct (foot_next_phi _ _ _ _ Hc E) as (Hc1 & Ho1 & Hb & Hphi).
    set (b := match evs with Some l => l | None => [] end) in *.
    destruct (w_block_same_ok (r_set_foot s f)) as [o1 E1]. rewrite E1. cbn [bind].
    destruct (foot_events_phi g b Hg Hb (r_set_foot s f) false) as [Hn H1].
    { exact Hc1. } { cbn. congruence. } { cbn [r_foot r_set_foot]. lia. }
    destruct (foot_events _ _ b false) as [[[s2 o2] u]| |]; cbn [bind]; [|split; discriminate|congruence].
    destruct (H1 _ _ _ eq_refl) as (Hc2 & Ho2 & Hp3). cbn [r_foot r_set_foot] in Hp3.
    destruct (w_block_same_ok s2) as [o3 E3].
    assert (E4 : exists o, (if u then Ok (s2, []) else let! (s, o) := w_block s2 DSame in Ok (s, o ++ B "<p>")) = Ok (s2, o)).
    { destruct u; [eauto|]. rewrite E3. cbn [bind]. eauto. }
    destruct E4 as [o4 E4]. rewrite E4. cbn [bind]. rewrite E3. cbn [bind].
    destruct (IH s2 Hc2 Ho2) as [Hn3 H3]; [lia|lia|].
    destruct (epi_loop fu _ s2) as [[s3 rest]| |]; cbn [bind]; [|split; discriminate|congruence].
    split; [discriminate|]. intros s' o [= <- <-]. destruct (H3 _ _ eq_refl) as (? & ? & ?). split; auto. split; auto. lia.
Qed.
Lemma epi_loop_done fu rend s : phi (r_foot s) = 0 -> epi_loop fu rend s = Ok (s, []).
Proof.
  intros H. assert (E : foot_next (r_foot s) = None) by (apply foot_next_none; unfold phi in H; lia).
  destruct fu; cbn [epi_loop]; rewrite E; reflexivity.
Qed.

Lemma epi_wrap f rend s (P : rstate -> Prop) : P s ->
  (epi_loop f rend s <> Fuel /\ forall s' o, epi_loop f rend s = Ok (s', o) -> P s') ->
  render_epilogue f rend s <> Fuel /\ forall s' o, render_epilogue f rend s = Ok (s', o) -> P s'.
Proof.
  intros HP [Hn H]. unfold render_epilogue. destruct (f_refs (r_foot s)).
  - cbn [bind]. split; [discriminate|]. intros s' o [= <- <-]. auto.
  - destruct (w_block_same_ok s) as [o1 E1]. rewrite E1. cbn [bind]. rewrite E1. cbn [bind]. rewrite E1. cbn [bind].
    destruct (epi_loop f rend s) as [[s2 o2]| |]; cbn [bind]; [|split; discriminate|congruence].
    destruct (w_block_same_ok s2) as [o3 E3]. rewrite E3. cbn [bind]. rewrite E3. cbn [bind].
    split; [discriminate|]. intros s' o [= <- <-]. eauto.
Qed.
Lemma epi_ok_all f : epi_ok f.
Proof.
  induction f as [|g IH]; intros s Hc Ho Hp; apply (epi_wrap _ _ s (fun s' => clean_foot (r_foot s') /\ f_open (r_foot s') = [] /\ phi (r_foot s') <= phi (r_foot s))); auto.
  - rewrite epi_loop_done by lia. split; [discriminate|]. intros s' o [= <- <-]. auto.
  - apply epi_loop_phi; auto.
Qed.

(** Rendering any events terminates. *)
Lemma phi_bound f : phi f <= foot_bound f.
Proof. unfold phi, foot_bound, sizes. lia. Qed.
Lemma render_event_total s e : clean_foot (r_foot s) ->
  render_event s e <> Fuel /\ forall s' o, render_event s e = Ok (s', o) -> clean_foot (r_foot s').
Proof.
  intros Hc. unfold render_event. pose proof (phi_bound (r_foot s)) as Hp.
  destruct (f_open (r_foot s)) as [|[l b] st] eqn:Ho.
  - destruct (kind_of e) eqn:K.
    { cbn [render_f]. rewrite render_body_view. unfold rview. rewrite K, Ho.
      split; [discriminate|]. intros s' o [= <- <-]. destruct Hc as [Hc1 Hc2]. split; cbn; auto.
      intros l0 b0 [[= <- <-]|[]]. intros ? []. }
    all: destruct (rbody_phi (S (foot_bound (r_foot s))) s e) as [H1 H2]; auto using epi_ok_all; try congruence; try lia;
      split; auto; intros s' o E; apply (H2 _ _ E).
  - cbn [render_f]. rewrite render_body_view. unfold rview. rewrite Ho. destruct Hc as [Hc1 Hc2].
    assert (Hb : clean_body b) by (apply (Hc2 l); rewrite Ho; left; auto).
    assert (Hst : forall l b, List.In (l, b) st -> clean_body b) by (intros ? ? ?; eapply Hc2; rewrite Ho; right; eauto).
    assert (Hpush : (forall l, kind_of e <> KFStart l) -> kind_of e <> KFEnd -> clean_foot (r_foot (set_open s ((l, b ++ [e]) :: st)))).
    { intros K1 K2. split; cbn; auto. intros l0 b0 [[= <- <-]|Hin]; eauto.
      intros x Hx. apply in_app_iff in Hx. destruct Hx as [Hx|[<-|[]]]; auto. }
    destruct (kind_of e) eqn:K; (split; [discriminate|]; intros s' o [= <- <-]); try (apply Hpush; congruence).
    + split; cbn; auto. intros l1 b1 [[= <- <-]|[[= <- <-]|Hin]]; eauto. intros ? [].
    + split; cbn; auto. intros l1 b1 [[= <- <-]|Hin]; eauto. apply map_remove_in in Hin. eauto.
Qed.
Lemma render_events_nofuel evs : forall s, clean_foot (r_foot s) -> render_events s evs <> Fuel.
Proof.
  induction evs as [|e evs IH]; intros s Hc; [discriminate|]. cbn [render_events].
  destruct (render_event_total s e Hc) as [Hn H]. destruct (render_event s e) as [[s1 o1]| |]; cbn [bind]; [|discriminate|congruence].
  specialize (IH s1 (H _ _ eq_refl)). destruct (render_events s1 evs) as [[s2 o2]| |]; cbn [bind]; congruence.
Qed.
