(** * POut: proofs for C41: what is written for each event *)
From Verif Require Import Base Lex Attr Block Inline Doc Html Lib SpecAttr SpecDoc SpecHtml SpecWf SpecOut PHtml PHtml2 PHtml3 PHtml4 PHtml5 PHtml6 PAttr5 PWf PWf2 PWf3 PWf4.
Local Open Scope nat_scope.

(** ** Attributes *)
Lemma esc_concat q l : concat (map (escape q) l) = escape q (concat l).
Proof. induction l as [|x l IH]; [reflexivity|]. cbn [map concat]. rewrite escape_app, IH. reflexivity. Qed.
Lemma value_html v : concat (map write_attr (parts v)) = escaped true (unescape v).
Proof. unfold write_attr. rewrite esc_concat, <- display_unescape, escape_escaped. reflexivity. Qed.
Lemma named_has pairs k : existsb (fun p => bytes_eqb (fst p) k) pairs = named pairs k.
Proof.
  unfold named. induction pairs as [|p pairs IH]; [reflexivity|]. cbn [existsb]. rewrite IH. f_equal.
  destruct p as [k0 v]. cbn [fst]. destruct (list_eq_dec ascii_dec k0 k) as [->|Hn]; [apply bytes_eqb_refl|].
  destruct (bytes_eqb k0 k) eqn:E; [apply bytes_eqb_eq in E; congruence|reflexivity].
Qed.
Lemma extra_more c k : (if bytes_eqb k (B "class") then write_class c true else []) = more_class c k.
Proof.
  unfold more_class. destruct (list_eq_dec ascii_dec k (B "class")) as [->|Hn].
  - rewrite bytes_eqb_refl. unfold write_class, own_class. destruct c; try reflexivity.
    + destruct k; reflexivity.
    + destruct display; reflexivity.
  - destruct (bytes_eqb k (B "class")) eqn:E; [apply bytes_eqb_eq in E; congruence|reflexivity].
Qed.
Lemma pairs_html (f g : bytes -> bytes) pairs : (forall k, f k = g k) ->
  concat (map (write_pair f) pairs) = concat (map (fun p => attr_html (fst p) (escaped true (unescape (snd p)) ++ g (fst p))) pairs).
Proof.
  intros H. induction pairs as [|p pairs IH]; [reflexivity|]. cbn [map concat]. rewrite IH. f_equal.
  unfold write_pair, attr_html. rewrite value_html, H, <- ?app_assoc. reflexivity.
Qed.
Lemma write_attrs_html c a : write_attrs c a = attrs_html c a.
Proof.
  unfold write_attrs, attrs_html. f_equal.
  - apply pairs_html. apply extra_more.
  - rewrite !named_has. unfold own_id, own_class, write_attr. rewrite <- ?escape_escaped. 
    destruct c; try (destruct (named _ _); reflexivity).
    + destruct k; try (destruct (named _ _); reflexivity).
    + rewrite <- escape_escaped. reflexivity.
    + match goal with |- context [Div ?x] => destruct x end; destruct (named _ _); reflexivity.
    + destruct has_section; [destruct (named _ _); reflexivity|]. rewrite <- escape_escaped. reflexivity.
    + destruct display; destruct (named _ _); reflexivity.
Qed.
Lemma break_attrs a : concat (map (write_pair (fun _ => [])) (unique_pairs a)) = attrs_html Paragraph a.
Proof.
  unfold attrs_html. cbn [own_id own_class]. rewrite (pairs_html _ (more_class Paragraph)).
  - destruct (named _ _); rewrite app_nil_r; reflexivity.
  - intros k. unfold more_class. destruct (list_eq_dec _ _ _); reflexivity.
Qed.

(** ** Tags *)
Definition silent (c : container) : bool :=
  match c with Document | Footnote _ | LinkDefinition _ | RawBlock _ | RawInline _ => true | _ => false end.
Lemma tag_out s c a s' o : r_indent s = None -> r_img s = 0 -> is_fn c = false -> c <> Document -> is_ld c = false ->
  (let! t := open_tag s c in
   match t with
   | inl s => Ok (s, [])
   | inr (s, o2) => let! (s, o3) := close_open_tag s c in Ok (r_set_first s false, [] ++ o2 ++ write_attrs c a ++ o3)
   end) = Ok (s', o) -> o = start_html (tight_top s) c a.
Proof.
  intros Hi Him Hf HD Hl H. rewrite write_attrs_html in H. unfold start_html, element, own_html, rest_html.
  destruct c; try discriminate; try congruence; cbn [open_tag close_open_tag bind app] in H; unfold write_attr in H;
    rewrite ?escape_escaped in H; try (injection H as <- <-; rewrite <- ?app_assoc; reflexivity).
  - destruct k; injection H as <- <-; unfold ol_attrs; rewrite <- ?app_assoc; reflexivity.
  - unfold w_block in H. rewrite Hi in H. cbn [bind] in H. injection H as <- <-. rewrite <- ?app_assoc. destruct checked; reflexivity.
  - destruct (tight_top s); cbn [bind] in H; injection H as <- <-; [reflexivity|]. rewrite <- ?app_assoc. reflexivity.
  - destruct head; cbn [bind] in H; destruct a0; cbn [bind] in H; injection H as <- <-; rewrite <- ?app_assoc; reflexivity.
  - destruct language; injection H as <- <-; rewrite ?escape_escaped; unfold attr_html; cbn [escaped]; rewrite <- ?app_assoc; reflexivity.
  - destruct ty as [[]| |]; injection H as <- <-; rewrite ?escape_escaped; unfold attr_html; rewrite <- ?app_assoc; reflexivity.
  - rewrite Him in H. cbn [r_set_img r_img Nat.eqb bind] in H. injection H as <- <-. rewrite <- ?app_assoc. reflexivity.
Qed.
Lemma end_out s c s' o : r_img s = (if is_img c then 1 else 0) -> is_fn c = false -> c <> Document -> is_ld c = false ->
  (let! t := close_tag s c in
   match t with
   | inl (inl _) => let! (s, o) := (fun _ => Fuel) s in Ok (s, [] ++ o)
   | inl (inr s) => Ok (s, [])
   | inr (s, o2) => Ok (r_set_first s false, [] ++ o2)
   end) = Ok (s', o) ->
  o = if match c with Paragraph => Nat.ltb 0 (f_number (r_foot s)) | _ => false end then [] else end_html (tight_top s) c.
Proof.
  intros Him Hf HD Hl H. unfold end_html, element.
  destruct c; try discriminate; try congruence; cbn [close_tag bind app] in H; unfold write_attr in H;
    rewrite ?escape_escaped in H; try (injection H as <- <-; rewrite <- ?app_assoc; reflexivity).
  - destruct k; injection H as <- <-; reflexivity.
  - destruct (tight_top s); cbn [bind] in H; injection H as <- <-; destruct (Nat.ltb _ _); reflexivity.
  - destruct head; cbn [bind] in H; injection H as <- <-; reflexivity.
  - cbn [is_img] in Him. rewrite Him in H. cbn [Nat.eqb usub Nat.leb bind] in H. unfold usub in H. cbn in H. injection H as <- <-.
    destruct src; [reflexivity|]. unfold attr_html. rewrite <- ?app_assoc. reflexivity.
Qed.

(** ** One event *)
Lemma tights_hd st : hd false (tights st) = in_tight st.
Proof. induction st as [|c st IH]; [reflexivity|]. destruct c; try exact IH. reflexivity. Qed.
Lemma tight_in s st : r_tight s = tights st -> tight_top s = in_tight st.
Proof. intros H. rewrite (tight_tt s st H). apply tights_hd. Qed.
Lemma number_nth order : NoDup order -> forall i l, nth_error order i = Some l -> number_of order l = S i.
Proof.
  induction 1 as [|x order Hx Hn IH]; intros i l Hi; [destruct i; discriminate|]. cbn [number_of]. destruct i as [|i]; cbn [nth_error] in Hi.
  - injection Hi as ->. destruct (list_eq_dec ascii_dec l l); congruence.
  - destruct (list_eq_dec ascii_dec l x) as [->|_]; [|f_equal; apply IH; exact Hi]. exfalso. apply Hx. apply nth_error_In in Hi. exact Hi.
Qed.
Lemma w_block_none s d : r_indent s = None -> w_block s d = Ok (s, []).
Proof. intros H. unfold w_block. rewrite H. reflexivity. Qed.
Lemma out_event {N} d0 e st st' s s' o order :
  (forall l, kind_of e <> KFStart l) -> kind_of e <> KFEnd -> nestd st [e] = Some st' -> coupled d0 st s -> r_indent s = None ->
  r_tight s = tights st -> blk st -> fineN N st e -> rbody s e = Ok (s', o) -> shows st e o -> NoDup order -> ref_out order e o ->
  r_tight s' = tights st' /\ blk st' /\ o = if late_ev s st e then [] else event_html order st e.
Proof.
  intros K1 K2 Hn HC Hi Ht Hb (Hp & _ & Hd) H Hsh Hnd Hr. pose proof HC as (Ho & _ & Himg & Hig & _ & _).
  pose proof (nestd_step _ _ _ Hn) as Est.
  unfold rbody, rview in H. rewrite Ho in H.
  destruct (kind_of e) eqn:K; [exfalso; eapply K1; reflexivity|congruence| | |].
  - injection H as <- <-. destruct e as [c a| | | | | | | | | | | | | | | | | |]; try discriminate K; destruct c; try discriminate K. subst st'.
    cbn [ev_step late_ev]. split; [exact Ht|]. split; [split; [intros _; destruct (in_image st) eqn:Es; [discriminate (Hp Es)|reflexivity]|exact Hb]|].
    assert (Esh : shown_html order st (Start (LinkDefinition label) a) = []) by (cbn [shown_html start_html]; destruct (in_image st); reflexivity).
    unfold event_html. rewrite Esh. destruct st as [|[] st]; reflexivity.
  - injection H as <- <-. destruct e as [|c| | | | | | | | | | | | | | | | |]; try destruct c; try discriminate K.
    cbn [nestd] in Hn. destruct st as [|c' st]; [discriminate|]. destruct (container_eq_dec _ _); [|discriminate]. injection Hn as <-. subst c'.
    split; [exact Ht|]. split; [apply Hb|]. reflexivity.
  - destruct (r_ignore s) eqn:Ei.
    + injection H as <- <-. destruct st as [|c0 st]; [discriminate|]. destruct c0; try discriminate Hig.
      cbn [nestd] in Hn. assert (E2 : st' = LinkDefinition label :: st /\ late_ev s (LinkDefinition label :: st) e = false).
      { destruct e; try (split; [congruence|reflexivity]); try discriminate. destruct (container_eq_dec _ _); [subst c; discriminate|discriminate]. }
      destruct E2 as [-> ->]. split; [exact Ht|]. split; [exact Hb|]. reflexivity.
    + assert (Enl : event_html order st e = shown_html order st e) by (destruct st as [|[] st]; try reflexivity; discriminate Hig).
      rewrite Enl. clear Enl.
      destruct e as [c a|c| | | | | | | | | | | | | | | | |]; cbn [rmain] in H.
      * (* start *)
        assert (Hf : is_fn c = false) by (destruct c; (reflexivity || discriminate K)).
        assert (HD : c <> Document) by (intros ->; exact Hd).
        assert (Hl : is_ld c = false) by (destruct c; (reflexivity || discriminate K)).
        match type of H with bind ?x _ = _ => assert (Ew : x = Ok (s, [])) by (rewrite ?w_block_none by exact Hi; match goal with |- (if ?b then _ else _) = _ => destruct b; reflexivity end); rewrite Ew in H; clear Ew end.
        cbn [bind] in H. subst st'. cbn [ev_step late_ev].
        assert (Hbl : blk (c :: st)).
        { split; [|exact Hb]. intros [Hc|Hc]; [|congruence]. destruct (in_image st) eqn:Es; [|reflexivity]. specialize (Hp Es). cbn in Hp. congruence. }
        cbn [shown_html]. rewrite Himg in H. rewrite in_image_cnt in *.
        destruct (Nat.ltb 0 (cnt is_img st)) eqn:Eim.
        -- destruct (match c with Image _ _ => false | _ => true end) eqn:Ec; cbn [andb] in H.
           ++ injection H as <- <-. split; [|auto]. rewrite tight_block_cont; [exact Ht|]. destruct (is_block c) eqn:Eb; [|reflexivity].
              destruct Hbl as [Hbl _]. specialize (Hbl (or_introl Eb)). rewrite in_image_cnt in Hbl. congruence.
           ++ destruct c; try discriminate Ec. cbn [open_tag] in H. apply Nat.ltb_lt in Eim.
              replace (Nat.eqb (r_img (r_set_img s (S (r_img s)))) 1) with false in H by (symmetry; apply Nat.eqb_neq; cbn [r_set_img r_img]; lia).
              cbn [bind] in H. injection H as <- <-. split; [exact Ht|]. auto.
        -- cbn [andb] in H. pose proof H as H2. apply bind_ok in H as (t & H1 & H).
           assert (Him : r_img s = 0) by (rewrite Himg; apply Nat.ltb_ge in Eim; lia).
           rewrite <- (tight_in _ _ Ht). split; [|split; [exact Hbl|exact (tag_out s c a s' o Hi Him Hf HD Hl H2)]].
           assert (Hs2 : exists s2, r_tight s' = r_tight s2 /\ (open_tag s c = Ok (inl s2) \/ exists o, open_tag s c = Ok (inr (s2, o)))).
           { destruct t as [s2|[s2 o2]]; [injection H as <- <-; eauto|]. apply bind_ok in H as ([s3 o3] & H3 & H). injection H as <- <-.
             exists s2. split; [|eauto]. cbn [r_set_first r_tight]. destruct c; cbn [close_open_tag] in H3; try (injection H3 as <- <-; reflexivity).
             - rewrite w_block_none in H3; [cbn [bind] in H3; injection H3 as <- <-; reflexivity|]. cbn [open_tag] in H1. injection H1 as <- <-. exact Hi.
             - destruct a0; injection H3 as <- <-; reflexivity. }
           destruct Hs2 as (s2 & -> & Hs2). rewrite (open_tight _ _ _ Hs2), Ht. destruct c; reflexivity.
      * (* end *)
        assert (Hf : is_fn c = false) by (destruct c; (reflexivity || discriminate K)).
        assert (HD : c <> Document) by (intros ->; exact Hd).
        assert (Hl : is_ld c = false) by (destruct c; (reflexivity || discriminate K)).
        cbn [nestd] in Hn. destruct st as [|c' st]; [discriminate|]. destruct (container_eq_dec _ _); [|discriminate]. injection Hn as <-. subst c'. clear Est.
        match type of H with bind ?x _ = _ => assert (Ew : x = Ok (s, [])) by (rewrite ?w_block_none by exact Hi; match goal with |- (if ?b then _ else _) = _ => destruct b; reflexivity end); rewrite Ew in H; clear Ew end.
        cbn [bind] in H. cbn [shown_html]. cbn [tl]. rewrite Himg, cnt_cons in H. rewrite in_image_cnt in *. destruct Hb as [Hb1 Hb].
        destruct (match c with Image _ _ => false | _ => true end) eqn:Ec.
        -- rewrite andb_true_r in H. replace (if is_img c then 1 else 0) with 0 in H by (destruct c; (reflexivity || discriminate Ec)). cbn [Nat.add] in H.
           destruct (Nat.ltb 0 (cnt is_img st)) eqn:Eim.
           ++ injection H as <- <-. assert (Hblk : is_block c = false). { destruct (is_block c) eqn:Eb; [|reflexivity]. specialize (Hb1 (or_introl eq_refl)). rewrite in_image_cnt in Hb1. congruence. }
              rewrite tight_block_cont in Ht by exact Hblk. split; [exact Ht|]. split; [exact Hb|]. destruct c; try reflexivity; discriminate Hblk.
           ++ assert (Him : r_img s = (if is_img c then 1 else 0)) by (clear - Himg Eim Ec; rewrite Himg, cnt_cons; apply Nat.ltb_ge in Eim; destruct c; try discriminate Ec; cbn [is_img]; lia).
              cbn [late_ev tl].
              assert (Htr : r_tight s' = tights st /\ tight_top s = in_tight (c :: st)).
              { rewrite <- (tight_in _ _ Ht). split; [|reflexivity]. destruct c; cbn [close_tag bind] in H; try discriminate; try congruence; try (injection H as <- <-; exact Ht).
                - injection H as <- <-. cbn [r_set_first r_set_tight r_tight]. rewrite Ht. reflexivity.
                - destruct (tight_top s); cbn [bind] in H; injection H as <- <-; exact Ht.
                - destruct head; cbn [bind] in H; injection H as <- <-; exact Ht. }
              destruct Htr as [Htr Etop]. split; [exact Htr|]. split; [exact Hb|].
              rewrite (end_out s c s' o Him Hf HD Hl H), Etop. unfold late, tt. rewrite tights_hd.
              destruct c; try discriminate Ec; try reflexivity. cbn [in_tight end_html]. destruct (in_tight st), (Nat.ltb 0 (f_number (r_foot s))); reflexivity.
        -- destruct c; try discriminate Ec. cbn [is_img Nat.add andb] in H. rewrite andb_false_r in H.
           split; [|split; [exact Hb|]].
           { cbn [close_tag] in H. apply bind_ok in H as (t & H1 & H). apply bind_ok in H1 as (n & _ & H1). injection H1 as <-. injection H as <- <-. exact Ht. }
           cbn [late_ev late]. destruct (Nat.ltb 0 (cnt is_img st)) eqn:Eim.
           ++ cbn [close_tag] in H. rewrite Himg, cnt_cons in H. apply Nat.ltb_lt in Eim. cbn [is_img Nat.add] in H.
              replace (Nat.eqb (S (cnt is_img st)) 1) with false in H by (symmetry; apply Nat.eqb_neq; lia).
              cbn [bind usub] in H. unfold usub in H. cbn [Nat.leb Nat.ltb bind] in H. injection H as <- <-. reflexivity.
           ++ assert (Him : r_img s = (if is_img (Image src ty) then 1 else 0)) by (clear - Himg Eim; rewrite Himg, cnt_cons; apply Nat.ltb_ge in Eim; cbn [is_img]; lia).
              exact (end_out s (Image src ty) s' o Him Hf HD Hl H).
      * subst st'. split; [injection H as <- _; exact Ht|]. split; [exact Hb|]. cbn [late_ev shown_html]. apply (proj1 Hsh). reflexivity.
      * (* footnote reference *)
        destruct (foot_reference (r_foot s) label) as [f n]. subst st'. split; [injection H as <- _; exact Ht|]. split; [exact Hb|]. cbn [late_ev shown_html].
        destruct Hsh as [_ Hsh]. specialize (Hsh label eq_refl).
        assert (Hh : hidden st = in_image st) by (destruct st as [|[] st]; try reflexivity; discriminate Hig). rewrite Hh in Hsh.
        destruct (in_image st); [apply Hsh; reflexivity|]. destruct (Hr label eq_refl) as [->|(i & Hi' & ->)]; [discriminate (proj1 Hsh eq_refl)|].
        rewrite (number_nth order Hnd i label Hi'). reflexivity.
      * injection H as <- <-. subst st'. auto.
      * injection H as <- <-. subst st'. auto.
      * injection H as <- <-. subst st'. auto.
      * injection H as <- <-. subst st'. auto.
      * injection H as <- <-. subst st'. auto.
      * injection H as <- <-. subst st'. auto.
      * injection H as <- <-. subst st'. auto.
      * injection H as <- <-. subst st'. auto.
      * injection H as <- <-. subst st'. auto.
      * unfold w_indent in H. rewrite Hi in H. injection H as <- <-. subst st'. auto.
      * rewrite w_block_none in H by exact Hi. cbn [bind] in H. injection H as <- <-. subst st'. auto.
      * injection H as <- <-. subst st'. auto.
      * injection H as <- <-. subst st'. auto.
      * rewrite w_block_none in H by exact Hi. cbn [bind] in H. rewrite break_attrs in H. injection H as <- <-. subst st'. auto.
      * injection H as <- <-. subst st'. auto.
Qed.

(** ** Lists of events *)
Lemma events_html_cons order st e r : events_html order st (e :: r) = event_html order st e ++ events_html order (ev_step st e) r.
Proof. destruct e; reflexivity. Qed.
Lemma events_html_keep order evs : forall st, events_html order st (filter keep evs) = events_html order st evs.
Proof.
  induction evs as [|e evs IH]; intros st; [reflexivity|]. cbn [filter]. destruct (keep e) eqn:Ek; rewrite ?events_html_cons, ?IH; [reflexivity|].
  destruct e; try discriminate Ek; unfold event_html; destruct st as [|[] st]; reflexivity.
Qed.
Lemma out_body {N} d0 order : NoDup order -> forall evs st st' s s' outs, clean_body evs -> nestd st evs = Some st' -> coupled d0 st s -> r_indent s = None ->
  r_tight s = tights st -> blk st -> fine_allN N st evs -> f_number (r_foot s) = 0 -> render_list s evs = Ok (s', outs) -> Forall2 (ref_out order) evs outs ->
  concat outs = events_html order st evs /\ r_tight s' = tights st'.
Proof.
  intros Hnd. induction evs as [|e evs IH]; intros st st' s s' outs Hc Hn HC Hi Ht Hb Hf Hnum H Hr.
  - cbn in Hn, H. injection Hn as <-. injection H as <- <-. auto.
  - destruct Hf as [Hf1 Hf2]. pose proof Hf1 as (_ & _ & Hd). apply not_doc_end in Hd.
    change (e :: evs) with ([e] ++ evs) in Hn. rewrite nestd_app in Hn. destruct (nestd st [e]) as [st1|] eqn:E; [|discriminate].
    destruct (Hc e) as [K1 K2]; [left; auto|]. assert (Hc' : clean_body evs) by (intros y Hy; apply Hc; right; exact Hy).
    cbn [render_list] in H. apply bind_ok in H as ([s1 o1] & H1 & H). apply bind_ok in H as ([s2 o2] & H2 & H). injection H as <- <-.
    rewrite render_event_body in H1 by exact Hd. inversion Hr as [|? ? ? ? Hr1 Hr2]; subst.
    destruct (event_ok d0 e st st1 s Hd K1 K2 E HC) as (s1' & o1' & E1 & HC1 & Hi1 & Hsh). rewrite E1 in H1. injection H1 as -> ->.
    destruct (out_event d0 e st st1 s s1 o1 order K1 K2 E HC Hi Ht Hb Hf1 E1 Hsh Hnd Hr1) as (G1 & G2 & G3).
    assert (Ela : late_ev s st e = false) by (destruct e; try reflexivity; destruct c; try reflexivity; cbn [late_ev late]; rewrite Hnum; apply andb_false_r). rewrite Ela in G3.
    destruct (rbody_frame s e s1 o1 (proj1 HC) K1 Hd E1) as (_ & _ & _ & F & _).
    pose proof (nestd_step _ _ _ E) as Est. rewrite <- Est in Hf2.
    destruct (IH st1 st' s1 s2 o2 Hc' Hn HC1 ltac:(congruence) G1 G2 Hf2 ltac:(congruence) H2 Hr2) as [A1 A2].
    split; [|exact A2]. cbn [concat]. rewrite events_html_cons, <- Est, A1, G3. reflexivity.
Qed.

(** ** One note *)
Definition pending (u : bool) : bytes := if u then B "</p>" else [].
Definition last_par (u : bool) (evs : list event) (s' : rstate) : bool :=
  match rev (filter keep evs) with [] => u | End_ Paragraph :: _ => negb (tight_top s') | _ => false end.
Lemma last_par_cons e evs u v s' : keep e = true -> v = (match e with End_ Paragraph => negb (tight_top s') | _ => false end) ->
  (filter keep evs = [] -> last_par v evs s' = last_par u (e :: evs) s') /\ (filter keep evs <> [] -> forall w, last_par w evs s' = last_par u (e :: evs) s').
Proof.
  intros Ek Ev. unfold last_par. cbn [filter]. rewrite Ek. cbn [rev]. split.
  - intros ->. cbn [rev app]. exact Ev.
  - intros Hn w. destruct (filter keep evs) as [|x l] using rev_ind; [congruence|]. rewrite rev_app_distr. reflexivity.
Qed.
Lemma out_foot {N} g d0 order : NoDup order -> forall evs st st' s s' u u' o outs, clean_body evs -> nestd st evs = Some st' -> coupled d0 st s -> r_indent s = None ->
  r_tight s = tights st -> blk st -> fine_allN N st evs -> 0 < f_number (r_foot s) ->
  foot_events (render_f (S g)) s evs u = Ok (s', o, u') -> render_list s (filter keep evs) = Ok (s', outs) -> Forall2 (ref_out order) (filter keep evs) outs ->
  pending u ++ events_html order st evs = o ++ pending u' /\ r_tight s' = tights st' /\ u' = last_par u evs s'.
Proof.
  intros Hnd. induction evs as [|e evs IH]; intros st st' s s' u u' o outs Hc Hn HC Hi Ht Hb Hf Hnum H HL Hr.
  - cbn in Hn, H. injection Hn as <-. injection H as <- <- <-. cbn [events_html app]. rewrite app_nil_r. auto.
  - destruct Hf as [Hf1 Hf2]. pose proof Hf1 as (_ & _ & Hd). apply not_doc_end in Hd.
    change (e :: evs) with ([e] ++ evs) in Hn. rewrite nestd_app in Hn. destruct (nestd st [e]) as [st1|] eqn:E; [|discriminate].
    destruct (Hc e) as [K1 K2]; [left; auto|]. assert (Hc' : clean_body evs) by (intros y Hy; apply Hc; right; exact Hy).
    pose proof (nestd_step _ _ _ E) as Est. rewrite <- Est in Hf2. rewrite events_html_cons, <- Est.
    cbn [filter] in HL, Hr. destruct (keep e) eqn:Ek.
    + assert (H0 : (let! (s, o) := render_f (S g) s e in
           let! (s0, o', u0) := foot_events (render_f (S g)) s evs (match e with End_ Paragraph => negb (tight_top s) | _ => false end) in
           Ok (s0, (if u then B "</p>" else []) ++ o ++ o', u0)) = Ok (s', o, u')) by (destruct e; try discriminate Ek; exact H).
      clear H. apply bind_ok in H0 as ([s1 o1] & H1 & H). apply bind_ok in H as ([[s2 o2] u2] & H2 & H). injection H as <- <- <-.
      rewrite render_f_body in H1 by exact Hd.
      cbn [render_list] in HL. rewrite render_event_body in HL by exact Hd. rewrite H1 in HL. cbn [bind] in HL. apply bind_ok in HL as ([s3 o3] & HL & Hx). injection Hx as -> <-.
      inversion Hr as [|? ? ? ? Hr1 Hr2]; subst.
      destruct (event_ok d0 e st (ev_step st e) s Hd K1 K2 E HC) as (s1' & o1' & E1 & HC1 & Hi1 & Hsh). rewrite E1 in H1. injection H1 as -> ->.
      destruct (out_event d0 e st (ev_step st e) s s1 o1 order K1 K2 E HC Hi Ht Hb Hf1 E1 Hsh Hnd Hr1) as (G1 & G2 & G3).
      destruct (rbody_frame s e s1 o1 (proj1 HC) K1 Hd E1) as (_ & _ & F2 & F & _).
      set (u1 := match e with End_ Paragraph => negb (tight_top s1) | _ => false end) in *.
      destruct (IH (ev_step st e) st' s1 s2 u1 u2 o2 o3 Hc' Hn HC1 ltac:(congruence) G1 G2 Hf2 ltac:(rewrite F; exact Hnum) H2 HL Hr2) as (A1 & A2 & A3).
      split; [|split; [exact A2|]].
      * assert (A0 : o1 ++ pending u1 = event_html order st e).
        { rewrite G3. unfold u1, late_ev. destruct e; try (apply app_nil_r). destruct c; try (apply app_nil_r). cbn [late]. apply Nat.ltb_lt in Hnum. rewrite Hnum, andb_true_r.
          rewrite (tight_tt s1 _ G1). cbn [ev_step]. unfold tt. rewrite tights_hd.
          cbn [nestd] in E. destruct st as [|c' st]; [discriminate|]. destruct (container_eq_dec _ _); [|discriminate]. subst c'. cbn [tl].
          destruct Hb as [Hb1 _]. unfold event_html, shown_html. cbn [tl]. rewrite (Hb1 (or_introl eq_refl)). cbn [end_html]. destruct (in_tight st); reflexivity. }
        rewrite <- A0. fold (pending u). rewrite <- !app_assoc. do 2 f_equal. exact A1.
      * rewrite A3. destruct (filter keep evs) as [|x l] eqn:El.
        -- apply (proj1 (last_par_cons e evs u u1 s2 Ek ltac:(unfold u1; cbn [render_list] in HL; injection HL as -> _; reflexivity))). exact El.
        -- apply (proj2 (last_par_cons e evs u _ s2 Ek eq_refl)). rewrite El. discriminate.
    + assert (st1 = st) as -> by (destruct e; try discriminate Ek; cbn in E; congruence).
      assert (H0 : foot_events (render_f (S g)) s evs u = Ok (s', o, u')) by (destruct e; try discriminate Ek; exact H).
      assert (Eh : event_html order st e = []) by (destruct e; try discriminate Ek; unfold event_html; destruct st as [|[] st]; reflexivity).
      rewrite Eh. cbn [app]. destruct (IH st st' s s' u u' o outs Hc' Hn HC Hi Ht Hb Hf2 Hnum H0 HL Hr) as (A1 & A2 & A3). split; [exact A1|]. split; [exact A2|].
      rewrite A3. unfold last_par. cbn [filter]. rewrite Ek. reflexivity.
Qed.
Lemma note_out notes order l o u s' : NoDup order -> events_html order [] (note_body notes l) = o ++ pending u -> r_tight s' = [] ->
  u = last_par false (note_body notes l) s' -> o ++ (if u then [] else B "<p>") = note_html order (note_body notes l).
Proof.
  intros Hnd He Ht Hu. unfold note_html, ends_in_paragraph. rewrite He. unfold last_par, tight_top in Hu. rewrite Ht in Hu. cbn [negb] in Hu.
  rewrite Hu. destruct (rev (filter keep (note_body notes l))) as [|e r]; [cbn [pending]; rewrite !app_nil_r; reflexivity|].
  destruct e; try (cbn [pending]; rewrite !app_nil_r; reflexivity). destruct c; try (cbn [pending]; rewrite !app_nil_r; reflexivity).
  cbn [pending]. rewrite app_length, Nat.add_sub, firstn_app, Nat.sub_diag, firstn_all, firstn_O. reflexivity.
Qed.

(** ** The loop *)
Lemma out_loop {N} g d0 notes : (forall l, good_body (note_body notes l)) -> (forall l, fine_allN N [] (note_body notes l)) ->
  forall fu s, coupled d0 [] s -> r_indent s = None -> r_tight s = [] -> notes_inv notes (r_foot s) -> epi_loop fu (render_f (S g)) s <> Fuel ->
  exists s' o final, epi_loop fu (render_f (S g)) s = Ok (s', o) /\ r_indent s' = None /\
    numbered notes (f_refs (r_foot s)) (f_number (r_foot s)) final /\
    o = concat (map (item_html final notes) (List.seq (S (f_number (r_foot s))) (length final - f_number (r_foot s)))).
Proof.
  intros Hgood Hfine. induction fu as [|fu IH]; intros s HC Hi Ht (Hnd & Hnum & Hmap) HF; cbn [epi_loop] in *.
  - destruct (foot_next (r_foot s)) as [[[n evs] f]|] eqn:E; [congruence|].
    apply foot_next_none in E. assert (En : f_number (r_foot s) = length (f_refs (r_foot s))) by lia.
    exists s, [], (f_refs (r_foot s)). split; [auto|]. split; [auto|]. split; [rewrite En; constructor|]. rewrite En, Nat.sub_diag. reflexivity.
  - destruct (foot_next (r_foot s)) as [[[n evs] f]|] eqn:E.
    2:{ apply foot_next_none in E. assert (En : f_number (r_foot s) = length (f_refs (r_foot s))) by lia.
        exists s, [], (f_refs (r_foot s)). split; [auto|]. split; [auto|]. split; [rewrite En; constructor|]. rewrite En, Nat.sub_diag. reflexivity. }
    unfold foot_next in E. destruct (nth_error (f_refs (r_foot s)) (f_number (r_foot s))) as [l|] eqn:El; [|discriminate].
    injection E as <- <- <-.
    set (k := f_number (r_foot s)) in *.
    assert (Hkl : k < length (f_refs (r_foot s))) by (apply nth_error_Some; congruence).
    assert (Hnl : ~ List.In l (firstn k (f_refs (r_foot s)))).
    { intros Hin. apply In_nth_error in Hin. destruct Hin as [j Hj].
      assert (Hjk : j < k). { assert (j < length (firstn k (f_refs (r_foot s)))) by (apply nth_error_Some; congruence). rewrite firstn_length in H. lia. }
      rewrite nth_error_firstn in Hj by auto.
      assert (j = k); [|lia]. apply (proj1 (NoDup_nth_error _) Hnd); [lia|congruence]. }
    pose proof (Hmap l Hnl) as Hb. unfold get_body in Hb. fold k in Hb.
    set (b := match map_get (f_events (r_foot s)) l with Some l0 => l0 | None => [] end) in *.
    destruct (Hgood l) as (Hg1 & Hg2 & Hg3). pose proof (Hfine l) as Hf. rewrite <- Hb in Hg1, Hg2, Hg3, Hf.
    set (f1 := FN (f_open (r_foot s)) (f_refs (r_foot s)) (map_remove (f_events (r_foot s)) l) (S k)) in *.
    set (s1 := r_set_foot s f1) in *.
    assert (HC1 : coupled d0 [] s1) by (destruct HC as (? & ? & ? & ? & ?); split; [auto|split; [auto|auto]]).
    rewrite (w_block_none s1 DSame Hi) in *. cbn [bind] in *.
    destruct (foot_events_run g d0 b [] [] s1 false Hg1 Hg2 Hg3 HC1) as (s2 & o2 & u & outs & F1 & F2 & F3 & F4 & F5). clear F5.
    rewrite F1 in *. cbn [bind] in *.
    assert (Hi2 : r_indent s2 = None) by (rewrite F4; exact Hi).
    assert (E4 : (if u then Ok (s2, []) else let! (s, o) := w_block s2 DSame in Ok (s, o ++ B "<p>")) = Ok (s2, if u then [] else B "<p>")).
    { rewrite w_block_none by exact Hi2. destruct u; reflexivity. }
    rewrite E4 in *. cbn [bind] in *. rewrite (w_block_none s2 DSame Hi2) in *. cbn [bind] in *.
    pose proof (render_list_events s1 (filter keep b)) as Hr. rewrite F2 in Hr. cbn [bind] in Hr.
    apply render_refs in Hr; [|apply no_doc_end_filter; auto|apply HC1|intros x l' Hx; apply (clean_filter keep b Hg2); auto].
    destruct Hr as (_ & Hig & Hfoot). rewrite drop_keep in Hfoot.
    assert (Hig1 : r_ignore s1 = false) by (destruct HC as (? & ? & ? & ? & ?); auto). rewrite Hig1 in Hfoot.
    cbn [s1 r_set_foot r_foot f1 f_refs f_events f_number] in Hfoot.
    assert (Ht2 : r_tight s2 = []).
    { assert (Hnd2 : NoDup (f_refs (r_foot s2))) by (rewrite Hfoot; cbn [f_refs]; apply add_new_nodup; exact Hnd).
      assert (Hr2 : Forall2 (ref_out (f_refs (r_foot s2))) (filter keep b) outs).
      { eapply render_list_refs; [| | |exact F2|exists []; rewrite app_nil_r; reflexivity].
        - apply no_doc_end_filter; auto.
        - apply clean_filter; auto.
        - apply HC1. }
      apply (out_foot g d0 _ Hnd2 b [] [] s1 s2 false u o2 outs Hg2 Hg3 HC1 Hi Ht I Hf ltac:(cbn; lia) F1 F2 Hr2). }
    destruct (IH s2 F3 Hi2 Ht2) as (s3 & o5 & final & G1 & G2 & G4 & G5).
    { rewrite Hfoot. split; [|split]; cbn [f_refs f_number f_events].
      - apply add_new_nodup; auto.
      - destruct (add_new_ext (f_refs (r_foot s)) (labels_of (drop_defs false b))) as (x & -> & _). rewrite app_length. lia.
      - intros l' Hl'. destruct (add_new_ext (f_refs (r_foot s)) (labels_of (drop_defs false b))) as (x & Ex & _). rewrite Ex in Hl'.
        rewrite firstn_app in Hl'. replace (S k - length (f_refs (r_foot s))) with 0 in Hl' by lia.
        rewrite firstn_O, app_nil_r in Hl'.
        assert (Hsp : firstn (S k) (f_refs (r_foot s)) = firstn k (f_refs (r_foot s)) ++ [l]).
        { clear -El. revert El. generalize (f_refs (r_foot s)) as L. induction k as [|k' IHk]; intros [|y L] El; try discriminate.
          - cbn in El. injection El as <-. reflexivity.
          - cbn [nth_error] in El. cbn [firstn app]. f_equal. apply IHk; auto. }
        rewrite Hsp, in_app_iff in Hl'. unfold get_body. rewrite map_get_remove.
        destruct (bytes_eqb l l') eqn:E9; [apply bytes_eqb_eq in E9; subst; exfalso; apply Hl'; right; left; auto|].
        apply Hmap. intros Hi'. apply Hl'. left; auto. }
    { intros HF2. apply HF. rewrite HF2. reflexivity. }
    rewrite G1. cbn [bind].
    rewrite Hfoot in G4, G5. cbn [f_refs f_number] in G4, G5. rewrite Hb in G4.
    assert (Hpre : prefix (f_refs (r_foot s)) final) by (eapply prefix_trans; [apply add_new_prefix|eapply numbered_prefix; exact G4]).
    assert (Hlen : length (f_refs (r_foot s)) <= length final) by (destruct Hpre as [x ->]; rewrite app_length; lia).
    assert (Hndf : NoDup final) by (apply (numbered_nodup _ _ _ _ G4); apply add_new_nodup; exact Hnd).
    assert (Hro : Forall2 (ref_out final) (filter keep b) outs).
    { eapply render_list_refs; [| | |exact F2|].
      - apply no_doc_end_filter; auto.
      - apply clean_filter; auto.
      - apply HC1.
      - rewrite Hfoot. cbn [f_refs]. rewrite Hb. eapply numbered_prefix; exact G4. }
    destruct (out_foot g d0 final Hndf b [] [] s1 s2 false u o2 outs Hg2 Hg3 HC1 Hi Ht I Hf ltac:(cbn; lia) F1 F2 Hro) as (A1 & A2 & A3).
    cbn [pending app] in A1. rewrite Hb in A1, A3. pose proof (note_out notes final l o2 u s2 Hndf A1 A2 A3) as A4.
    do 2 eexists. exists final. split; [reflexivity|]. split; [exact G2|]. split; [eapply num_step; eauto|].
    replace (length final - k) with (S (length final - S k)) by lia. cbn [List.seq map concat]. rewrite <- G5. unfold item_html.
    rewrite (nth_error_nth final (S k - 1) [] (x := l)) by (cbn [Nat.sub]; rewrite Nat.sub_0_r; eapply prefix_nth; eauto).
    rewrite <- A4. unfold item_start, backlink. rewrite <- !app_assoc. reflexivity.
Qed.

(** ** The whole document *)
Lemma note_body_fine {N} notes : (forall l b, List.In (l, b) notes -> fine_allN N [] b) -> forall l, fine_allN N [] (note_body notes l).
Proof.
  intros H l. unfold note_body. match goal with |- context [find ?f (rev notes)] => destruct (find f (rev notes)) as [[k b]|] eqn:E end; [|exact I].
  apply find_some in E. destruct E as [E _]. apply in_rev in E. exact (H _ _ E).
Qed.
Theorem out_document a inner : no_document inner -> nestd [] inner = Some [] -> well_placed [] (Start Document a :: inner ++ [End_ Document]) = true ->
  let body := fst (separate [] inner) in
  let notes := snd (separate [] inner) in
  exists s final, numbered notes (add_new [] (labels_of (drop_defs false body))) 0 final /\
    render_events (r_new None) (Start Document a :: inner ++ [End_ Document]) = Ok (s, page final inner).
Proof.
  intros Hnd Hn Hw body notes. set (N := fun _ : event => True). assert (Hna : Forall N inner) by (apply Forall_forall; intros ? _; exact I). 
  assert (Hde := no_document_doc_end inner Hnd).
  assert (L0 : layers [] [] []) by (constructor; auto).
  assert (Hfine : fine_allN N [] inner).
  { cbn [well_placed] in Hw. apply (well_placed_fine inner [] [] Hn); [split; [reflexivity|exact I]| |exact Hna|exact Hnd].
    apply andb_prop in Hw as [_ Hw]. revert Hw. cbn [app]. generalize [Document]. clear. induction inner as [|e inner IH]; intros st Hw; [reflexivity|].
      cbn [app well_placed] in Hw |- *. apply andb_prop in Hw as [Hw1 Hw2]. rewrite Hw1. exact (IH _ Hw2). }
  destruct (sep_fine inner [] [] [] [] Hn L0 Hfine ltac:(intros ? ? [])) as [Fb Fn]. fold body in Fb. fold notes in Fn.
  destruct (sep_nest inner [] [] [] [] Hn L0) as (base' & B1 & B2 & B3).
  assert (Hop : sep_open [] inner = [] /\ base' = []).
  { inversion B2; subst; auto. destruct seg; discriminate. }
  destruct Hop as [Hop ->].
  assert (Hcb : clean_body body) by (eapply separate_clean; eauto).
  assert (Hdb : no_doc_end body = true) by (apply no_doc_end_sep; auto).
  assert (Hgood : forall l, good_body (note_body notes l)).
  { apply note_body_good. rewrite Forall_forall in *. intros [l b] Hin. 
    destruct (sep_bodies inner [] Hde) with (l := l) (b := b) as [G1 G2]; [intros ? ? []|exact Hin|].
    split; [auto|]. split; [auto|]. apply (B3 (l, b) Hin). }
  destruct (body_ok _ body [] [] (r_new None) Hdb Hcb B1 (r_new_coupled None)) as (s1 & o1 & E1 & HC1 & Hi1).
  assert (Edoc : render_events (r_new None) (Start Document a :: inner ++ [End_ Document]) =
     (let! (s2, o2) := render_events (r_new None) inner in let! (s3, o3) := render_event s2 (End_ Document) in Ok (s3, o2 ++ o3))).
  { cbn [render_events]. rewrite render_event_body by reflexivity. change (rbody (r_new None) (Start Document a)) with (Ok (r_new None, @nil ascii)).
    cbn [bind]. rewrite bind_id, render_events_app. apply bind_ext. intros [s2 o2] _. cbn [render_events].
    destruct (render_event s2 (End_ Document)) as [[s3 o3]| |]; cbn [bind]; auto. rewrite app_nil_r. reflexivity. }
  rewrite Edoc. clear Edoc.
  rewrite (render_separate inner (r_new None) Hde). change (f_open (r_foot (r_new None))) with (@nil (bytes * list event)).
  change (f_events (r_foot (r_new None))) with (@nil (bytes * list event)).
  change (set_notes (r_new None) [] []) with (r_new None). rewrite Hop. fold body notes. rewrite E1.
  cbn [res_map bind notes_map fst snd].
  set (s2 := set_notes s1 [] (store notes [])).
  pose proof (render_list_events (r_new None) body) as HL. rewrite E1 in HL.
  destruct (render_list (r_new None) body) as [[t outs]| |] eqn:EL; cbn [bind] in HL; try discriminate. injection HL as <- ->.
  pose proof (render_refs body (r_new None) s1 _ Hdb eq_refl (fun e l Hin => proj1 (Hcb e Hin) l) E1) as (_ & Hig & Hfoot).
  cbn [r_new r_foot r_ignore f_refs f_events f_number] in Hfoot.
  assert (Hto : forall order, NoDup order -> prefix (f_refs (r_foot s1)) order -> concat outs = events_html order [] body /\ r_tight s1 = []).
  { intros order Hno Hpo. apply (out_body _ order Hno body [] [] (r_new None) s1 outs Hcb B1 (r_new_coupled None) eq_refl eq_refl I Fb eq_refl EL).
    apply (render_list_refs body (r_new None) s1 outs order Hdb Hcb eq_refl EL Hpo). }
  assert (HC2 : coupled (r_depth (r_new None)) [] s2).
  { destruct HC1 as (C1 & C2 & C3 & C4 & C5). split; [reflexivity|]. split; [exact C2|]. split; [exact C3|]. split; [exact C4|]. exact C5. }
  assert (Hinv : notes_inv notes (r_foot s2)).
  { unfold s2. cbn [set_notes r_set_foot r_foot]. rewrite Hfoot. cbn [f_refs f_number].
    split; cbn [f_refs f_number f_events]; [apply add_new_nodup; constructor|]. split; [lia|]. intros l _. apply store_body. }
  assert (Ht2 : r_tight s2 = []).
  { change (r_tight s2) with (r_tight s1). apply (Hto (f_refs (r_foot s1))); [|exists []; rewrite app_nil_r; reflexivity].
    rewrite Hfoot. cbn [f_refs]. apply add_new_nodup. constructor. }
  assert (Hcl : clean_foot (r_foot s2)).
  { split; cbn; [|intros ? ? []]. intros l b Hin.
    assert (Hst : forall m, (forall l b, List.In (l, b) m -> clean_body b) -> forall ns, (forall l b, List.In (l, b) ns -> clean_body b) ->
       forall l b, List.In (l, b) (store ns m) -> clean_body b).
    { clear. intros m Hm ns. revert m Hm. induction ns as [|[k c] ns IH]; intros m Hm Hns l b Hin; [eapply Hm; eauto|].
      cbn [store fold_left] in Hin. apply (IH (store1 m (k, c))) with (l := l); auto.
      - intros l1 b1 [[= <- <-]|H]; [apply (Hns k); left; auto|]. apply map_remove_in in H. eauto.
      - intros l1 b1 H. apply (Hns l1); right; auto. }
    apply (Hst [] ltac:(intros ? ? []) notes) with (l := l); auto.
    intros l1 b1 H1. destruct (sep_bodies inner [] Hde) with (l := l1) (b := b1) as [_ G2]; [intros ? ? []|exact H1|exact G2]. }
  set (fb := foot_bound (r_foot s2)).
  assert (Eep : render_event s2 (End_ Document) = render_epilogue (S fb) (render_f (S fb)) s2).
  { unfold render_event. fold fb. cbn [render_f]. rewrite render_body_view. unfold rview. cbn [kind_of].
    change (f_open (r_foot s2)) with (@nil (bytes * list event)).
    destruct HC2 as (_ & _ & C3 & C4 & _). rewrite C4. cbn [top_ld]. cbn [rmain is_block_container bind]. rewrite C3.
    cbn [cnt filter length Nat.ltb Nat.leb andb close_tag bind].
    change (fix render_f (fuel : nat) (s : rstate) (e : event) {struct fuel} : res (rstate * bytes) :=
      match fuel with 0 => Fuel | S f => render_body (fun s0 => render_epilogue f (render_f f) s0) s e end) with render_f.
    change (fun (s : rstate) (e : event) => render_body (fun s0 : rstate => render_epilogue fb (render_f fb) s0) s e) with (render_f (S fb)).
    destruct (render_epilogue (S fb) (render_f (S fb)) s2) as [[? ?]| |]; reflexivity. }
  destruct (epi_loop_phi fb (epi_ok_all fb) (S fb) s2 Hcl eq_refl) as [HnF _]; [pose proof (phi_bound (r_foot s2)); unfold fb; lia|pose proof (phi_bound (r_foot s2)); unfold fb; lia|].
  destruct (out_loop fb (r_depth (r_new None)) notes Hgood (note_body_fine notes Fn) (S fb) s2 HC2 Hi1 Ht2 Hinv HnF) as (s3 & o3 & final & G1 & G2 & G4 & G5).
  assert (Hrefs : f_refs (r_foot s2) = add_new [] (labels_of (drop_defs false body)) /\ f_number (r_foot s2) = 0).
  { unfold s2. cbn [set_notes r_set_foot r_foot]. rewrite Hfoot. split; reflexivity. }
  destruct Hrefs as [Hrefs Hnum]. rewrite Hrefs, Hnum in G4. rewrite Hnum, Nat.sub_0_r in G5.
  assert (Hpre : prefix (f_refs (r_foot s1)) final) by (rewrite Hfoot; cbn [f_refs]; eapply numbered_prefix; exact G4).
  assert (Hndf : NoDup final) by (apply (numbered_nodup _ _ _ _ G4); apply add_new_nodup; constructor).
  destruct (Hto final Hndf Hpre) as [Ho _].
  assert (Hi2 : r_indent s2 = None) by exact Hi1.
  assert (Htail : exists s4, render_epilogue (S fb) (render_f (S fb)) s2 = Ok (s4, endnotes_html final notes)).
  { unfold render_epilogue. destruct (f_refs (r_foot s2)) as [|r0 rs] eqn:Er.
    - cbn [bind]. rewrite Hi2. exists s2. rewrite <- Hrefs in G4. inversion G4; subst; [reflexivity|]. destruct (nth_error [] 0) eqn:En in H; discriminate.
    - rewrite !w_block_none by exact Hi2. cbn [bind]. rewrite !w_block_none by exact Hi2. cbn [bind]. rewrite !w_block_none by exact Hi2. cbn [bind].
      rewrite G1. cbn [bind]. rewrite !w_block_none by exact G2. cbn [bind]. rewrite !w_block_none by exact G2. cbn [bind]. rewrite G2. exists s3. rewrite G5, app_nil_r.
      unfold endnotes_html. destruct final as [|f0 fs]; [destruct Hpre as [x Hx]; change (f_refs (r_foot s1)) with (f_refs (r_foot s2)) in Hx; rewrite Er in Hx; discriminate|].
      unfold attr_html. rewrite <- !app_assoc. reflexivity. }
  destruct Htail as (s4 & Et). rewrite Eep, Et. cbn [bind].
  exists s4, final. split; [exact G4|]. unfold page. fold body notes. rewrite (surjective_pairing (separate [] inner)). fold body notes. rewrite Ho. reflexivity.
Qed.
