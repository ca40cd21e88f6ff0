(** * PCan13: from block events to the events of the document *)
From Verif Require Import Base Lex Attr Inline Block Doc Lib PSafe PCan1 PCan2 PCan3 PCan4 PCan12.
From Verif Require Import SpecCanon.
Local Open Scope nat_scope.

(** ** Block events without positions *)
Inductive sev := SEnter (n : node) | SExit (n : node) | SAtom (a : batom) | SLine (t : bytes) | SStale.
Definition den (src : bytes) (e : bev) : sev :=
  match bk e with
  | BEnter n => SEnter n
  | BExit n => SExit n
  | BAtom a => SAtom a
  | BInline => SLine (slice src (bsp e))
  | BStale => SStale
  end.

Definition mark_type (m : marks) : list_type :=
  match m with
  | MBullet b => LUnordered (bullet_char b)
  | MTask b => LTask (bullet_char b)
  | MNumber n st => LOrdered (LN Decimal n) st
  end.
Definition mark_item (m : marks) (ck : bool) : item_kind := match m with MTask _ => ITask ck | _ => IList end.

Fixpoint blk_bevs (b : blk) (tail : bool) : list sev :=
  let seq := fix seq (bs : list blk) (tail : bool) : list sev :=
    match bs with
    | [] => []
    | [b] => blk_bevs b tail
    | b :: bs' => blk_bevs b true ++ seq bs' tail
    end in
  let blank := if tail then [SAtom BBlankline] else [] in
  match b with
  | DPara l => SEnter (NLeaf FParagraph) :: map SLine (brk (split_lines (inls_src l))) ++ SExit (NLeaf FParagraph) :: blank
  | DRule => SAtom BThematicBreak :: blank
  | DCode lang ls =>
      SEnter (NLeaf (FCodeBlock lang)) :: map SLine (code_texts lang ls) ++ SExit (NLeaf (FCodeBlock lang)) :: blank
  | DQuote bs => SEnter (NCont BBlockquote) :: seq bs false ++ SExit (NCont BBlockquote) :: blank
  | DList m loose items =>
      let c := NCont (BList (mark_type m) (negb loose)) in
      let its := fix its (items : list (bool * list blk)) : list sev :=
        match items with
        | [] => []
        | (ck, bs) :: items' =>
            SEnter (NCont (BListItem (mark_item m ck))) :: seq bs (match items' with [] => tail | _ => loose end)
              ++ SExit (NCont (BListItem (mark_item m ck))) :: its items'
        end in
      SEnter c :: its items ++ [SExit c]
  end.
Fixpoint blks_bevs (bs : list blk) (tail : bool) : list sev :=
  match bs with
  | [] => []
  | [b] => blk_bevs b tail
  | b :: bs' => blk_bevs b true ++ blks_bevs bs' tail
  end.
Fixpoint items_bevs (m : marks) (loose tail : bool) (items : list (bool * list blk)) : list sev :=
  match items with
  | [] => []
  | (ck, bs) :: items' =>
      SEnter (NCont (BListItem (mark_item m ck))) :: blks_bevs bs (match items' with [] => tail | _ => loose end)
        ++ SExit (NCont (BListItem (mark_item m ck))) :: items_bevs m loose tail items'
  end.
Fixpoint items_evs (m : marks) (loose tail : bool) (items : list (bool * list blk)) : list event :=
  match items with
  | [] => []
  | (ck, bs) :: items' =>
      Start (item_cont m ck) [] :: blks_evs bs (match items' with [] => tail | _ => loose end)
        ++ End_ (item_cont m ck) :: items_evs m loose tail items'
  end.
Definition bl (tail : bool) : list sev := if tail then [SAtom BBlankline] else [].
Lemma seq_bevs_eq bs tail : (fix seq (bs : list blk) (tail : bool) : list sev :=
    match bs with
    | [] => []
    | [b] => blk_bevs b tail
    | b :: bs' => blk_bevs b true ++ seq bs' tail
    end) bs tail = blks_bevs bs tail.
Proof. reflexivity. Qed.
Lemma quote_bevs bs tail : blk_bevs (DQuote bs) tail = SEnter (NCont BBlockquote) :: blks_bevs bs false ++ SExit (NCont BBlockquote) :: bl tail.
Proof. reflexivity. Qed.
Lemma list_bevs m loose items tail : blk_bevs (DList m loose items) tail
  = SEnter (NCont (BList (mark_type m) (negb loose))) :: items_bevs m loose tail items ++ [SExit (NCont (BList (mark_type m) (negb loose)))].
Proof.
  cbn [blk_bevs]. f_equal. f_equal. induction items as [|[ck bs] items IH]; [reflexivity|]. cbn [items_bevs]. rewrite <- IH. reflexivity.
Qed.
Lemma quote_evs bs tail : blk_evs (DQuote bs) tail = Start Blockquote [] :: blks_evs bs false ++ End_ Blockquote :: (if tail then [Blankline] else []).
Proof. reflexivity. Qed.
Lemma list_evs m loose items tail : blk_evs (DList m loose items) tail
  = Start (list_cont m (negb loose)) [] :: items_evs m loose tail items ++ [End_ (list_cont m (negb loose))].
Proof.
  cbn [blk_evs]. f_equal. f_equal. induction items as [|[ck bs] items IH]; [reflexivity|]. cbn [items_evs]. rewrite <- IH. reflexivity.
Qed.

(** Induction on blocks with hypotheses for all the blocks inside. *)
Section Ind.
Variable P : blk -> Prop.
Hypothesis HP : forall l, P (DPara l).
Hypothesis HR : P DRule.
Hypothesis HC : forall lang ls, P (DCode lang ls).
Hypothesis HQ : forall bs, Forall P bs -> P (DQuote bs).
Hypothesis HL : forall m loose items, Forall (fun it => Forall P (snd it)) items -> P (DList m loose items).
Fixpoint blk_ind' (b : blk) : P b :=
  let seq := fix seq (bs : list blk) : Forall P bs :=
    match bs with [] => Forall_nil P | b :: bs' => Forall_cons b (blk_ind' b) (seq bs') end in
  match b with
  | DPara l => HP l
  | DRule => HR
  | DCode lang ls => HC lang ls
  | DQuote bs => HQ bs (seq bs)
  | DList m loose items =>
      HL m loose items
        ((fix its (l : list (bool * list blk)) : Forall (fun it => Forall P (snd it)) l :=
            match l with [] => Forall_nil _ | it :: l' => Forall_cons it (seq (snd it)) (its l') end) items)
  end.
End Ind.

(** ** The pre-pass *)
Definition plain_sev (e : sev) : bool :=
  match e with
  | SEnter (NLeaf (FLinkDefinition _)) | SEnter (NLeaf (FHeading _ _ _)) | SAtom BAttributes => false
  | _ => true
  end.
Lemma pre_plain src : forall fuel bl s, forallb (fun e => plain_sev (den src e)) bl = true ->
  pc (eq (s, [], [])) (pre_loop fuel src bl s [] [] [] []).
Proof.
  induction fuel as [|f IH]; intros bl s H; [apply pc_fuel|]. destruct bl as [|[k sp] bl]; [apply pc_ok; reflexivity|].
  cbn [forallb] in H. apply andb_prop in H as [H1 H]. cbn [pre_loop bk bsp]. unfold den in H1. cbn [bk] in H1.
  destruct k as [n| |n|a|]; try (apply IH, H).
  - destruct n as [c|lf]; [destruct c; apply IH, H|]. destruct lf; try discriminate H1; apply IH, H.
  - destruct n as [c|lf]; [destruct c; apply IH, H|]. apply IH, H.
  - destruct a; try discriminate H1; apply IH, H.
Qed.
Lemma forallb_flat {A C} (f : C -> bool) (g : A -> list C) l : (forall x, List.In x l -> forallb f (g x) = true) -> forallb f (flat_map g l) = true.
Proof. induction l as [|x l IH]; intros H; [reflexivity|]. cbn. rewrite forallb_app, H by (left; reflexivity). apply IH. intros y Hy. apply H. right. exact Hy. Qed.
Lemma plain_lines {A} (g : A -> bytes) l : forallb plain_sev (map (fun x => SLine (g x)) l) = true.
Proof. induction l; auto. Qed.
Lemma blks_plain bs : Forall (fun b => forall tail, forallb plain_sev (blk_bevs b tail) = true) bs -> forall tail, forallb plain_sev (blks_bevs bs tail) = true.
Proof.
  induction bs as [|b bs IH]; intros H tail; [reflexivity|]. inversion H as [|? ? H1 H2]; subst.
  destruct bs as [|b' bs]; [apply H1|]. change (blks_bevs (b :: b' :: bs) tail) with (blk_bevs b true ++ blks_bevs (b' :: bs) tail).
  rewrite forallb_app, H1. apply IH, H2.
Qed.
Lemma blk_plain b : forall tail, forallb plain_sev (blk_bevs b tail) = true.
Proof.
  induction b as [l| |lang ls|bs H|m loose items H] using blk_ind'; intros tail.
  - cbn [blk_bevs forallb plain_sev]. rewrite forallb_app, (plain_lines (fun x => x)). destruct tail; reflexivity.
  - destruct tail; reflexivity.
  - cbn [blk_bevs forallb plain_sev]. rewrite forallb_app, (plain_lines (fun x => x)). destruct tail; reflexivity.
  - rewrite quote_bevs. cbn [forallb plain_sev]. rewrite forallb_app, (blks_plain _ H). destruct tail; reflexivity.
  - rewrite list_bevs. cbn [forallb plain_sev]. rewrite forallb_app. rewrite andb_true_l.
    assert (forallb plain_sev (items_bevs m loose tail items) = true) as ->; [|reflexivity].
    induction items as [|[ck bs] items IH]; [reflexivity|]. inversion H as [|? ? H1 H2]; subst. cbn [items_bevs forallb plain_sev].
    rewrite forallb_app, (blks_plain _ H1). cbn. apply IH, H2.
Qed.

Section Canon.
Variables (src : bytes) (pp : prepass).
Notation Out := (PCan2.Out src pp).

(** ** Running the parser *)
Definition drive (f n : nat) (p : pstate) : res (list (event * span)) :=
  let! (o, p1) := p_inline src pp p in
  let! (o, p2) := (match o with Some r => Ok (Some r, p1) | None => p_block f src pp p1 end) in
  match o with
  | None => Ok []
  | Some r => let! rest := p_all n src pp p2 in Ok (r :: rest)
  end.
Lemma all_drive n p l : p_all n src pp p = Ok l -> exists f n', drive f n' p = Ok l.
Proof.
  destruct n as [|n]; [discriminate|]. cbn [p_all]. unfold next_span, drive. intros H.
  destruct (p_inline src pp p) as [[o p1]| |]; try discriminate H. cbn [bind] in *.
  exists (S (Datatypes.length (p_blocks p1))), n. exact H.
Qed.
(** From [p] on, the parser hands out [evs]. *)
Definition EM (p : pstate) (evs : list event) : Prop := forall f n, pc (fun l => map fst l = evs) (drive f n p).
Lemma EM_all n p evs : EM p evs -> pc (fun l => map fst l = evs) (p_all n src pp p).
Proof. intros H l E. apply all_drive in E as (f & n' & E). exact (H f n' l E). Qed.

Definition G (v : bool) (bl : list bev) (evs : list event) : Prop :=
  forall p, p_blocks p = bl -> p_battr p = None -> p_verb p = v -> quiet (p_inl p) -> EM p evs.

Lemma p_inline_quiet p : quiet (p_inl p) ->
  pc (fun x => fst x = None /\ exists s, quiet s /\ snd x = p_set_inl p s) (p_inline src pp p).
Proof.
  intros H. unfold p_inline, inline_next. eapply pc_bind; [apply quiet_next, H|]. intros [o s] [E Q]. cbn in E. subst o.
  apply pc_ok. split; [reflexivity|]. exists s. split; [exact Q|reflexivity].
Qed.

(** One block event that is handed out. *)
Lemma G_emit v v' e bl ev evs : G v' bl evs ->
  (forall p, p_blocks p = e :: bl -> p_battr p = None -> p_verb p = v -> quiet (p_inl p) ->
     pc (fun x => exists sp p', x = SEmit ev sp p' /\ p_blocks p' = bl /\ p_battr p' = None /\ p_verb p' = v' /\ quiet (p_inl p')) (block_step src pp p)) ->
  G v (e :: bl) (ev :: evs).
Proof.
  intros HG H p Hb Ha Hv Hq f n. unfold drive. eapply pc_bind; [apply p_inline_quiet, Hq|].
  intros [o p1] [E (s & Qs & Ep)]. cbn in E, Ep. subst o p1. destruct f as [|f]; [apply pc_fuel|]. cbn [p_block].
  destruct (block_step src pp (p_set_inl p s)) as [x| |] eqn:Eb; [|apply pc_panic|apply pc_fuel].
  destruct (H (p_set_inl p s) Hb Ha Hv Qs x Eb) as (sp & p' & -> & H1 & H2 & H3 & H4). cbn [bind].
  eapply pc_bind; [apply EM_all; exact (HG p' H1 H2 H3 H4)|]. intros l El. apply pc_ok. cbn. rewrite El. reflexivity.
Qed.

Lemma G_end v : G v [] [].
Proof.
  intros p Hb Ha Hv Hq f n. unfold drive. eapply pc_bind; [apply p_inline_quiet, Hq|].
  intros [o p1] [E (s & Qs & Ep)]. cbn in E, Ep. subst o p1. destruct f as [|f]; [apply pc_fuel|]. cbn [p_block].
  unfold block_step. destruct p as [b0 ba hr vb il]. cbn in *. subst. cbn. apply pc_ok. reflexivity.
Qed.
Lemma G_blank v sp bl evs : G v bl evs -> G v (BE (BAtom BBlankline) sp :: bl) (Blankline :: evs).
Proof.
  intros H. eapply G_emit; [exact H|]. intros p Hb Ha Hv Hq. unfold block_step. rewrite Hb, Ha. cbn. apply pc_ok.
  exists sp, (p_set_blocks p bl). auto.
Qed.
Lemma G_rule v sp bl evs : G v bl evs -> G v (BE (BAtom BThematicBreak) sp :: bl) (ThematicBreak [] :: evs).
Proof.
  intros H. eapply G_emit; [exact H|]. intros p Hb Ha Hv Hq. unfold block_step. rewrite Hb, Ha. cbn. apply pc_ok.
  exists sp, (p_set_blocks p bl). auto.
Qed.
Lemma G_enter v c c' sp bl evs : (forall p, block_container pp p c true = Ok (c', p)) -> G v bl evs ->
  G v (BE (BEnter (NCont c)) sp :: bl) (Start c' [] :: evs).
Proof.
  intros Hc H. eapply G_emit; [exact H|]. intros p Hb Ha Hv Hq. unfold block_step. rewrite Hb, Ha. cbn [node_container]. rewrite Hc. cbn [bind]. apply pc_ok.
  exists sp, (p_set_blocks p bl). auto.
Qed.
Lemma G_exit v c c' sp bl evs : (forall p, block_container pp p c false = Ok (c', p)) -> G v bl evs ->
  G v (BE (BExit (NCont c)) sp :: bl) (End_ c' :: evs).
Proof.
  intros Hc H. eapply G_emit; [exact H|]. intros p Hb Ha Hv Hq. unfold block_step. rewrite Hb, Ha. cbn [node_container]. rewrite Hc. cbn [bind]. apply pc_ok.
  exists sp, (p_set_blocks p bl). auto.
Qed.

(** Code. *)
Lemma texts_ne lang ls : forallb code_line ls = true -> raw_end lang ls = true -> Forall (fun t => t <> []) (code_texts lang ls).
Proof.
  intros _ H. unfold code_texts, raw_end in *. destruct (starts_c lang "=").
  - cbn [negb orb] in H. induction ls as [|l ls IH]; [constructor|]. destruct ls as [|l' ls].
    + constructor; [|constructor]. intros ->. discriminate H.
    + constructor; [destruct l; discriminate|]. apply IH. exact H.
  - clear. induction ls; constructor; auto. destruct a; discriminate.
Qed.
Lemma G_code lang ls : Forall (fun t => t <> []) ls -> forall B evs bl,
  map (den src) B = SEnter (NLeaf (FCodeBlock lang)) :: map SLine ls ++ [SExit (NLeaf (FCodeBlock lang))] ->
  G false bl evs ->
  G false (B ++ bl) (Start (code_cont lang) [] :: map Str ls ++ End_ (code_cont lang) :: evs).
Proof.
  intros Hl B evs bl E H.
  unfold code_cont.
  destruct B as [|[k sp] B]; [discriminate E|]. cbn [map] in E. injection E as E1 E2. unfold den in E1. cbn in E1. destruct k; try discriminate E1. injection E1 as ->.
  cbn [app]. eapply G_emit with (v' := true).
  2:{ intros p Hb Ha Hv Hq. unfold block_step. rewrite Hb, Ha. cbn [node_container bind].
      apply pc_bind_eq. intros x Ex. apply bind_ok in Ex as (i & Ei & Ex). cbn in Ex. injection Ex as <-.
      apply pc_ok. eexists _, _. split; [reflexivity|]. cbn. repeat split; auto. exact (quiet_reset _ _ Ei). }
  revert B E2. induction ls as [|l ls IH]; intros B E2; [|inversion Hl as [|? ? Hl0 Hl1]; subst].
  - destruct B as [|[k sp'] B]; [discriminate E2|]. cbn [map app] in E2. injection E2 as E1 E2. unfold den in E1. cbn in E1. destruct k; try discriminate E1. injection E1 as ->.
    destruct B; [|discriminate E2]. cbn [app map]. eapply G_emit; [exact H|].
    intros p Hb Ha Hv Hq. unfold block_step. rewrite Hb, Ha. cbn [node_container bind].
    apply pc_bind_eq. intros x Ex. apply bind_ok in Ex as (i & Ei & Ex). cbn in Ex. injection Ex as <-.
    apply pc_ok. eexists _, _. split; [reflexivity|]. cbn. repeat split; auto. exact (quiet_reset _ _ Ei).
  - destruct B as [|[k sp'] B]; [discriminate E2|]. cbn [map app] in E2. injection E2 as E1 E2. unfold den in E1. cbn in E1. destruct k; try discriminate E1. injection E1 as E1.
    cbn [app map]. eapply G_emit; [apply IH; [exact Hl1|exact E2]|].
    intros p Hb Ha Hv Hq. unfold block_step. rewrite Hb. cbn [bk bsp]. rewrite Hv.
    assert (sp_empty sp' = false) as ->. { destruct (sp_empty sp') eqn:Es; [|reflexivity]. rewrite (sp_empty_slice src sp' Es) in E1. congruence. }
    eapply pc_bind; [apply pc_ssub|]. intros x <-. apply pc_ok. rewrite E1. eexists _, _. split; [reflexivity|]. cbn. auto.
Qed.

(** Paragraphs. *)
Lemma G_out s ls X : Out s ls X -> forall sp bl evs, G false bl evs ->
  forall p, p_blocks p = map (BE BInline) ls ++ BE (BExit (NLeaf FParagraph)) sp :: bl -> p_battr p = None -> p_verb p = false -> p_inl p = s ->
  EM p (X ++ End_ Paragraph :: evs).
Proof.
  induction 1 as [s ls e s1 ev X H1 H2 H3 H4 IH|s l ls s1 X H1 H2 IH|s s1 H1|s ls X H1]; intros sp bl evs HG p Hb Ha Hv Hs f n.
  - unfold drive, p_inline, inline_next. rewrite Hs. eapply pc_bind.
    + eapply pc_bind; [apply H1|]. intros [o s'] K. injection K as <- <-.
      instantiate (1 := fun x => exists r, fst x = Some r /\ fst r = ev /\ snd x = p_set_inl p s1).
      assert (G0 : pc (fun x => exists r, fst x = Some r /\ fst r = ev /\ snd x = p_set_inl p s1) (let! r := inline_event src pp s1 e [] in Ok (Some r, p_set_inl p s1))).
      { eapply pc_bind; [exact H3|]. intros r Hr. apply pc_ok. exists r. auto. }
      destruct (ik e); try exact G0. destruct H2.
    + intros [o p1] (r & E1 & E2 & E3). cbn in E1, E3. subst o p1. cbn [bind].
      eapply pc_bind; [apply EM_all; eapply IH; eauto|]. intros l El. apply pc_ok. cbn. rewrite E2, El. reflexivity.
  - unfold drive, p_inline, inline_next. rewrite Hs. eapply pc_bind.
    + eapply pc_bind; [apply H1|]. intros [o s'] K. injection K as <- <-. apply pc_ok.
      instantiate (1 := fun x => x = (None, p_set_inl p s1)). reflexivity.
    + intros x ->. destruct f as [|f]; [apply pc_fuel|]. cbn [p_block]. unfold block_step at 1. cbn [p_blocks p_set_inl]. rewrite Hb. cbn [map app bk].
      change (p_verb (p_set_inl p s1)) with (p_verb p). rewrite Hv. change (p_inl (p_set_inl p s1)) with s1.
      assert (negb (match map (BE BInline) ls ++ BE (BExit (NLeaf FParagraph)) sp :: bl with e :: _ => is_binline e | [] => false end) = is_nil ls) as -> by (destruct ls; reflexivity).
      destruct (i_feed_line src s1 l (is_nil ls)) as [s2| |] eqn:Ef; [|apply pc_panic|apply pc_fuel]. cbn [bind].
      pose proof (IH s2 eq_refl sp bl evs HG (p_set_inl (p_set_blocks (p_set_inl p s1) (map (BE BInline) ls ++ BE (BExit (NLeaf FParagraph)) sp :: bl)) s2)
                     eq_refl Ha Hv eq_refl f n) as K.
      unfold drive in K. intros r Er. apply (K r). clear - Er.
      destruct (p_inline _ _ _) as [[o p1]| |]; try discriminate Er. cbn [bind] in *. destruct o; exact Er.
  - unfold drive, p_inline, inline_next. rewrite Hs. eapply pc_bind.
    + eapply pc_bind; [apply H1|]. intros [o s'] K. injection K as <- <-. apply pc_ok.
      instantiate (1 := fun x => x = (None, p_set_inl p s1)). reflexivity.
    + intros x ->. destruct f as [|f]; [apply pc_fuel|]. cbn [p_block]. unfold block_step at 1. cbn [p_blocks p_set_inl]. rewrite Hb. cbn [map app].
      cbn [node_container]. change (p_battr (p_set_inl p s1)) with (p_battr p). rewrite Ha.
      change (p_inl (p_set_blocks (p_set_inl p s1) bl)) with s1.
      destruct (i_reset s1) as [i| |] eqn:Ei; [|apply pc_panic|apply pc_fuel]. cbn [bind leaf_container].
      eapply pc_bind; [apply EM_all; apply HG; cbn; auto; exact (quiet_reset _ _ Ei)|]. intros l El. apply pc_ok. cbn. rewrite El. reflexivity.
  - unfold drive, p_inline, inline_next. rewrite Hs. intros r Er. exfalso.
    apply bind_ok in Er as (x & Er & _). apply bind_ok in Er as (y & Er & _). exact (H1 _ _ _ Er).
Qed.

Lemma map_lines B X : map (den src) B = map SLine X -> exists ls, B = map (BE BInline) ls /\ map (slice src) ls = X.
Proof.
  revert X. induction B as [|[k sp] B IH]; intros X E.
  - destruct X; [|discriminate E]. exists []. auto.
  - destruct X as [|x X]; [discriminate E|]. cbn [map] in E. injection E as E1 E2. unfold den in E1. cbn in E1. destruct k; try discriminate E1. injection E1 as <-.
    destruct (IH _ E2) as (ls & -> & <-). exists (sp :: ls). auto.
Qed.

Lemma G_para l B evs bl : inls_ok l = true -> forallb line_ok (split_lines (inls_src l)) = true ->
  map (den src) B = SEnter (NLeaf FParagraph) :: map SLine (brk (split_lines (inls_src l))) ++ [SExit (NLeaf FParagraph)] ->
  G false bl evs -> G false (B ++ bl) (Start Paragraph [] :: inls_evs l ++ End_ Paragraph :: evs).
Proof.
  intros Hok Hlines E H.
  destruct B as [|[k sp] B]; [discriminate E|]. cbn [map] in E. injection E as E1 E2. unfold den in E1. cbn in E1. destruct k; try discriminate E1. injection E1 as ->.
  destruct (rev_case B) as [-> |(B' & e & ->)]; [destruct (brk _); discriminate E2|]. rewrite map_app in E2. cbn [map] in E2. apply app_inj_tail in E2 as [E2 E3].
  destruct (map_lines _ _ E2) as (ls & -> & Els). destruct e as [k sp']. unfold den in E3. cbn in E3. destruct k; try discriminate E3. injection E3 as ->.
  destruct ls as [|l0 ls]. { exfalso. pose proof (split_lines_ne (inls_src l)) as K. destruct (split_lines (inls_src l)) as [|a [|b X]]; [congruence|discriminate Els..]. }
  cbn [app]. eapply G_emit with (v' := false).
  2:{ intros p Hb Ha Hv Hq. unfold block_step. rewrite Hb, Ha. cbn [node_container bind].
      apply pc_bind_eq. intros x Ex. apply bind_ok in Ex as (i & Ei & Ex). cbn in Ex. injection Ex as <-.
      apply pc_ok. eexists _, _. split; [reflexivity|]. cbn. repeat split; auto. exact (quiet_reset _ _ Ei). }
  intros p Hb Ha Hv Hq f n. unfold drive. eapply pc_bind; [apply p_inline_quiet, Hq|].
  intros [o p1] [E (s & Qs & Ep)]. cbn in E, Ep. subst o p1. destruct f as [|f]; [apply pc_fuel|]. cbn [p_block].
  unfold block_step at 1. cbn [p_blocks p_set_inl]. rewrite Hb. cbn [map app bk]. change (p_verb (p_set_inl p s)) with (p_verb p). rewrite Hv. change (p_inl (p_set_inl p s)) with s. rewrite <- app_assoc. cbn [app].
  assert (negb (match map (BE BInline) ls ++ BE (BExit (NLeaf FParagraph)) sp' :: bl with e :: _ => is_binline e | [] => false end) = is_nil ls) as -> by (destruct ls; reflexivity).
  destruct (i_feed_line src s l0 (is_nil ls)) as [s2| |] eqn:Ef; [|apply pc_panic|apply pc_fuel]. cbn [bind].
  pose proof (para_content src pp l Hok Hlines s l0 ls s2 Qs Els Ef) as HO.
  pose proof (G_out s2 ls _ HO sp' bl evs H (p_set_inl (p_set_blocks (p_set_inl p s) (map (BE BInline) ls ++ BE (BExit (NLeaf FParagraph)) sp' :: bl)) s2)
                 eq_refl Ha Hv eq_refl f n) as K.
  unfold drive in K. intros r Er. apply (K r). clear - Er.
  destruct (p_inline _ _ _) as [[o p1]| |]; try discriminate Er. cbn [bind] in *. destruct o; exact Er.
Qed.

(** ** All blocks *)
Lemma G_tail tail B bl evs : map (den src) B = PCan13.bl tail -> G false bl evs -> G false (B ++ bl) ((if tail then [Blankline] else []) ++ evs).
Proof.
  intros E H. destruct tail; cbn in E.
  - destruct B as [|[k sp] [|]]; try discriminate E. unfold den in E. cbn in E. destruct k; try discriminate E. injection E as ->. apply G_blank, H.
  - destruct B; [|discriminate E]. exact H.
Qed.
Lemma map_app_inv {A C} (f : A -> C) l a b : map f l = a ++ b -> exists l1 l2, l = l1 ++ l2 /\ map f l1 = a /\ map f l2 = b.
Proof.
  revert l. induction a as [|x a IH]; intros l E; [exists [], l; auto|]. destruct l as [|y l]; [discriminate E|]. cbn in E. injection E as E1 E2.
  destruct (IH _ E2) as (l1 & l2 & -> & <- & <-). exists (y :: l1), l2. cbn. rewrite E1. auto.
Qed.
Lemma map_cons_inv' B x X : map (den src) B = x :: X -> exists e B', B = e :: B' /\ den src e = x /\ map (den src) B' = X.
Proof. destruct B as [|e B]; [discriminate|]. cbn. intros E. injection E as <- <-. eauto. Qed.
Lemma den_enter e n : den src e = SEnter n -> exists sp, e = BE (BEnter n) sp.
Proof. destruct e as [k sp]. unfold den. cbn. destruct k; try discriminate. intros E. injection E as ->. eauto. Qed.
Lemma den_exit e n : den src e = SExit n -> exists sp, e = BE (BExit n) sp.
Proof. destruct e as [k sp]. unfold den. cbn. destruct k; try discriminate. intros E. injection E as ->. eauto. Qed.
Lemma den_atom e n : den src e = SAtom n -> exists sp, e = BE (BAtom n) sp.
Proof. destruct e as [k sp]. unfold den. cbn. destruct k; try discriminate. intros E. injection E as ->. eauto. Qed.

Definition Gb (b : blk) : Prop := blk_ok b = true -> forall tail B bl evs, map (den src) B = blk_bevs b tail -> G false bl evs -> G false (B ++ bl) (blk_evs b tail ++ evs).
Lemma G_blks bs : Forall Gb bs -> forallb blk_ok bs = true -> forall tail B bl evs, map (den src) B = blks_bevs bs tail -> G false bl evs ->
  G false (B ++ bl) (blks_evs bs tail ++ evs).
Proof.
  induction bs as [|b bs IH]; intros Hbs Hok tail B bl evs E HG.
  - destruct B; [|discriminate E]. exact HG.
  - inversion Hbs as [|? ? H1 H2]; subst. cbn in Hok. apply andb_prop in Hok as [Hok1 Hok2]. destruct bs as [|b' bs].
    + apply (H1 Hok1 tail); auto.
    + change (blks_bevs (b :: b' :: bs) tail) with (blk_bevs b true ++ blks_bevs (b' :: bs) tail) in E.
      change (blks_evs (b :: b' :: bs) tail) with (blk_evs b true ++ blks_evs (b' :: bs) tail).
      apply map_app_inv in E as (B1 & B2 & -> & E1 & E2). rewrite <- !app_assoc. apply (H1 Hok1 true); auto.
Qed.
Lemma list_cont_ok m t p e : block_container pp p (BList (mark_type m) t) e = Ok (list_cont m t, p).
Proof. destruct m as [[]|[]|n st]; reflexivity. Qed.
Lemma item_cont_ok m ck p e : block_container pp p (BListItem (mark_item m ck)) e = Ok (item_cont m ck, p).
Proof. destruct m; reflexivity. Qed.

Lemma G_block b : Gb b.
Proof.
  induction b as [l| |lang ls|bs H|m loose items H] using blk_ind'; intros Hok tail B bl evs E HG.
  - cbn [blk_ok] in Hok. apply andb_prop in Hok as [Hok1 Hok2]. cbn [blk_bevs blk_evs] in *.
    change (SEnter (NLeaf FParagraph) :: map SLine (brk (split_lines (inls_src l))) ++ SExit (NLeaf FParagraph) :: PCan13.bl tail = map (den src) B) in E || idtac.
    replace (SEnter (NLeaf FParagraph) :: map SLine (brk (split_lines (inls_src l))) ++ SExit (NLeaf FParagraph) :: (if tail then [SAtom BBlankline] else []))
      with ((SEnter (NLeaf FParagraph) :: map SLine (brk (split_lines (inls_src l))) ++ [SExit (NLeaf FParagraph)]) ++ PCan13.bl tail) in E
      by (cbn [app]; rewrite <- app_assoc; reflexivity).
    apply map_app_inv in E as (B1 & B2 & -> & E1 & E2). rewrite <- !app_assoc. cbn [app]. rewrite <- app_assoc. cbn [app].
    apply G_para; auto. apply G_tail; auto.
  - cbn [blk_bevs blk_evs] in *. apply map_cons_inv' in E as (e & B' & -> & E1 & E2). apply den_atom in E1 as (sp & ->). cbn [app]. apply G_rule. apply G_tail; auto.
  - cbn [blk_ok] in Hok. apply andb_prop in Hok as [Hok1 Hok2]. cbn [blk_bevs blk_evs] in *.
    replace (SEnter (NLeaf (FCodeBlock lang)) :: map SLine (code_texts lang ls) ++ SExit (NLeaf (FCodeBlock lang)) :: (if tail then [SAtom BBlankline] else []))
      with ((SEnter (NLeaf (FCodeBlock lang)) :: map SLine (code_texts lang ls) ++ [SExit (NLeaf (FCodeBlock lang))]) ++ PCan13.bl tail) in E
      by (cbn [app]; rewrite <- app_assoc; reflexivity).
    apply map_app_inv in E as (B1 & B2 & -> & E1 & E2). rewrite <- !app_assoc. cbn [app]. rewrite <- app_assoc. cbn [app].
    apply andb_prop in Hok2 as [Hc Hr]. apply G_code; [apply texts_ne; assumption|exact E1|apply G_tail; auto].
  - cbn [blk_ok] in Hok. apply andb_prop in Hok as [_ Hok]. rewrite quote_bevs in E. rewrite quote_evs.
    apply map_cons_inv' in E as (e & B' & -> & E1 & E2). apply den_enter in E1 as (sp & ->).
    apply map_app_inv in E2 as (B1 & B2 & -> & E2 & E3). apply map_cons_inv' in E3 as (e & B3 & -> & E3 & E4). apply den_exit in E3 as (sp' & ->).
    cbn [app]. rewrite <- !app_assoc. apply G_enter with (c := BBlockquote); [reflexivity|]. apply G_blks; auto. cbn [app].
    apply G_exit with (c := BBlockquote); [reflexivity|]. apply G_tail; auto.
  - cbn [blk_ok] in Hok. apply andb_prop in Hok as [Hok _]. apply andb_prop in Hok as [_ Hok].
    rewrite list_bevs in E. rewrite list_evs.
    apply map_cons_inv' in E as (e & B' & -> & E1 & E2). apply den_enter in E1 as (sp & ->).
    apply map_app_inv in E2 as (B1 & B2 & -> & E2 & E3). apply map_cons_inv' in E3 as (e & B3 & -> & E3 & E4). apply den_exit in E3 as (sp' & ->).
    destruct B3; [|discriminate E4]. cbn [app]. rewrite <- !app_assoc. apply G_enter with (c := BList (mark_type m) (negb loose)); [intros; apply list_cont_ok|].
    assert (HG' : G false ([BE (BExit (NCont (BList (mark_type m) (negb loose)))) sp'] ++ bl) ([End_ (list_cont m (negb loose))] ++ evs)).
    { cbn [app]. apply G_exit with (c := BList (mark_type m) (negb loose)); [intros; apply list_cont_ok|exact HG]. }
    revert HG'. generalize ([BE (BExit (NCont (BList (mark_type m) (negb loose)))) sp'] ++ bl) ([End_ (list_cont m (negb loose))] ++ evs).
    intros bl' evs' HG'. clear E4 HG bl evs sp sp'. revert B1 E2. induction items as [|[ck bs] items IH]; intros B1 E2.
    + destruct B1; [|discriminate E2]. exact HG'.
    + inversion H as [|? ? H1 H2]; subst. cbn [forallb snd] in Hok. apply andb_prop in Hok as [Hok1 Hok2]. apply andb_prop in Hok1 as [_ Hok1].
      cbn [items_bevs items_evs] in *.
      apply map_cons_inv' in E2 as (e & B' & -> & E1 & E2). apply den_enter in E1 as (sp & ->).
      apply map_app_inv in E2 as (B2 & B3 & -> & E2 & E3). apply map_cons_inv' in E3 as (e & B4 & -> & E3 & E4). apply den_exit in E3 as (sp' & ->).
      cbn [app]. rewrite <- !app_assoc. apply G_enter with (c := BListItem (mark_item m ck)); [intros; apply item_cont_ok|].
      apply G_blks with (tail := match items with [] => tail | _ => loose end); auto. cbn [app].
      apply G_exit with (c := BListItem (mark_item m ck)); [intros; apply item_cont_ok|]. apply IH; auto.
Qed.
End Canon.

(** The whole document. *)
Theorem from_blocks src bs : SpecCanon.doc_ok bs = true ->
  pc (fun B => map (den src) B = SEnter (NCont BDocument) :: blks_bevs bs false ++ [SExit (NCont BDocument)]) (block_parse src) ->
  pc (fun l => l = doc_evs bs) (parse src).
Proof.
  intros Hok HB. unfold SpecCanon.doc_ok in Hok. apply andb_prop in Hok as [_ Hok].
  destruct (block_parse src) as [B| |] eqn:Eb.
  2,3: unfold parse, parse_spans, p_new; rewrite Eb; intros l El; discriminate El.
  specialize (HB _ eq_refl). cbn beta in HB.
  assert (Hpre : pc (fun x => snd x = i_new) (pre_new src B)).
  { unfold pre_new. eapply pc_bind; [eapply pre_plain with (src := src)|].
    - assert (K : forallb plain_sev (map (den src) B) = true).
      { rewrite HB. cbn [forallb plain_sev]. rewrite forallb_app, blks_plain; [reflexivity|]. clear. induction bs; constructor; auto using blk_plain. }
      clear - K. induction B as [|e B IH]; [reflexivity|]. cbn in *. apply andb_prop in K as [-> K]. auto.
    - intros x <-. cbn. apply pc_ok. reflexivity. }
  assert (HG : forall pp, G src pp false B (doc_evs bs)).
  { intros pp. apply map_cons_inv' in HB as (e & B' & -> & E1 & E2). apply den_enter in E1 as (sp & ->).
    apply map_app_inv in E2 as (B1 & B2 & -> & E2 & E3). apply map_cons_inv' in E3 as (e & B4 & -> & E3 & E4). apply den_exit in E3 as (sp' & ->).
    destruct B4; [|discriminate E4]. unfold doc_evs. apply G_enter with (c := BDocument); [reflexivity|]. apply G_blks; auto.
    - clear. induction bs; constructor; auto. apply G_block.
    - apply G_exit with (c := BDocument); [reflexivity|]. apply G_end. }
  intros l El. unfold parse, parse_spans, p_new in El. rewrite Eb in El. cbn [bind] in El.
  apply bind_ok in El as (r & El & Er). injection Er as <-. apply bind_ok in El as ([pp p] & E1 & E2).
  apply bind_ok in E1 as ([pp' i] & E0 & E1). apply Hpre in E0. cbn in E0. subst i. injection E1 as <- <-.
  eapply (EM_all src pp'); [|exact E2]. apply (HG pp'); auto. apply quiet_new.
Qed.
