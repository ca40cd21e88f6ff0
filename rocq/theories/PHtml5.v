(** * PHtml5: proofs about the renderer: rendering properly nested events *)
From Verif Require Import Base Attr Block Inline Doc Html Lib SpecDoc SpecHtml PHtml PHtml2 PHtml3 PHtml4.
Local Open Scope nat_scope.

Lemma nestd_app st a b : nestd st (a ++ b) = match nestd st a with Some st' => nestd st' b | None => None end.
Proof.
  revert st; induction a as [|e a IH]; intros st; [reflexivity|]. cbn [app].
  destruct e; cbn [nestd]; auto.
  - destruct st as [|[] st]; auto.
  - destruct st as [|c' st]; auto. destruct (container_eq_dec c c'); auto.
Qed.
Lemma nestd_nest st evs st' : nestd st evs = Some st' -> nest st evs = Some st'.
Proof.
  revert st; induction evs as [|e evs IH]; intros st H; cbn [nestd nest] in *; auto.
  destruct e; auto.
  - apply IH. destruct st as [|[] st]; auto; discriminate.
  - destruct st as [|c' st]; [discriminate|]. destruct (container_eq_dec c c'); [auto|discriminate].
Qed.

Definition is_fn (c : container) : bool := match c with Footnote _ => true | _ => false end.
Definition is_img (c : container) : bool := match c with Image _ _ => true | _ => false end.
Definition is_ld (c : container) : bool := match c with LinkDefinition _ => true | _ => false end.
Definition is_leaf (c : container) : bool := match c with LinkDefinition _ | RawBlock _ | RawInline _ => true | _ => false end.
Definition top_leaf (st : list container) : bool := match st with c :: _ => is_leaf c | [] => false end.
Definition raw_fmt (f : bytes) : raw := if bytes_eqb f (B "html") then RawHtml else RawOther.
Definition raw_of (st : list container) : raw :=
  match st with
  | RawBlock f :: r | RawInline f :: r => if in_image r then RawNone else raw_fmt f
  | _ => RawNone
  end.
Definition top_ld (st : list container) : bool := match st with LinkDefinition _ :: _ => true | _ => false end.
Definition cnt (f : container -> bool) (st : list container) : nat := length (filter f st).
Lemma cnt_cons f c st : cnt f (c :: st) = (if f c then 1 else 0) + cnt f st.
Proof. unfold cnt. cbn [filter]. destruct (f c); reflexivity. Qed.

(** [layers st stack base]: [st] is the stack of open containers, [stack] the footnotes being recorded,
    [base] the open containers outside of footnotes. *)
Inductive layers : list container -> list (bytes * list event) -> list container -> Prop :=
| lay0 base : cnt is_fn base = 0 -> layers base [] base
| layS seg l l' b st stack base : cnt is_fn seg = 0 -> nestd [] b = Some seg -> layers st stack base -> top_leaf st = false ->
    layers (seg ++ Footnote l' :: st) ((l, b) :: stack) base.

Lemma sep_nest evs : forall st st' stack base,
  nestd st evs = Some st' -> layers st stack base ->
  exists base', nestd base (fst (separate stack evs)) = Some base' /\ layers st' (sep_open stack evs) base' /\
    Forall (fun n => nestd [] (snd n) = Some []) (snd (separate stack evs)).
Proof.
  induction evs as [|e evs IH]; intros st st' stack base H L.
  - cbn in H. injection H as <-. exists base. cbn. auto.
  - rewrite separate_cons, sep_open_cons. unfold sep_case, sepo_case.
    (* a step inside a footnote *)
    assert (Hin : forall l b stk, stack = (l, b) :: stk -> (forall l, kind_of e <> KFStart l) -> kind_of e <> KFEnd ->
      exists base', nestd base (fst (separate ((l, b ++ [e]) :: stk) evs)) = Some base' /\ layers st' (sep_open ((l, b ++ [e]) :: stk) evs) base' /\
      Forall (fun n => nestd [] (snd n) = Some []) (snd (separate ((l, b ++ [e]) :: stk) evs))).
    { intros l b stk -> K1 K2. inversion L as [|seg l0 l' b0 st0 stk0 base0 Hs Hb HL Htl]; subst. clear L.
      change (e :: evs) with ([e] ++ evs) in H. rewrite nestd_app in H.
      destruct (nestd (seg ++ Footnote l' :: st0) [e]) as [st1|] eqn:E; [|discriminate].
      assert (Hseg : exists seg', st1 = seg' ++ Footnote l' :: st0 /\ cnt is_fn seg' = 0 /\ nestd [] (b ++ [e]) = Some seg').
      { rewrite nestd_app, Hb. cbn [nestd] in E |- *. destruct e; try (injection E as <-; exists seg; auto; fail).
        - assert (Ef : is_fn c = false) by (destruct c; try reflexivity; exfalso; eapply K1; reflexivity).
          exists (c :: seg). rewrite cnt_cons, Ef, Hs.
          destruct seg as [|c' seg]; cbn [app] in E |- *; [injection E as <-; auto|].
          destruct c'; try discriminate; injection E as <-; auto.
        - destruct seg as [|c' seg]; cbn [app] in E |- *.
          + destruct (container_eq_dec c (Footnote l')); [|discriminate]. subst c. exfalso. apply K2. reflexivity.
          + destruct (container_eq_dec c c'); [|discriminate]. injection E as <-. exists seg.
            rewrite cnt_cons in Hs. split; [auto|split; [lia|auto]]. }
      destruct Hseg as (seg' & -> & Hc & Hn). eapply IH; eauto. constructor; auto. }
    (* a step outside *)
    assert (Hout : stack = [] -> (forall l, kind_of e <> KFStart l) ->
      exists base', nestd base (fst (let (body, notes) := separate [] evs in (e :: body, notes))) = Some base' /\
        layers st' (sep_open [] evs) base' /\
        Forall (fun n => nestd [] (snd n) = Some []) (snd (let (body, notes) := separate [] evs in (e :: body, notes)))).
    { intros -> K1. inversion L as [base0 Hb|]; subst. clear L.
      change (e :: evs) with ([e] ++ evs) in H. rewrite nestd_app in H.
      destruct (nestd base [e]) as [st1|] eqn:E; [|discriminate].
      assert (Hl : layers st1 [] st1).
      { constructor. cbn [nestd] in E. destruct e; try (injection E as <-; auto; fail).
        - assert (Ef : is_fn c = false) by (destruct c; try reflexivity; exfalso; eapply K1; reflexivity).
          assert (st1 = c :: base) as -> by (destruct base as [|[] base]; congruence).
          rewrite cnt_cons, Ef. auto.
        - destruct base as [|c' base]; [discriminate|]. destruct (container_eq_dec c c'); [|discriminate].
          injection E as <-. rewrite cnt_cons in Hb. lia. }
      destruct (IH _ _ _ _ H Hl) as (base' & H1 & H2 & H3).
      destruct (separate [] evs) as [body notes]. cbn [fst snd] in *. exists base'. split; [|split; auto].
      change (e :: body) with ([e] ++ body). rewrite nestd_app, E. auto. }
    destruct (kind_of e) eqn:K.
    + assert (He : exists a, e = Start (Footnote l) a) by (destruct e as [c a|c| | | | | | | | | | | | | | | | |]; try destruct c; try discriminate; injection K as <-; eauto).
      destruct He as [a ->]. cbn [nestd] in H.
      assert (Ht : top_leaf st = false) by (destruct st as [|[] st]; auto; discriminate).
      assert (H' : nestd (Footnote l :: st) evs = Some st') by (destruct st as [|[] st]; auto; discriminate).
      apply (IH _ _ _ _ H'). apply (layS [] l l [] st stack base); auto.
    + destruct stack as [|[l b] stk]; [apply Hout; auto; congruence|].
      assert (He : exists l, e = End_ (Footnote l)) by (destruct e as [c a|c| | | | | | | | | | | | | | | | |]; try destruct c; try discriminate; eauto).
      destruct He as [l2 ->]. inversion L as [|seg l0 l' b0 st0 stk0 base0 Hs Hb HL Htl]; subst. clear L.
      cbn [nestd] in H. destruct seg as [|c' seg]; cbn [app] in H.
      * destruct (container_eq_dec _ _); [|discriminate]. destruct (IH _ _ _ _ H HL) as (base' & H1 & H2 & H3).
        destruct (separate stk evs) as [body notes]. cbn [fst snd] in *. exists base'. split; auto.
      * destruct (container_eq_dec _ _); [|discriminate]. subst c'. rewrite cnt_cons in Hs. discriminate.
    + destruct stack as [|[l b] stk]; [apply Hout; auto; congruence|]. apply Hin; auto; congruence.
    + destruct stack as [|[l b] stk]; [apply Hout; auto; congruence|]. apply Hin; auto; congruence.
    + destruct stack as [|[l b] stk]; [apply Hout; auto; congruence|]. apply Hin; auto; congruence.
Qed.

(** ** Rendering never fails on properly nested events *)
Definition depth_ok (d0 : nat) (st : list container) (s : rstate) : Prop :=
  r_indent s <> None -> r_depth s = d0 + cnt is_block_container st.
Definition coupled (d0 : nat) (st : list container) (s : rstate) : Prop :=
  f_open (r_foot s) = [] /\ depth_ok d0 st s /\ r_img s = cnt is_img st /\ r_ignore s = top_ld st /\ cnt is_leaf (tl st) = 0 /\ r_raw s = raw_of st.

Lemma w_block_run s d : (d = DDown -> r_indent s <> None -> 0 < r_depth s) ->
  exists o, w_block s d = Ok (match r_indent s with
                              | None => s
                              | Some _ => r_set_depth s (match d with DUp => S (r_depth s) | DSame => r_depth s | DDown => r_depth s - 1 end)
                              end, o).
Proof.
  intros H. unfold w_block. destruct (r_indent s) eqn:E; [|eauto].
  destruct d; try (eexists; f_equal; f_equal; destruct s; reflexivity).
  assert (0 < r_depth s) by (apply H; [auto|congruence]). destruct (r_depth s); [lia|].
  cbn [Nat.sub]. rewrite Nat.sub_0_r. eauto.
Qed.
Definition img_change (c : container) (up : bool) (n : nat) : nat :=
  match c with Image _ _ => if up then S n else n - 1 | _ => n end.
Definition raw_open (c : container) (r : raw) : raw := match c with RawBlock f | RawInline f => raw_fmt f | _ => r end.
Definition raw_close (c : container) (r : raw) : raw := match c with RawBlock f | RawInline f => RawNone | _ => r end.
Lemma open_tag_ok s c : is_fn c = false ->
  exists s', (open_tag s c = Ok (inl s') \/ exists o, open_tag s c = Ok (inr (s', o))) /\ r_img s' = img_change c true (r_img s) /\
    r_raw s' = raw_open c (r_raw s).
Proof.
  intros Hf. destruct c; try discriminate Hf; cbn [open_tag]; try (eexists; split; [eauto; fail|]; split; reflexivity).
  - destruct (tight_top s); eexists; (split; [eauto; fail|]; split; reflexivity).
  - destruct head; eexists; (split; [eauto; fail|]; split; reflexivity).
  - destruct (Nat.eqb _ _); eexists; (split; [eauto; fail|]; split; reflexivity).
Qed.
Lemma close_open_tag_ok s c : exists o, close_open_tag s c = Ok (s, o).
Proof.
  destruct c; cbn [close_open_tag]; eauto.
  - destruct (w_block_same_ok s) as [o ->]. cbn [bind]. eauto.
  - destruct a; eauto.
Qed.
Lemma close_tag_ok s c : is_fn c = false -> c <> Document -> top_ld [c] = false -> (is_img c = true -> 0 < r_img s) ->
  exists s', (close_tag s c = Ok (inl (inr s')) \/ exists o, close_tag s c = Ok (inr (s', o))) /\ r_img s' = img_change c false (r_img s) /\
    r_raw s' = raw_close c (r_raw s).
Proof.
  intros Hf Hd Hl Hi. destruct c; try discriminate Hf; try discriminate Hl; try congruence; cbn [close_tag]; try (eexists; split; [eauto; fail|]; split; reflexivity).
  - destruct (tight_top s); eexists; (split; [eauto; fail|]; split; reflexivity).
  - destruct head; eexists; (split; [eauto; fail|]; split; reflexivity).
  - rewrite usub_yes by (apply Hi; reflexivity). cbn [bind]. eexists; (split; [eauto; fail|]; split; reflexivity).
Qed.
Lemma in_image_cnt st : in_image st = Nat.ltb 0 (cnt is_img st).
Proof.
  induction st as [|c st IH]; [reflexivity|]. rewrite cnt_cons. unfold in_image in *. cbn [existsb]. rewrite IH.
  destruct c; reflexivity.
Qed.
Lemma escape_escaped q t : escape q t = escaped q t.
Proof.
  induction t as [|c t IH]; [reflexivity|]. cbn [escape escaped]. rewrite IH. f_equal. unfold entity.
  assert (E : forall x, (beq c x = true /\ exists e, ascii_dec c x = left e) \/ (beq c x = false /\ exists e, ascii_dec c x = right e)).
  { intros x. destruct (beq c x) eqn:Ex, (ascii_dec c x) as [e|e]; eauto; [apply beq_eq in Ex|apply beq_neq in Ex]; congruence. }
  destruct (E "<"%char) as [[-> [e1 ->]]|[-> [e1 ->]]]; [reflexivity|].
  destruct (E ">"%char) as [[-> [e2 ->]]|[-> [e2 ->]]]; [reflexivity|].
  destruct (E "&"%char) as [[-> [e3 ->]]|[-> [e3 ->]]]; [reflexivity|].
  destruct (E DQ) as [[-> [e4 ->]]|[-> [e4 ->]]]; destruct q; reflexivity.
Qed.
Lemma top_leaf_raw st : top_leaf st = false -> raw_of st = RawNone.
Proof. destruct st as [|[] st]; cbn; congruence. Qed.

Definition shows (st : list container) (e : event) (o : bytes) : Prop :=
  (forall t, e = Str t -> o = text_out st t) /\ (forall l, e = FootnoteReference l -> (o = [] <-> hidden st = true)).
Ltac qlia := repeat match goal with H : ?T |- _ => lazymatch T with @eq nat _ _ => fail | (_ <= _)%nat => fail | (_ < _)%nat => fail | nat => fail | _ => clear H end end; lia.
Lemma event_ok d0 e st st' s :
  doc_end e = false -> (forall l, kind_of e <> KFStart l) -> kind_of e <> KFEnd ->
  nestd st [e] = Some st' -> coupled d0 st s ->
  exists s' o, rbody s e = Ok (s', o) /\ coupled d0 st' s' /\ r_indent s' = r_indent s /\ shows st e o.
Proof.
  intros Hd K1 K2 H (Ho & Hdep & Himg & Hig & Hlds & Hraw).
  assert (Hig0 : kind_of e = KOther -> r_ignore s = true ->
     exists s' o, rbody s e = Ok (s', o) /\ coupled d0 st' s' /\ r_indent s' = r_indent s /\ shows st e o).
  { intros K E. exists s, []. split; [unfold rbody, rview; rewrite K, Ho, E; reflexivity|].
    rewrite Hig in E. destruct st as [|c0 st]; [discriminate|]. destruct c0; try discriminate.
    cbn [nestd] in H. assert (st' = LinkDefinition label :: st) as ->.
    { destruct e; try discriminate; try congruence. destruct (container_eq_dec _ _); [subst c; discriminate|discriminate]. }
    split; [|split; [reflexivity|split; [intros t _; reflexivity|intros l _; split; reflexivity]]].
    repeat (split; [auto; fail|]). auto. }
  assert (Hmain : kind_of e = KOther -> r_ignore s = false ->
    (exists s' o, rmain (fun _ => Fuel) s e = Ok (s', o) /\ (coupled d0 st' s' /\ r_indent s' = r_indent s) /\ shows st e o) ->
    exists s' o, rbody s e = Ok (s', o) /\ coupled d0 st' s' /\ r_indent s' = r_indent s /\ shows st e o).
  { intros K E (s' & o & Hm & [Hr Hr'] & Ht). exists s', o. split; auto. unfold rbody, rview. rewrite K, Ho, E. auto. }
  assert (Hsimple : kind_of e = KOther -> st' = st ->
    (r_ignore s = false -> exists s' o, rmain (fun _ => Fuel) s e = Ok (s', o) /\ r_depth s' = r_depth s /\ r_img s' = r_img s /\
       r_raw s' = r_raw s /\ shows st e o) ->
    exists s' o, rbody s e = Ok (s', o) /\ coupled d0 st' s' /\ r_indent s' = r_indent s /\ shows st e o).
  { intros K -> Hm. destruct (r_ignore s) eqn:E; auto. destruct (Hm eq_refl) as (s' & o & E1 & E2 & E3 & E4 & E5).
    apply Hmain; auto. exists s', o. split; auto. apply rmain_frame in E1; auto. destruct E1 as (F1 & F2 & F3).
    split; [|auto]. split; auto. split; [rewrite F3; auto|]. split; [unfold depth_ok; rewrite F1, E2; auto|].
    split; [congruence|]. split; [congruence|]. split; congruence. }
  assert (Hblk : forall X : bytes -> bytes, (exists s' o, (let! (s, o) := w_block s DSame in Ok (r_set_first s false, X o)) = Ok (s', o) /\ r_depth s' = r_depth s /\ r_img s' = r_img s /\
       r_raw s' = r_raw s)).
  { intros X. destruct (w_block_same_ok s) as [o ->]. cbn [bind]. eauto 6. }
  cbn [nestd] in H.
  destruct e; try (injection H as <-).
  5-19: apply Hsimple; [reflexivity|reflexivity|intros _; cbn [rmain]].
  5-19: try (do 2 eexists; repeat (split; [reflexivity|]); split; intros; discriminate).
  all: try (edestruct Hblk as (s' & o & G1 & G2 & G3 & G4); exists s', o; split; [exact G1|]; repeat (split; [assumption|]); split; intros; discriminate).
  - (* Start *)
    assert (Ef : is_fn c = false) by (destruct c; try reflexivity; exfalso; eapply K1; reflexivity).
    assert (Hst : st' = c :: st /\ top_leaf st = false) by (destruct st as [|[] st]; try discriminate; (split; [congruence|reflexivity])).
    destruct Hst as [-> Htl]. rewrite (top_leaf_raw st Htl) in Hraw.
    assert (Hig' : r_ignore s = false) by (rewrite Hig; destruct st as [|[] st]; auto; discriminate).
    assert (Hlds' : cnt is_leaf st = 0).
    { destruct st as [|c1 st]; [auto|]. cbn [tl] in Hlds. cbn in Htl. rewrite cnt_cons, Hlds, Htl. reflexivity. }
    destruct (top_ld [c]) eqn:El.
    { destruct c; try discriminate. exists (r_set_ignore s true), []. split; [unfold rbody, rview; cbn [kind_of]; rewrite Ho; reflexivity|].
      split; [|split; [reflexivity|split; intros; discriminate]]. split; [auto|]. split; [|split; [rewrite cnt_cons; auto|split; [reflexivity|split; auto]]].
      unfold depth_ok. rewrite cnt_cons. cbn. auto. }
    apply Hmain; [destruct c; try reflexivity; discriminate|auto|]. cbn [rmain].
    destruct (w_block_run s (if is_block_container c then DUp else DSame)) as [o1 E1]; [destruct (is_block_container c); discriminate|].
    assert (E2 : exists s1 o1, (if is_block c then w_block s (if is_block_container c then DUp else DSame) else Ok (s, [])) = Ok (s1, o1) /\
       r_indent s1 = r_indent s /\ r_foot s1 = r_foot s /\ r_ignore s1 = r_ignore s /\ r_img s1 = r_img s /\ r_raw s1 = r_raw s /\
       (r_indent s <> None -> r_depth s1 = (if is_block_container c then 1 else 0) + r_depth s)).
    { destruct (is_block c) eqn:Eb.
      - rewrite E1. do 2 eexists. split; [reflexivity|]. destruct (r_indent s) eqn:Ei; cbn; repeat split; auto; try congruence.
        destruct (is_block_container c); reflexivity.
      - unfold is_block in Eb. apply orb_false_elim in Eb. destruct Eb as [-> _]. exists s, []. repeat split; auto. }
    clear E1. destruct E2 as (s1 & o2 & -> & F1 & F2 & F3 & F4 & F6 & F5). cbn [bind].
    assert (Hc1 : forall s2, r_indent s2 = r_indent s1 -> r_foot s2 = r_foot s1 -> r_ignore s2 = r_ignore s1 -> r_depth s2 = r_depth s1 ->
       r_img s2 = img_change c true (r_img s1) -> r_raw s2 = (if Nat.ltb 0 (cnt is_img st) then RawNone else raw_open c RawNone) ->
       coupled d0 (c :: st) s2 /\ r_indent s2 = r_indent s).
    { intros s2 G1 G2 G3 G4 G5 G6. split; [|congruence]. split; [rewrite G2, F2; auto|]. split; [|split; [|split; [|split]]].
      - unfold depth_ok. rewrite G1, F1, G4, cnt_cons. intros Hi. rewrite (F5 Hi), (Hdep Hi). destruct (is_block_container c); qlia.
      - rewrite G5, F4, Himg, cnt_cons. destruct c; reflexivity.
      - rewrite G3, F3, Hig'. destruct c; try reflexivity; discriminate.
      - auto.
      - rewrite G6. cbn [raw_of]. rewrite in_image_cnt. destruct c; try (destruct (Nat.ltb _ _); reflexivity). }
    destruct (Nat.ltb 0 (r_img s1) && _) eqn:Ei.
    { exists s1, o2. split; [reflexivity|]. split; [|split; intros; discriminate]. rewrite F4, Himg in Ei. apply andb_prop in Ei. destruct Ei as [Ei1 Ei2].
      apply Hc1; auto; [destruct c; try reflexivity; discriminate|]. rewrite Ei1. congruence. }
    destruct (open_tag_ok s1 c Ef) as (s2 & Ht & Him & Hrw).
    destruct (open_tag_frame s1 c s2 Ht) as (G1 & G2 & _ & G3 & G4).
    assert (Hrw2 : r_raw s2 = (if Nat.ltb 0 (cnt is_img st) then RawNone else raw_open c RawNone)).
    { rewrite Hrw, F6, Hraw. rewrite F4, Himg in Ei. destruct (Nat.ltb 0 (cnt is_img st)); auto. destruct c; try reflexivity; discriminate. }
    destruct Ht as [->|[o3 ->]]; cbn [bind].
    + exists s2, o2. split; [reflexivity|]. split; [apply Hc1; auto|split; intros; discriminate].
    + destruct (close_open_tag_ok s2 c) as [o4 ->]. cbn [bind]. do 2 eexists. split; [reflexivity|]. split; [apply Hc1; auto|split; intros; discriminate].
  - (* End *)
    destruct st as [|c' st]; [discriminate|]. destruct (container_eq_dec c c') as [->|]; [|discriminate]. injection H as <-.
    rename c' into c. cbn [tl] in Hlds.
    assert (Ef : is_fn c = false) by (destruct c; try reflexivity; exfalso; eapply K2; reflexivity).
    assert (HcD : c <> Document) by (intros ->; discriminate).
    assert (Hl1 : top_leaf st = false /\ cnt is_leaf (tl st) = 0).
    { destruct st as [|c1 st]; [auto|]. rewrite cnt_cons in Hlds. cbn [tl]. split; [destruct c1; try reflexivity; discriminate|lia]. }
    destruct Hl1 as [Hl1 Hl2].
    assert (Hl3 : top_ld st = false) by (destruct st as [|[] st]; auto; discriminate).
    destruct (top_ld [c]) eqn:El.
    { destruct c; try discriminate. exists (r_set_ignore s false), []. split; [unfold rbody, rview; cbn [kind_of]; rewrite Ho; reflexivity|].
      split; [|split; [reflexivity|split; intros; discriminate]]. split; [auto|]. split; [|split; [rewrite cnt_cons in Himg; auto|split; [cbn; congruence|split; [auto|]]]].
      - unfold depth_ok in *. rewrite cnt_cons in Hdep. cbn in *. auto.
      - cbn [r_set_ignore r_raw]. rewrite Hraw, (top_leaf_raw st Hl1). reflexivity. }
    assert (Hig' : r_ignore s = false) by (rewrite Hig; destruct c; auto; discriminate).
    apply Hmain; [destruct c; try reflexivity; discriminate|auto|]. cbn [rmain].
    assert (E2 : exists s1 o1, (if is_block_container c then w_block s DDown else Ok (s, [])) = Ok (s1, o1) /\
       r_indent s1 = r_indent s /\ r_foot s1 = r_foot s /\ r_ignore s1 = r_ignore s /\ r_img s1 = r_img s /\ r_raw s1 = r_raw s /\
       (r_indent s <> None -> r_depth s1 = r_depth s - (if is_block_container c then 1 else 0))).
    { destruct (is_block_container c) eqn:Eb.
      - destruct (w_block_run s DDown) as [o1 E1].
        { intros _ Hi. rewrite (Hdep Hi), cnt_cons, Eb. qlia. }
        rewrite E1. do 2 eexists. split; [reflexivity|]. destruct (r_indent s) eqn:Ei; cbn; repeat split; auto; try congruence.
      - exists s, []. repeat split; auto. intros _. qlia. }
    destruct E2 as (s1 & o2 & -> & F1 & F2 & F3 & F4 & F6 & F5). cbn [bind].
    assert (Hc1 : forall s2, r_indent s2 = r_indent s1 -> r_foot s2 = r_foot s1 -> r_ignore s2 = r_ignore s1 -> r_depth s2 = r_depth s1 ->
       r_img s2 = img_change c false (r_img s1) -> r_raw s2 = RawNone -> coupled d0 st s2 /\ r_indent s2 = r_indent s).
    { intros s2 G1 G2 G3 G4 G5 G6. split; [|congruence]. split; [rewrite G2, F2; auto|]. split; [|split; [|split; [|split]]].
      - unfold depth_ok. rewrite G1, F1, G4. intros Hi. rewrite (F5 Hi), (Hdep Hi), cnt_cons. destruct (is_block_container c); qlia.
      - rewrite G5, F4, Himg, cnt_cons. destruct c; cbn; qlia.
      - rewrite G3, F3, Hig', Hl3. auto.
      - auto.
      - rewrite top_leaf_raw; auto. }
    destruct (Nat.ltb 0 (r_img s1) && _) eqn:Ei.
    { exists s1, o2. split; [reflexivity|]. split; [|split; intros; discriminate]. rewrite F4, Himg, cnt_cons in Ei. apply andb_prop in Ei. destruct Ei as [Ei1 Ei2].
      apply Hc1; auto; [destruct c; try reflexivity; discriminate|]. rewrite F6, Hraw. cbn [raw_of]. rewrite in_image_cnt.
      destruct c; try reflexivity; try discriminate; cbn [is_img Nat.add] in Ei1; rewrite Ei1; reflexivity. }
    destruct (close_tag_ok s1 c Ef HcD El) as (s2 & Ht & Him & Hrw).
    { intros Hic. rewrite F4, Himg, cnt_cons, Hic. qlia. }
    destruct (close_tag_frame s1 c s2 Ht) as (G1 & G2 & _ & G3 & G4).
    assert (Hrw2 : r_raw s2 = RawNone).
    { rewrite Hrw, F6, Hraw. destruct c; reflexivity. }
    destruct Ht as [->|[o3 ->]]; cbn [bind]; do 2 eexists; (split; [reflexivity|]); (split; [apply Hc1; auto|split; intros; discriminate]).
  - (* Str *)
    apply Hsimple; [reflexivity|reflexivity|]. intros Ei. cbn [rmain]. do 2 eexists. repeat (split; [reflexivity|]).
    split; [|intros; discriminate]. intros t [= ->]. rewrite Hraw, Himg, <- in_image_cnt. unfold write_attr, write_text.
    assert (Hesc : (if in_image st then escape true t else escape false t) = escaped (in_image st) t)
      by (rewrite <- escape_escaped; destruct (in_image st); reflexivity).
    unfold text_out, raw_of. rewrite Ei in Hig. destruct st as [|c st]; [exact Hesc|]. destruct c; try exact Hesc; try discriminate Hig.
    + change (in_image (RawBlock format :: st)) with (in_image st) in *. destruct (in_image st); [exact Hesc|]. unfold raw_fmt.
      destruct (list_eq_dec ascii_dec format (B "html")) as [->|Hn]; [reflexivity|].
      destruct (bytes_eqb format (B "html")) eqn:Eb; [apply bytes_eqb_eq in Eb; congruence|reflexivity].
    + change (in_image (RawInline format :: st)) with (in_image st) in *. destruct (in_image st); [exact Hesc|]. unfold raw_fmt.
      destruct (list_eq_dec ascii_dec format (B "html")) as [->|Hn]; [reflexivity|].
      destruct (bytes_eqb format (B "html")) eqn:Eb; [apply bytes_eqb_eq in Eb; congruence|reflexivity].
  - apply Hsimple; [reflexivity|reflexivity|]. intros H. cbn [rmain]. destruct (foot_reference (r_foot s) label).
    do 2 eexists. repeat (split; [reflexivity|]). split; [intros; discriminate|]. intros l _.
    assert (Hh : hidden st = Nat.ltb 0 (r_img s)).
    { rewrite Himg, <- in_image_cnt. rewrite H in Hig. destruct st as [|[] st]; try reflexivity; discriminate. }
    rewrite Hh. destruct (r_img s); cbn [Nat.eqb Nat.ltb Nat.leb]; split; auto; discriminate.
Qed.

Lemma body_ok d0 evs : forall st st' s, no_doc_end evs = true -> clean_body evs ->
  nestd st evs = Some st' -> coupled d0 st s ->
  exists s' o, render_events s evs = Ok (s', o) /\ coupled d0 st' s' /\ r_indent s' = r_indent s.
Proof.
  induction evs as [|e evs IH]; intros st st' s Hd Hc H HC.
  - cbn in H. injection H as <-. exists s, []. auto.
  - apply no_doc_end_cons in Hd. destruct Hd as [Hd1 Hd].
    change (e :: evs) with ([e] ++ evs) in H. rewrite nestd_app in H.
    destruct (nestd st [e]) as [st1|] eqn:E; [|discriminate].
    destruct (Hc e) as [K1 K2]; [left; auto|].
    destruct (event_ok d0 e st st1 s Hd1 K1 K2 E HC) as (s1 & o1 & E1 & HC1 & Hi1 & _).
    destruct (IH st1 st' s1) as (s2 & o2 & E2 & HC2 & Hi2); auto.
    { intros x Hx. apply Hc. right; auto. }
    cbn [render_events]. rewrite render_event_body, E1 by auto. cbn [bind]. rewrite E2. cbn [bind].
    do 2 eexists. split; [reflexivity|]. split; auto. congruence.
Qed.
