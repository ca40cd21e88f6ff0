(** * PCan21: the tree parser on canonical documents *)
From Verif Require Import Base Lex Attr Inline Block Doc Lib PSafe PIds SpecBlock PCan1 PCan2 PCan3 PCan12 PCan13 PCan14 PCan15 PCan16 PCan17 PCan18 PCan19 PCan20.
From Verif Require Import SpecCanon.
Local Open Scope nat_scope.

(** ** Lines still to be parsed *)
Definition after_lines (bs : list blk) (tail : bool) : list bytes := match bs with [] => tlb tail | _ => [] :: blks_lines bs ++ tlb tail end.
Definition ltail (bs : list blk) (tail : bool) : bool := nonempty bs || tail.
Definition itail (its : list (bool * list blk)) (loose lt : bool) : bool := match its with [] => lt | _ => loose end.
Definition rest_lines (m : marks) (i : N) (loose : bool) (its : list (bool * list blk)) (bs : list blk) (tail : bool) : list bytes :=
  match its with
  | [] => match bs with [] => [] | _ => blks_lines bs ++ tlb tail end
  | _ => sep_with (lsep loose) (item_lines m i its) ++ after_lines bs tail
  end.
Lemma blks_lines_cons b bs tail : blks_lines (b :: bs) ++ tlb tail = blk_lines b ++ after_lines bs tail.
Proof.
  unfold blks_lines. cbn [map]. destruct bs as [|b' bs]; [reflexivity|]. cbn [map]. rewrite sep_cons, <- app_assoc. reflexivity.
Qed.
Lemma rest_lines_cons m i loose ck body its bs tail :
  rest_lines m i loose ((ck, body) :: its) bs tail
  = hang (mark_text m i ck) (blks_lines body) ++ tlb (itail its loose (ltail bs tail)) ++ rest_lines m (i + 1) loose its bs tail.
Proof.
  unfold rest_lines at 1. cbn [item_lines]. destruct its as [|[ck' body'] its].
  - cbn [item_lines sep_with itail rest_lines]. f_equal. unfold after_lines, ltail. destruct bs; [|reflexivity]. cbn. rewrite app_nil_r. reflexivity.
  - cbn [item_lines]. rewrite sep_cons, <- !app_assoc. reflexivity.
Qed.
Lemma list_rest m loose items bs tail : items <> [] -> blks_lines (DList m loose items :: bs) ++ tlb tail = rest_lines m 0 loose items bs tail.
Proof. intros H. rewrite blks_lines_cons, list_lines. destruct items; [congruence|reflexivity]. Qed.

Definition nums (m : marks) (i : N) (n : nat) : Prop := match m with MNumber s _ => (s + i + N.of_nat n <= 10000000000000000000)%N | _ => True end.
Lemma nums_ok m i n : nums m i (S n) -> marks_ok m i /\ nums m (i + 1) n.
Proof. destruct m; cbn [nums marks_ok]; auto. intros H. rewrite Nat2N.inj_succ in H. split; lia. Qed.
Definition its_ok (its : list (bool * list blk)) : bool := forallb (fun it => first_ok (snd it) && no_adjacent_lists (snd it) && forallb blk_ok (snd it)) its.

Lemma rest_stop m i k loose its bs tail : its_ok its = true -> nums m i (length its) -> forallb blk_ok bs = true ->
  item_stop k (itail its loose (ltail bs tail)) (rest_lines m i loose its bs tail).
Proof.
  intros Hits Hn Hbs. destruct its as [|[ck body] its].
  - cbn [itail rest_lines]. destruct bs as [|b bs]; [exact I|]. destruct (blks_head (b :: bs)) as (l & ls & -> & (c & r & -> & Hc & _)); [discriminate|exact Hbs|].
    cbn. exists c, r. auto.
  - rewrite rest_lines_cons. cbn [its_ok forallb snd] in Hits. apply andb_prop in Hits as [Hb _]. apply andb_prop in Hb as [Hb Hok]. apply andb_prop in Hb as [Hf _].
    destruct (body_first body Hf Hok) as (l & ls & -> & Hl). cbn [hang app]. destruct (nums_ok m i _ Hn) as [Hm _].
    destruct (mark_head m i ck) as (c & r & Em & Hc & _). pose proof (identify_mark k m i ck l Hm Hl) as Hid. rewrite Em in Hid |- *. cbn [app].
    exists c, (r ++ SP :: l). split; [reflexivity|]. split; [exact Hc|]. right. intros x Ex. cbn [app] in Hid. rewrite <- (Hid x Ex). reflexivity.
Qed.

Lemma last_list_cons b b' bs : last_list (b :: b' :: bs) = last_list (b' :: bs).
Proof. unfold last_list. f_equal. change (last (b' :: bs) b) with (match bs with [] => b' | _ => last bs b end). destruct bs as [|c bs]; [reflexivity|]. clear. revert c. induction bs as [|d bs IH]; intros c; [reflexivity|]. exact (IH d). Qed.
Lemma bevs_tail b tail : is_list b = false -> blk_bevs b tail = blk_bevs b false ++ bl tail.
Proof.
  destruct b as [l| |lang ls|bs|m loose items]; intros H; try discriminate H.
  - cbn [blk_bevs]. fold (bl tail). cbn [app]. f_equal. rewrite <- app_assoc. reflexivity.
  - reflexivity.
  - cbn [blk_bevs]. fold (bl tail). cbn [app]. f_equal. rewrite <- app_assoc. reflexivity.
  - rewrite !quote_bevs. cbn [app]. f_equal. rewrite <- app_assoc. reflexivity.
Qed.
Definition after_bevs (bs : list blk) (tail : bool) : list sev := match bs with [] => bl tail | _ => SAtom BBlankline :: blks_bevs bs tail end.
Lemma bevs_cons b bs tail : is_list b = false -> blks_bevs (b :: bs) tail = blk_bevs b false ++ after_bevs bs tail.
Proof.
  intros H. destruct bs as [|b' bs]; [exact (bevs_tail b tail H)|]. change (blks_bevs (b :: b' :: bs) tail) with (blk_bevs b true ++ blks_bevs (b' :: bs) tail).
  rewrite (bevs_tail b true H), <- app_assoc. reflexivity.
Qed.
Lemma list_bevs_cons m loose items bs tail : blks_bevs (DList m loose items :: bs) tail
  = SEnter (NCont (BList (mark_type m) (negb loose))) :: items_bevs m loose (ltail bs tail) items ++ SExit (NCont (BList (mark_type m) (negb loose))) :: blks_bevs bs tail.
Proof.
  destruct bs as [|b bs].
  - change (blks_bevs [DList m loose items] tail) with (blk_bevs (DList m loose items) tail). rewrite list_bevs. reflexivity.
  - change (blks_bevs (DList m loose items :: b :: bs) tail) with (blk_bevs (DList m loose items) true ++ blks_bevs (b :: bs) tail). rewrite list_bevs.
    cbn [app]. f_equal. rewrite <- app_assoc. reflexivity.
Qed.

Section Canon.
Variable src : bytes.
Notation at_ := (PCan15.at_ src).
Notation V := (PCan15.V src).
Notation den := (PCan13.den src).
Notation Post := (PCan18.Post src).
Notation Good := (PCan19.Good src).
Notation Ends := (PCan18.Ends src).

Lemma Ends_app ll L O E X pb pl Z s : Ends ll L O (E ++ X) pb pl Z s -> Ends ll L O E pb pl (map den X ++ Z) s.
Proof.
  destruct ll; cbn [PCan18.Ends].
  - intros (X1 & ty0 & ty & tp & t & sp & X2 & -> & -> & ->). exists (X ++ X1), ty0, ty, tp, t, sp, X2. split; [reflexivity|].
    rewrite !app_length, <- !app_assoc, map_app, <- app_assoc, Nat.add_assoc. split; reflexivity.
  - intros (Y & -> & <-). exists (X ++ Y). rewrite <- app_assoc, map_app. split; reflexivity.
Qed.
Lemma Post_app L O E E' X fl1 lo tail ll Z s : lv L O E -> flip L E E' fl1 -> (fl1 = true -> lo = true) ->
  Post L O (E' ++ X) lo tail ll Z s -> Post L O E lo tail ll (map den X ++ Z) s.
Proof.
  intros Hlv H1 H2 (E2 & fl & pb & pl & G1 & G2 & G3 & G4 & G5 & G6).
  assert (Hlv' : lv L O E'). { pose proof (lv_app L O E E' [] Hlv (flip_len _ _ _ _ H1)) as K. rewrite app_nil_r in K. exact K. }
  destruct (flip_app _ _ _ _ _ _ Hlv' G1) as (E3 & -> & G1'). exists E3, (fl1 || fl), pb, pl.
  split; [eapply flip_trans; eassumption|]. split; [destruct fl1; auto|]. split; [intros K; rewrite (G3 K); apply orb_true_r|].
  split; [exact G4|]. split; [exact G5|]. apply Ends_app, G6.
Qed.

(** What follows a block that is not a list. *)
Lemma after_step f top k bs tail L O E0 E' X fl1 pl lo sps : (forall f', f' < f -> forall top, Good (parse_blocks f' src top)) ->
  forallb blk_ok bs = true -> no_adjacent_lists bs = true -> V k sps (after_lines bs tail) -> lv L O E0 ->
  flip L E0 E' fl1 -> (fl1 = true -> lo = true) -> (pl = true -> fl1 = true) -> (bs = [] \/ tc lo true bs) ->
  pc (Post L O E0 lo tail (last_list bs) (map den X ++ after_bevs bs tail)) (parse_blocks f src top (St false pl L O (E' ++ X)) sps).
Proof.
  intros IH Hok Hadj HV Hlv Hf Hfl Hpl Htc.
  assert (Hlv' : forall Y, lv L O (E' ++ Y)) by (intros Y; apply (lv_app L O E0); [exact Hlv|eapply flip_len, Hf]).
  destruct bs as [|b bs].
  - destruct tail; cbn [after_lines tlb] in HV.
    + destruct sps as [|sp0 sps]; [inversion HV|]. destruct f as [|f]; [apply pc_fuel|]. cbn [parse_blocks].
      eapply pc_bind; [eapply blank_step; [exact HV|apply Hlv']|]. intros x (sp & ->). cbn [skipn].
      apply V_cons in HV as [_ HV]. inversion HV; subst. destruct f; cbn [parse_blocks]; apply pc_ok;
        (exists E', fl1, true, pl; repeat (split; [auto; fail|]); repeat (split; [assumption || discriminate || auto; fail|]); rewrite <- app_assoc;
         eexists; split; [reflexivity|]; rewrite map_app; reflexivity).
    + inversion HV; subst. assert (Hp : forall f', parse_blocks f' src top (St false pl L O (E' ++ X)) [] = Ok (St false pl L O (E' ++ X))) by (intros []; reflexivity).
      rewrite Hp. apply pc_ok. exists E', fl1, false, pl. repeat (split; [assumption || discriminate || auto; fail|]). eexists. split; [reflexivity|]. cbn. rewrite app_nil_r. reflexivity.
  - cbn [after_lines] in HV. destruct sps as [|sp0 sps]; [inversion HV|]. destruct f as [|f]; [apply pc_fuel|]. cbn [parse_blocks].
    eapply pc_bind; [eapply blank_step; [exact HV|apply Hlv']|]. intros x (sp & ->). cbn [skipn].
    apply V_cons in HV as [_ HV]. rewrite <- app_assoc. destruct Htc as [Htc|Htc]; [discriminate|].
    eapply pc_weaken; [eapply (IH f (Nat.lt_succ_diag_r f) top (b :: bs)); [discriminate|exact Hok|exact Hadj|exact HV|apply Hlv'|exact Htc]|].
    intros s Hs. eapply Post_app in Hs; [|exact Hlv|exact Hf|exact Hfl]. rewrite map_app, <- app_assoc in Hs. exact Hs.
Qed.

(** ** Lists *)
Definition GoodL (f : nat) : Prop := forall top k m i j loose its bs tail L O E X pb pl lo sps ty0 t sp,
  its_ok its = true -> nums m i (length its) -> (loose = false -> forallb (fun it => tight_body (snd it)) its = true) ->
  forallb blk_ok bs = true -> no_adjacent_lists bs = true -> (match bs with b :: _ => is_list b = false | [] => True end) -> (bs <> [] -> lo = true) ->
  V k sps (rest_lines m i loose its bs tail) -> lv L O E ->
  (loose = false -> t = true /\ pl = false /\ (its <> [] -> pb = false)) ->
  (loose = true -> its = [] -> t = false /\ pl = false) ->
  (loose = true -> its <> [] -> t = false \/ pb = true) ->
  (its = [] -> bs = [] -> tail = false -> pb = false) ->
  pc (Post L O E lo tail (match bs with [] => true | _ => last_list bs end)
        (SEnter (NCont (BList (mark_type m) (negb loose))) :: map den X ++ items_bevs m loose (ltail bs tail) its ++ SExit (NCont (BList (mark_type m) (negb loose))) :: blks_bevs bs tail))
     (parse_blocks f src top (Ls pb pl m (mark_ty m j) L O E ty0 t sp X) sps).

Lemma parse_nil f top s : parse_blocks f src top s [] = Ok s.
Proof. destruct f; reflexivity. Qed.

Lemma good_list f : (forall f', f' < f -> forall top, Good (parse_blocks f' src top)) -> (forall f', f' < f -> GoodL f') -> GoodL f.
Proof.
  intros IH1 IH2 top k m i j loose its bs tail L O E X pb pl lo sps ty0 t sp Hits Hn Htight Hok Hadj Hnl Hlo HV Hlv C1 C2 C3 C4.
  destruct its as [|[ck body] its].
  - assert (Ht : t = negb loose /\ pl = false). { destruct loose; [destruct (C2 eq_refl eq_refl)|destruct (C1 eq_refl) as (A1 & A2 & _)]; subst; auto. }
    destruct Ht as [-> ->]. clear C1 C2 C3. cbn [items_bevs app]. destruct bs as [|b bs].
    + cbn [rest_lines] in HV. inversion HV; subst. rewrite parse_nil. apply pc_ok.
      exists E, false, pb, false. split; [reflexivity|]. split; [discriminate|]. split; [discriminate|]. split; [auto|]. split; [discriminate|].
      exists [], ty0, (mark_type m), (mark_ty m j), (negb loose), sp, X. split; [reflexivity|]. cbn [app length]. rewrite Nat.add_0_r. split; reflexivity.
    + cbn [rest_lines] in HV. rewrite blks_lines_cons in HV. cbn [forallb] in Hok. apply andb_prop in Hok as [Hb Hok].
      destruct (blk_first b Hb) as (l0 & ls0 & E0 & _ & _). destruct sps as [|sp0 sps]; [rewrite E0 in HV; inversion HV|].
      destruct f as [|f]; [apply pc_fuel|]. cbn [parse_blocks].
      assert (Hlo' : lo = true) by (apply Hlo; discriminate).
      set (QE := fun E1 => exists pos, E1 = E ++ BE (BEnter (NCont (BList (mark_type m) (negb loose)))) sp :: X ++ [BE (BExit (NCont (BList (mark_type m) (negb loose)))) (Sp pos pos)]).
      eapply pc_bind; [eapply (step_block src (parse_blocks f src false) QE pb false L O lo _ k top); [| | | | | |exact HV|]|].
      * intros kd st Hkd. unfold update_lists, Ls, St. cbn [t_lists t_open ol_depth length]. rewrite Nat.leb_refl, Nat.eqb_refl. cbn [assert bind].
        assert ((match kd with KListItem _ ty_new _ => lt_continues (ol_prev (OL (mark_type m) (mark_ty m j) (S (length O)) (length E))) ty_new | _ => Ok None end) = Ok None) as -> by (destruct kd; try discriminate Hkd; reflexivity).
        cbn [bind]. pose proof (close_is pb L O E [] ty0 (mark_type m) (mark_ty m j) (negb loose) sp X (length E) st) as K. cbn [length app] in K. rewrite Nat.add_0_r in K. specialize (K eq_refl).
        unfold St in K. unfold t_set_lists. cbn [t_pblank t_ploose t_attr t_lists t_secs t_open t_events]. rewrite K. apply pc_ok.
        eexists. split; [eexists; reflexivity|]. split; [apply (lv_app L O E E); [exact Hlv|reflexivity]|reflexivity].
      * auto.
      * exact (IH1 f (Nat.lt_succ_diag_r f) false).
      * exact Hnl.
      * exact Hb.
      * left. exact Hlo'.
      * unfold after_lines. destruct bs; [destruct tail|]; cbn; auto.
      * intros [lc s'] (E1 & E' & Y & fl & pl & (pos & ->) & Hlc & Hs' & Hf & Hfl & Hpl & HY). cbn [fst snd] in Hlc, Hs'. subst lc s'.
        assert (HV2 : V k (skipn (length (blk_lines b)) (sp0 :: sps)) (after_lines bs tail)).
        { apply V_app in HV as (s1 & s2 & -> & H1 & H2). rewrite <- (V_len _ _ _ _ H1), skipn_app, skipn_all, Nat.sub_diag. exact H2. }
        assert (Hadj' : no_adjacent_lists bs = true) by (destruct bs as [|b' bs]; [reflexivity|]; cbn [no_adjacent_lists] in Hadj; apply andb_prop in Hadj as [_ Hadj]; exact Hadj).
        eapply pc_weaken; [eapply (after_step f top k bs tail L O _ E' Y fl pl lo); [|exact Hok|exact Hadj'|exact HV2| |exact Hf|exact Hfl|exact Hpl|right; left; exact Hlo']|].
        -- intros f' Hf'. exact (IH1 f' (Nat.lt_lt_succ_r _ _ Hf')).
        -- apply (lv_app L O E E); [exact Hlv|reflexivity].
        -- intros s Hs. apply (Post_app L O E E _ false) in Hs; [|exact Hlv|reflexivity|discriminate].
           assert (El : last_list (b :: bs) = last_list bs) by (destruct bs as [|b' bs]; [exact Hnl|apply last_list_cons]). rewrite El.
           rewrite (bevs_cons b bs tail Hnl), <- HY. cbn [map] in Hs. rewrite map_app in Hs. cbn [app] in Hs. rewrite <- app_assoc in Hs. exact Hs.
  - rewrite rest_lines_cons in HV. pose proof Hits as Hits0. cbn [its_ok forallb snd] in Hits. apply andb_prop in Hits as [Hb Hits]. apply andb_prop in Hb as [Hb Hbok]. apply andb_prop in Hb as [Hbf Hbadj].
    destruct (nums_ok m i (length its) Hn) as [Hm Hn'].
    destruct (body_first body Hbf Hbok) as (l & ls & Els & _).
    destruct sps as [|sp0 sps]; [rewrite Els in HV; cbn [hang app] in HV; inversion HV|].
    destruct f as [|f]; [apply pc_fuel|]. cbn [parse_blocks].
    assert (Htb : loose = false -> tight_body body = true) by (intros Hl; specialize (Htight Hl); cbn [forallb snd] in Htight; apply andb_prop in Htight as [Htight _]; exact Htight).
    pose proof (item_step src (parse_blocks f src false) m i ck loose body L O E X k top _ _ (next_up pb pl L O E X m j i k ty0 t sp)
      (IH1 f (Nat.lt_succ_diag_r f) false) Hm Hbf Hbadj Hbok Htb _ sp0 sps _ HV (rest_stop m (i + 1) k loose its bs tail Hits Hn' Hok)) as Hstep.
    eapply pc_bind; [exact Hstep|]. clear Hstep.
    intros [lc s'] [Hlc (pb' & pl' & ty1 & t0 & t1 & sp1 & Y & -> & Hs' & HY & D1 & D2 & D3 & D4)]. cbn [fst snd] in Hlc, Hs'. subst s'.
    assert (HV2 : V k (skipn lc (sp0 :: sps)) (rest_lines m (i + 1) loose its bs tail)).
    { rewrite Hlc. rewrite app_assoc in HV. apply V_app in HV as (s1 & s2 & -> & H1 & H2).
      replace (length (blks_lines body) + length (tlb (itail its loose (ltail bs tail)))) with (length s1); [rewrite skipn_app, skipn_all, Nat.sub_diag; exact H2|].
      rewrite (V_len _ _ _ _ H1), app_length. f_equal. rewrite Els. cbn [hang length]. rewrite map_length. reflexivity. }
    eapply pc_weaken; [eapply (IH2 f (Nat.lt_succ_diag_r f) top k m (i + 1)%N i loose its bs tail L O E (X ++ Y) pb' pl' lo); try assumption|].
    + intros Hl. specialize (Htight Hl). cbn [forallb] in Htight. apply andb_prop in Htight as [_ Htight]. exact Htight.
    + intros Hl. destruct (D2 Hl) as [-> ->]. destruct (C1 Hl) as (-> & _ & Hpb). rewrite Hpb by discriminate. repeat split; auto.
      intros Hne. apply D3. subst loose. destruct its; [congruence|reflexivity].
    + intros Hl Hi. assert (Kt : t && negb pb = false) by (destruct (C3 Hl) as [-> | ->]; [discriminate|reflexivity|apply andb_false_r]). exact (D1 Kt).
    + intros Hl Hi. assert (Kt : t && negb pb = false) by (destruct (C3 Hl) as [-> | ->]; [discriminate|reflexivity|apply andb_false_r]). left. exact (proj1 (D1 Kt)).
    + intros -> -> Hta. apply D3. subst tail. reflexivity.
    + intros s Hs. rewrite map_app, HY in Hs. cbn [items_bevs]. rewrite <- !app_assoc in Hs. cbn [app] in Hs. rewrite <- !app_assoc in Hs.
      cbn [app]. rewrite <- !app_assoc. cbn [app]. exact Hs.
Qed.

(** ** Sequences *)
Lemma good_seq f : (forall f', f' < f -> forall top, Good (parse_blocks f' src top)) -> (forall f', f' < f -> GoodL f') -> forall top, Good (parse_blocks f src top).
Proof.
  intros IH1 IH2 top bs k L O E pb pl lo tail sps Hne Hok Hadj HV Hlv Htc. destruct bs as [|b bs]; [congruence|].
  cbn [forallb] in Hok. apply andb_prop in Hok as [Hb Hok].
  assert (Hadj' : no_adjacent_lists bs = true) by (destruct bs as [|b' bs]; [reflexivity|]; cbn [no_adjacent_lists] in Hadj; apply andb_prop in Hadj as [_ Hadj]; exact Hadj).
  destruct (is_list b) eqn:Hl.
  - destruct b as [| | | |m loose items]; try discriminate Hl. clear Hl. cbn [blk_ok] in Hb. apply andb_prop in Hb as [Hb Hlo]. apply andb_prop in Hb as [Hnum Hits].
    assert (Hi : items <> []) by (destruct items; [destruct loose; discriminate Hlo|discriminate]).
    rewrite (list_rest m loose items bs tail Hi) in HV. rewrite list_bevs_cons.
    assert (Hn : nums m 0 (length items)). { destruct m; cbn in *; auto. rewrite N.add_0_r. apply N.leb_le, Hnum. }
    destruct items as [|[ck body] its]; [congruence|]. rewrite rest_lines_cons in HV. cbn [forallb snd] in Hits. apply andb_prop in Hits as [Hb Hits]. apply andb_prop in Hb as [Hb Hbok]. apply andb_prop in Hb as [Hbf Hbadj].
    destruct (nums_ok m 0 (length its) Hn) as [Hm Hn'].
    destruct (body_first body Hbf Hbok) as (l & ls & Els & _).
    destruct sps as [|sp0 sps]; [rewrite Els in HV; cbn [hang app] in HV; inversion HV|].
    destruct f as [|f]; [apply pc_fuel|]. cbn [parse_blocks].
    assert (Htb : loose = false -> tight_body body = true /\ forallb (fun it => tight_body (snd it)) its = true).
    { intros ->. cbn [length Nat.leb forallb snd] in Hlo. apply andb_prop in Hlo as [_ Hlo]. apply andb_prop in Hlo. exact Hlo. }
    pose proof (item_step src (parse_blocks f src false) m 0 ck loose body L O E [] k top _ _ (first_up pb pl L O E m k Hlv)
      (IH1 f (Nat.lt_succ_diag_r f) false) Hm Hbf Hbadj Hbok (fun H => proj1 (Htb H)) _ sp0 sps _ HV (rest_stop m (0 + 1) k loose its bs tail Hits Hn' Hok)) as Hstep.
    eapply pc_bind; [exact Hstep|]. clear Hstep.
    intros [lc s'] [Hlc (pb' & pl' & ty1 & t0 & t1 & sp1 & Y & -> & Hs' & HY & D1 & D2 & D3 & D4)]. cbn [fst snd] in Hlc, Hs'. subst s'.
    assert (HV2 : V k (skipn lc (sp0 :: sps)) (rest_lines m (0 + 1) loose its bs tail)).
    { rewrite Hlc. rewrite app_assoc in HV. apply V_app in HV as (s1 & s2 & -> & H1 & H2).
      replace (length (blks_lines body) + length (tlb (itail its loose (ltail bs tail)))) with (length s1); [rewrite skipn_app, skipn_all, Nat.sub_diag; exact H2|].
      rewrite (V_len _ _ _ _ H1), app_length. f_equal. rewrite Els. cbn [hang length]. rewrite map_length. reflexivity. }
    assert (El : last_list (DList m loose ((ck, body) :: its) :: bs) = match bs with [] => true | _ => last_list bs end) by (destruct bs as [|b' bs]; [reflexivity|apply last_list_cons]). rewrite El.
    cbn [app]. eapply pc_weaken; [eapply (IH2 f (Nat.lt_succ_diag_r f) top k m (0 + 1)%N 0%N loose its bs tail L O E Y pb' pl' lo); try assumption|].
    + apply Htb.
    + destruct bs as [|b' bs]; [exact I|]. cbn [no_adjacent_lists is_list andb] in Hadj. apply andb_prop in Hadj as [Hadj _]. apply negb_true_iff in Hadj. exact Hadj.
    + intros Hbs. destruct Htc as [Htc|[[_ Htc]|(b & Eb & _)]]; [exact Htc| |injection Eb as _ ->; congruence].
      exfalso. destruct bs as [|b' bs]; [congruence|]. cbn in Htc. destruct b'; try discriminate Htc. cbn in Hadj. discriminate Hadj.
    + intros Hl. destruct (D2 Hl) as [-> ->]. repeat split; auto. intros Hne'. apply D3. subst loose. destruct its; [congruence|reflexivity].
    + intros -> ->. discriminate Hlo.
    + intros -> Hne'. right. apply andb_prop in Hlo as [_ Hlo]. apply negb_true_iff in Hlo. apply D4; [destruct its; [congruence|reflexivity]|exact Hlo].
    + intros -> -> Hta. apply D3. subst tail. reflexivity.
    + intros s Hs. rewrite HY in Hs. cbn [items_bevs]. cbn [app] in Hs |- *. rewrite <- !app_assoc in Hs |- *. exact Hs.
  - rewrite blks_lines_cons in HV. destruct (blk_first b Hb) as (l0 & ls0 & E0 & _ & _). destruct sps as [|sp0 sps]; [rewrite E0 in HV; inversion HV|].
    destruct f as [|f]; [apply pc_fuel|]. cbn [parse_blocks].
    assert (Htb : lo = true \/ (pb = false /\ tight_blk b = true /\ (bs = [] \/ tc lo true bs))).
    { destruct Htc as [Htc|[[Hpb Htc]|(b1 & Eb & Hb1)]]; [left; exact Htc| |injection Eb as -> ->; congruence]. right. split; [exact Hpb|].
      destruct bs as [|b' [|b2 bs]]; cbn in Htc; [auto| |destruct b'; discriminate Htc]. destruct b'; try discriminate Htc. split; [exact Htc|]. right. right. right. eexists. split; reflexivity. }
    eapply pc_bind; [eapply (step_block src (parse_blocks f src false) (fun E1 => E1 = E) pb pl L O lo _ k top); [| | | | | |exact HV|]|].
    * intros kd st Hkd. rewrite update_lists_closed by exact Hlv. apply pc_ok. exists E. auto.
    * intros ->. destruct Htb as [Htb|(Htb & _)]; [exact Htb|discriminate].
    * exact (IH1 f (Nat.lt_succ_diag_r f) false).
    * exact Hl.
    * exact Hb.
    * destruct Htb as [Htb|(_ & Htb & _)]; auto.
    * unfold after_lines. destruct bs; [destruct tail|]; cbn; auto.
    * intros [lc s'] (E1 & E' & Y & fl & pl' & -> & Hlc & Hs' & Hf & Hfl & Hpl & HY). cbn [fst snd] in Hlc, Hs'. subst lc s'.
      assert (HV2 : V k (skipn (length (blk_lines b)) (sp0 :: sps)) (after_lines bs tail)).
      { apply V_app in HV as (s1 & s2 & -> & H1 & H2). rewrite <- (V_len _ _ _ _ H1), skipn_app, skipn_all, Nat.sub_diag. exact H2. }
      eapply pc_weaken; [eapply (after_step f top k bs tail L O E E' Y fl pl' lo); [|exact Hok|exact Hadj'|exact HV2|exact Hlv|exact Hf|exact Hfl|exact Hpl|]|].
      -- intros f' Hf'. exact (IH1 f' (Nat.lt_lt_succ_r _ _ Hf')).
      -- destruct Htb as [Htb|(_ & _ & Htb)]; [right; left; exact Htb|exact Htb].
      -- intros s Hs. assert (El : last_list (b :: bs) = last_list bs) by (destruct bs as [|b' bs]; [exact Hl|apply last_list_cons]). rewrite El.
         rewrite (bevs_cons b bs tail Hl), <- HY. exact Hs.
Qed.
Lemma good_all f : (forall top, Good (parse_blocks f src top)) /\ GoodL f.
Proof.
  induction f as [f IH] using lt_wf_ind. assert (I1 : forall f', f' < f -> forall top, Good (parse_blocks f' src top)) by (intros f' Hf'; apply IH, Hf').
  assert (I2 : forall f', f' < f -> GoodL f') by (intros f' Hf'; apply IH, Hf'). split; [apply good_seq; assumption|apply good_list; assumption].
Qed.
End Canon.

(** ** Documents *)
Theorem block_canon bs : doc_ok bs = true ->
  pc (fun B => map (den (doc_src bs)) B = SEnter (NCont BDocument) :: blks_bevs bs false ++ [SExit (NCont BDocument)]) (block_parse (doc_src bs)).
Proof.
  intros H. unfold doc_ok in H. apply andb_prop in H as [Hadj Hok]. set (src := doc_src bs) in *.
  destruct bs as [|b bs]; [apply pc_ok; reflexivity|].
  unfold block_parse. pose proof (lines_doc (b :: bs) Hok) as HV. fold src in HV.
  set (E := [BE (BEnter (NCont BDocument)) (Sp 0 0)]). change (t_enter t_new (NCont BDocument) (Sp 0 0)) with (St false false [] [0] E).
  eapply pc_bind; [eapply (proj1 (good_all src _) true (b :: bs) 0 [] [0] E false false true false); [discriminate|exact Hok|exact Hadj| |exact I|left; reflexivity]|].
  { cbn [tlb]. rewrite app_nil_r. exact HV. }
  intros s (E' & fl & pb & pl & G1 & G2 & G3 & G4 & G5 & G6).
  assert (Ef : E' = E). { destruct fl; [|exact G1]. destruct G1 as (? & ? & ? & ? & G & _). discriminate G. } subst E'. clear G1.
  eapply pc_bind with (P := fun s2 => exists X, s2 = St pb pl [] [0] (E ++ X) /\ map (den src) X = blks_bevs (b :: bs) false).
  - destruct (last_list (b :: bs)); cbn [PCan18.Ends] in G6.
    + destruct G6 as (X1 & ty0 & ty & tp & t & sp & X2 & -> & -> & EZ). cbn [close_lists t_lists length St].
      pose proof (close_is pb [] [0] E X1 ty0 ty tp t sp X2 _ (length src) eq_refl) as K. unfold St in K |- *. unfold t_set_lists. cbn [t_pblank t_ploose t_attr t_lists t_secs t_open t_events].
      cbn [length] in K |- *. rewrite K. cbn [bind]. apply pc_ok. eexists. split; [reflexivity|]. rewrite EZ, map_app. cbn [map]. rewrite map_app. reflexivity.
    + destruct G6 as (X & -> & HX). cbn. apply pc_ok. exists X. auto.
  - intros s2 (X & -> & HX). unfold St. cbn [t_secs t_set_secs length exit_n bind].
    pose proof (exit_is pb pl [] [] [] [] (NCont BDocument) (Sp 0 0) (Sp (length src) (length src)) X eq_refl) as K. unfold St in K. cbn [length app] in K.
    unfold t_set_secs. cbn [t_pblank t_ploose t_attr t_lists t_secs t_open t_events]. unfold E. cbn [app]. rewrite K. cbn [bind t_open assert t_events]. apply pc_ok.
    cbn [map]. rewrite map_app, HX. reflexivity.
Qed.
Theorem canon_events bs : doc_ok bs = true -> pc (fun l => l = doc_evs bs) (parse (doc_src bs)).
Proof. intros H. apply from_blocks; [exact H|]. apply block_canon, H. Qed.
