(** * PDoc5: the events of a whole document *)
From Verif Require Import Base Lex Attr Block Inline Doc SpecLex Lib SpecAttr PAttr PAttr3 PSafe SpecBlock PBlock1 PBlock2 PBlock3 PBlock4 PInl12 PGram PDoc1 PDoc2 PDoc3 PDoc4 SpecSrc SpecView.
From Verif Require PTree3 PTree8.
Local Open Scope nat_scope.

Record Doc_ok (src : bytes) (blocks : list bev) (D : list (bytes * (bytes * attrs))) (H : list (N * attrs)) (heads : list heading)
    (O : list (event * span)) : Prop := mkDoc {
  d_blocks : block_parse src = Ok blocks;
  d_sq : sq src from_start XRoot 0 blocks XDone (length src);
  d_new : exists s, p_new src = Ok (PP (rev D) heads (sort_heads heads), PS blocks None false false s);
  d_pre : Pre src [] blocks D H;
  d_heads : Forall2 head_of heads H;
  d_spans : parse_spans src = Ok O;
  d_gq : gq src (PP (rev D) heads (sort_heads heads)) GRoot 0 O GDone (length src);
  d_defs : defs_written src (PP (rev D) heads (sort_heads heads));
  d_attrs : incl (battrs src blocks) (allattrs O);
  d_views : vrun src O 0 [from_start];
  d_starts : hstarts O = hmap (PP (rev D) heads (sort_heads heads)) (att src [] blocks)
}.
Theorem doc_ok src : wfb src ->
  (exists blocks D H heads O, Doc_ok src blocks D H heads O) \/ (exists m, parse_spans src = Panic m /\ PTree3.lim src m).
Proof.
  intros Hw. pose proof (PTree8.block_parse_ok src Hw) as HB. destruct (block_parse src) as [blocks|m|] eqn:Eb; cbn [safe] in HB; [left| |contradiction].
  - destruct HB as [HB HWk]. pose proof (sq_Fl _ _ _ _ _ _ _ HB [] (fl_nil src)) as HF. rewrite app_nil_r in HF.
    destruct (pre_new_ok src blocks Hw HF) as (s & D & H & heads & E1 & I1 & P1 & P2). set (pp := PP (rev D) heads (sort_heads heads)) in *.
    destruct (idle_T src pp s I1) as (s1 & I2 & _ & I3).
    assert (Hdw : defs_written src pp).
    { intros l u a Hi. pose proof (Pre_written _ _ _ _ _ Hw P1 (Fl_attr_spans _ _ HF) (Forall_nil _)) as HD. rewrite Forall_forall in HD.
      unfold pp in Hi. cbn [pp_defs] in Hi. apply in_rev in Hi. exact (HD _ Hi). }
    destruct (main_tr src pp Hw Hdw _ _ _ _ _ _ HB [] None false s1 I2 I) as (O & b' & hr' & s' & T1 & T2 & T3 & T4 & [T5 Tv] & [T6 [Ti _]] & L & T7 & T8).
    assert (Eb' : b' = None) by (eapply bnone; [exact T3|intros [|[]]; discriminate|discriminate]). subst b'. rewrite !app_nil_r in T7.
    exists blocks, D, H, heads, O. constructor; auto.
    + exists s. unfold p_new. rewrite Eb. cbn [bind]. rewrite E1. reflexivity.
    + unfold parse_spans, p_new. rewrite Eb. cbn [bind]. rewrite E1. cbn [bind]. apply T_all.
      * apply I3. rewrite <- (app_nil_r O). rewrite <- (app_nil_r blocks). apply T1. apply t_end; reflexivity.
      * unfold all_fuel. cbn [p_blocks]. set (K := 4 * S (length src)) in *. assert (4 <= K) by (unfold K; lia). clearbody K. nia.
    + cbn [batt app] in Ti. rewrite app_nil_r in Ti. exact Ti.
    + rewrite <- (app_nil_r O). apply Tv. intros t. exact I.
    + fold pp. rewrite T8. cbn [batt att] in T7. rewrite ?app_nil_r in T7. rewrite T7. reflexivity.
  - right. exists m. split; [|auto]. unfold parse_spans, p_new. rewrite Eb. reflexivity.
Qed.
