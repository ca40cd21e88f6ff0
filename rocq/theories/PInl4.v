(** * PInl4: inline attributes *)
From Verif Require Import Base Lex Attr Block Inline Doc SpecLex Lib SpecAttr SpecSrc PAttr PAttr3 PAttr4 PSafe PBlock2 PLex PBlock3 PBlock4 PInl1 PInl2 PInl3.
Local Open Scope nat_scope.

(** ** Lists at an index *)
Lemma get_mid {A} (X : list A) x Y i w : i = length X -> get_at (X ++ x :: Y) i w = Ok x.
Proof. intros ->. apply get_at_yes. rewrite nth_error_app2, Nat.sub_diag by auto. reflexivity. Qed.
Lemma upd_mid {A} (X : list A) x Y y : upd (X ++ x :: Y) (length X) y = X ++ y :: Y.
Proof. induction X; cbn; f_equal; auto. Qed.
Lemma set_mid {A} (X : list A) x Y i y w : i = length X -> set_at (X ++ x :: Y) i y w = Ok (X ++ y :: Y).
Proof. intros ->. rewrite set_at_yes by (rewrite app_length; cbn; lia). rewrite upd_mid. reflexivity. Qed.
Lemma set_kind_mid X k0 sp Y i k w : i = length X -> set_kind (X ++ IE k0 sp :: Y) i k w = Ok (X ++ IE k sp :: Y).
Proof. intros ->. unfold set_kind. rewrite get_mid by auto. cbn [bind]. rewrite upd_mid. reflexivity. Qed.
Lemma set_end_mid X k sp Y i e w : i = length X -> set_end (X ++ IE k sp :: Y) i e w = Ok (X ++ IE k (Sp (ss sp) e) :: Y).
Proof. intros ->. unfold set_end. rewrite get_mid by auto. cbn [bind]. rewrite upd_mid. reflexivity. Qed.
Lemma insert_mid {A} (X Y : list A) i y w : i = length X -> insert_at (X ++ Y) i y w = Ok (X ++ y :: Y).
Proof.
  intros ->. rewrite insert_at_yes by (rewrite app_length; lia). rewrite firstn_app, firstn_all, Nat.sub_diag. cbn.
  rewrite app_nil_r, skipn_app, skipn_all, Nat.sub_diag. reflexivity.
Qed.
Lemma lastok_snoc src E k sp : (k = IStr -> ss sp < se sp \/ (0 < ss sp /\ nth_error src (ss sp - 1) = Some "."%char)) -> lastok src (E ++ [IE k sp]).
Proof. intros H. unfold lastok. rewrite last_opt_app. destruct k; auto. Qed.
Lemma lastok_cons2 src E x F k sp : (k = IStr -> ss sp < se sp \/ (0 < ss sp /\ nth_error src (ss sp - 1) = Some "."%char)) -> lastok src (E ++ x :: F ++ [IE k sp]).
Proof. intros H. replace (E ++ x :: F ++ [IE k sp]) with ((E ++ x :: F) ++ [IE k sp]) by (rewrite <- app_assoc; reflexivity). apply lastok_snoc. auto. Qed.

Lemma iends_set src nc c a t x q e : icloser src nc c t (slice src (Sp x q)) -> iattr c = true -> x <= q -> set_on src (Sp q e) a -> braced (slice src (Sp q e)) ->
  iends src nc c a t (Sp x e).
Proof. intros H1 H2 H3 H4 H5. exists q. cbn [ss se]. split; [auto|]. split; [apply H4|]. split; [auto|]. split; [apply iauto_attr; auto|]. right. auto. Qed.
Lemma iends_none src nc c t sp : icloser src nc c t (slice src sp) -> c <> CSpan -> ss sp <= se sp -> iauto src c (ss sp) -> iends src nc c [] t sp.
Proof. intros H1 H2 H3 H4. exists (se sp). rewrite span_eta. split; [auto|]. split; [auto|]. split; [auto|]. split; [auto|]. left. auto. Qed.

Lemma elem_bal src nc al ls lo ops evs q i : elem_at src nc al ls lo ops evs q (ElemContainer i) -> zip src nc al ls lo ops evs q.
Proof.
  intros (A & a & ph & kx & sx & Z & b & ky & sy & -> & -> & H1 & H2 & H3 & H4 & H5 & H6 & H7 & H8 & H9 & H10).
  eapply zip_app; [exact H1|]. apply (bal_app _ _ _ _ [_] ph); [apply bal_ph; cbn; auto|].
  destruct H10 as [(-> & -> & _)|(c & -> & -> & Hc & Ht & Ho & Hcl & Hia & Hns)].
  - apply (bal_app _ _ _ _ [_] (se sx)); [apply bal_str; auto|]. eapply bal_app; [exact H6|]. apply bal_str; auto; lia.
  - assert (Hen : iends src nc c [] (vopen c (slice src sx) ++ itexts src Z) sy) by (apply iends_none; auto using iauto_attr; apply H8). destruct Ht as [Ht|Ht].
    + eapply bal_cont; eauto; lia.
    + eapply (bal_tcont src nc al ph [] c sx Z b sy q []); eauto; lia.
Qed.

Lemma elem_line src nc al ls ls' lo ops evs q ty : elem_at src nc al ls lo ops evs q ty ->
  (ls' = ls \/ ls' = 0 \/ exists e, q <= e /\ e <= ls' /\ 0 < e /\ nth_error src (e - 1) = Some NL) -> elem_at src nc al ls' lo ops evs q ty.
Proof.
  intros H Hl. destruct ty as [p|]; [|exact I].
  destruct H as (A & a & ph & kx & sx & Z & b & ky & sy & E1 & E2 & H1 & H2 & H3 & H4 & H5 & H6 & H7 & H8 & H9 & H10).
  exists A, a, ph, kx, sx, Z, b, ky, sy. repeat (split; [assumption|]). split; [|repeat (split; [assumption|]); assumption].
  eapply zip_line; [exact H1|]. destruct Hl as [-> |[-> |(e & L1 & L2)]]; [auto|auto|right; right]. exists e. split; [|auto].
  pose proof (bal_le _ _ _ _ _ _ H6). destruct H5 as (H5 & _), H8 as (H8 & _). cbn in *. lia.
Qed.
Lemma slice_join src sy q e : se sy = q -> q <= e -> ss sy <= se sy -> slice src (Sp (ss sy) e) = slice src sy ++ slice src (Sp q e).
Proof. intros H1 H2 H3. rewrite <- (span_eta sy) at 2. rewrite H1. rewrite slice_app by lia. reflexivity. Qed.

(** ** Placing attributes *)
Lemma place_attrs_ok src lo s a ty q e : wfb src -> s_span s = Sp q e -> q < e -> span_ok src (Sp q e) ->
  evz src lo s q -> lastok src (s_events s) ->
  set_on src (Sp q e) a -> braced (slice src (Sp q e)) ->
  elem_at src (s_cow s) (s_attrs s) (lstart s) lo (s_openers s) (s_events s) q ty ->
  exists evs al', place_attrs src s a ty = Ok (s_set_attrs (s_set_events s evs) (s_attrs s ++ al')) /\
    zip src (s_cow s) (s_attrs s ++ al') (lstart s) lo (s_openers s) evs e /\ lastok src evs /\ wsum evs <= wsum (s_events s) + 4 * (e - q).
Proof.
  intros Hw Hsp Hqe Hso Hz Hl Hg Hbr He. unfold place_attrs. destruct a as [|x a0].
  - destruct ty as [p|].
    + destruct He as (A & a & ph & kx & sx & Z & b & ky & sy & Ev & -> & H1 & H2 & H3 & H4 & H5 & H6 & H7 & H8 & H9 & H10).
      rewrite Ev in *. rewrite usub_yes by (rewrite app_length; cbn; lia). cbn [bind].
      replace (A ++ IE IPlaceholder (Sp ph ph) :: IE kx sx :: Z ++ [IE ky sy]) with ((A ++ IE IPlaceholder (Sp ph ph) :: IE kx sx :: Z) ++ IE ky sy :: [])
        by (rewrite <- app_assoc; reflexivity).
      rewrite set_end_mid by (rewrite app_length; cbn; lia). cbn [bind].
      exists ((A ++ IE IPlaceholder (Sp ph ph) :: IE kx sx :: Z) ++ [IE ky (Sp (ss sy) e)]), []. rewrite Hsp. cbn [se].
      split; [unfold s_set_attrs, s_set_events; cbn; rewrite app_nil_r; reflexivity|]. rewrite app_nil_r.
      assert (Hsy : span_ok src (Sp (ss sy) e)) by (apply (span_join src (ss sy) q e); [rewrite <- H9, span_eta; auto|auto]).
      split; [|split].
      * rewrite <- app_assoc. cbn [app]. eapply zip_app; [exact H1|]. apply (bal_app _ _ _ _ [_] ph); [apply bal_ph; cbn; auto|].
        destruct H10 as [(-> & -> & _)|(c & -> & -> & Hc & Ht & Ho & Hcl & Hia & Hns)].
        -- apply (bal_app _ _ _ _ [_] (se sx)); [apply bal_str; auto|]. eapply bal_app; [exact H6|]. apply bal_str; auto; lia.
        -- assert (Hen : iends src (s_cow s) c [] (vopen c (slice src sx) ++ itexts src Z) (Sp (ss sy) e)) by (apply iends_set with q; auto; [rewrite <- H9, span_eta; exact Hcl|rewrite <- H9; apply H8]). destruct Ht as [Ht|Ht].
           ++ eapply bal_cont; eauto; lia.
           ++ eapply (bal_tcont src _ _ ph [] c sx Z b (Sp (ss sy) e) e []); eauto; lia.
      * apply lastok_snoc. cbn. intros ->. left. destruct H8 as (H8 & _). lia.
      * rewrite !wsum_app. cbn [wsum]. assert (iwt (IE ky (Sp (ss sy) e)) <= iwt (IE ky sy) + (e - q)); [|lia].
        destruct H8 as (H8 & _). unfold iwt. cbn. destruct ky; cbn; try lia; unfold sp_len; cbn; lia.
    + exists (s_events s), []. split; [destruct s; unfold s_set_attrs, s_set_events; cbn; rewrite app_nil_r; reflexivity|].
      rewrite app_nil_r. split; [eapply zip_weaken; eauto; lia|]. split; [auto|lia].
  - set (a := x :: a0) in *. assert (Hidx : aval src (s_attrs s ++ [a]) (length (s_attrs s)) (Sp q e) a).
    { split; [|split; [discriminate|auto]]. rewrite nth_error_app2, Nat.sub_diag by auto. reflexivity. }
    destruct ty as [p|].
    + destruct He as (A & ap & ph & kx & sx & Z & b & ky & sy & Ev & -> & H1 & H2 & H3 & H4 & H5 & H6 & H7 & H8 & H9 & H10).
      change (s_events (s_set_attrs s (s_attrs s ++ [a]))) with (s_events s).
      change (s_span (s_set_attrs s (s_attrs s ++ [a]))) with (s_span s).
      rewrite Ev in *. rewrite Hsp. rewrite set_mid by auto. cbn [bind].
      rewrite usub_yes by (rewrite app_length; cbn; lia). cbn [bind].
      match goal with |- context [A ++ ?u :: IE kx sx :: Z ++ [IE ky sy]] => set (U := u) end.
      replace (A ++ U :: IE kx sx :: Z ++ [IE ky sy]) with ((A ++ [U]) ++ IE kx sx :: Z ++ [IE ky sy]) by (rewrite <- app_assoc; reflexivity).
      rewrite get_mid by (rewrite app_length; cbn; lia). cbn [bind ik isp].
      assert (Hsy : span_ok src (Sp (ss sy) e)) by (apply (span_join src (ss sy) q e); [rewrite <- H9, span_eta; auto|auto]).
      assert (Hy : ss sy <= se sy) by apply H8. assert (Hx : ss sx <= se sx) by apply H5.
      apply (zip_mono_a _ _ _ [a]) in H1.
      apply (bal_mono_a _ _ _ [a]) in H6.
      assert (Hsl : slice src (Sp (ss sy) e) = slice src sy ++ slice src (Sp q e)) by (apply slice_join; auto; lia).
      destruct H10 as [(-> & -> & (ot & Hot) & Hne)|(c & -> & -> & Hc & Ht & Hop & Hcl & Hia & Hns)].
      * rewrite span_ok_ssub by auto. cbn [bind]. destruct (bytes_eqb (slice src sx) (B "![")) eqn:Eb.
        -- apply bytes_eqb_eq in Eb.
           assert (Hlen : se sx - ss sx = 2) by (rewrite <- (span_ok_len src sx) by auto; rewrite Eb; reflexivity).
           assert (Hex : nth_error src (ss sx) = Some "!"%char).
           { rewrite <- (Nat.add_0_r (ss sx)), <- (slice_nth src sx 0) by lia. rewrite Eb. reflexivity. }
           assert (Hbd : boundary src (S (ss sx)) = true) by (eapply wfb_after; eauto).
           destruct (span_sub src (ss sx) (se sx) (S (ss sx))) as [S1 S2]; [rewrite span_eta; auto|lia|auto|].
           replace ((A ++ [U]) ++ IE IStr sx :: Z ++ [IE IStr sy]) with (A ++ (U :: IE IStr sx :: Z ++ [IE IStr sy])) by (rewrite <- app_assoc; reflexivity).
           rewrite insert_mid by auto. cbn [bind].
           set (V := IE IStr (Sp (ss sx) (ss sx + 1))).
           replace (A ++ V :: U :: IE IStr sx :: Z ++ [IE IStr sy]) with ((A ++ [V; U]) ++ IE IStr sx :: Z ++ [IE IStr sy]) by (rewrite <- app_assoc; reflexivity).
           rewrite set_mid by (rewrite app_length; cbn; lia). cbn [bind].
           rewrite set_kind_mid by (rewrite app_length; cbn; lia). cbn [bind].
           match goal with |- context [(A ++ [V; U]) ++ ?k :: Z ++ [IE IStr sy]] => set (K := k) end.
           replace ((A ++ [V; U]) ++ K :: Z ++ [IE IStr sy]) with ((A ++ V :: U :: K :: Z) ++ IE IStr sy :: []) by (rewrite <- !app_assoc; reflexivity).
           rewrite set_kind_mid. 2: { repeat (rewrite ?app_length; cbn [length]). lia. } cbn [bind].
           rewrite set_end_mid. 2: { repeat (rewrite ?app_length; cbn [length]). lia. } cbn [bind].
           eexists _, [a]. split; [unfold s_set_attrs, s_set_events; cbn [s_in s_openers s_events s_verb s_attr s_cow s_attrs]; reflexivity|]. cbn [s_openers s_cow].
           split; [|split].
           ++ rewrite <- app_assoc. eapply zip_app; [exact H1|]. cbn [app].
              apply (bal_app _ _ _ _ [_] (S (ss sx))); [apply bal_str; cbn; rewrite ?Nat.add_1_r; auto; lia|].
              unfold U, K; rewrite ?Nat.add_1_r; cbn [se]. eapply (bal_acont src _ _ _ _ _ _ CSpan (Sp (S (ss sx)) (se sx))); eauto; cbn; auto; try lia.
              ** assert (Ho : slice src (Sp (S (ss sx)) (se sx)) = B "[") by (rewrite <- (Nat.add_1_r (ss sx)), <- skipn_slice by lia; rewrite span_eta, Eb; reflexivity).
                 right. left. exact Ho.
              ** apply iends_set with q; auto; [|rewrite <- H9; apply H8]. rewrite <- H9, span_eta, Hne. split; [cbn; auto|exact I].
           ++ apply lastok_snoc. discriminate.
           ++ rewrite !wsum_app. cbn [wsum iwt]. rewrite !wsum_app. cbn [wsum]. unfold U, V, K, iwt. cbn. unfold sp_len. cbn. lia.
        -- cbn [bind]. rewrite set_kind_mid by (rewrite app_length; cbn; lia). cbn [bind].
           set (K := IE (IEnter CSpan) sx).
           replace ((A ++ [U]) ++ K :: Z ++ [IE IStr sy]) with ((A ++ U :: K :: Z) ++ IE IStr sy :: []) by (rewrite <- !app_assoc; reflexivity).
           rewrite set_kind_mid. 2: { repeat (rewrite ?app_length; cbn [length]). lia. } cbn [bind].
           rewrite set_end_mid. 2: { repeat (rewrite ?app_length; cbn [length]). lia. } cbn [bind].
           eexists _, [a]. split; [unfold s_set_attrs, s_set_events; cbn [s_in s_openers s_events s_verb s_attr s_cow s_attrs]; reflexivity|]. cbn [s_openers s_cow].
           split; [|split].
           ++ rewrite <- app_assoc. eapply zip_app; [exact H1|]. cbn [app].
              unfold U, K; cbn [se]. eapply (bal_acont src _ _ _ _ _ _ CSpan sx); eauto; cbn; auto; try lia.
              ** right. destruct ot; cbn in Hot; [|exact Hot]. rewrite Hot in Eb. discriminate Eb.
              ** apply iends_set with q; auto; [|rewrite <- H9; apply H8]. rewrite <- H9, span_eta, Hne. split; [cbn; auto|exact I].
           ++ apply lastok_snoc. discriminate.
           ++ rewrite !wsum_app. cbn [wsum iwt]. rewrite !wsum_app. cbn [wsum]. unfold U, K, iwt. cbn. unfold sp_len. cbn. lia.
      * cbn [bind].
        replace ((A ++ [U]) ++ IE (IEnter c) sx :: Z ++ [IE (IExit c) sy]) with ((A ++ U :: IE (IEnter c) sx :: Z) ++ IE (IExit c) sy :: []) by (rewrite <- !app_assoc; reflexivity).
        rewrite set_end_mid. 2: { repeat (rewrite ?app_length; cbn [length]). lia. } cbn [bind].
        eexists _, [a]. split; [unfold s_set_attrs, s_set_events; cbn [s_in s_openers s_events s_verb s_attr s_cow s_attrs]; reflexivity|]. cbn [s_openers s_cow].
        split; [|split].
        -- rewrite <- app_assoc. eapply zip_app; [exact H1|]. cbn [app]. unfold U. destruct Ht as [Ht|Ht].
           ++ eapply bal_acont; eauto; cbn [ss se]; auto; try lia; [].
              apply iends_set with q; auto; [rewrite <- H9, span_eta; exact Hcl|rewrite <- H9; apply H8].
           ++ eapply (bal_tcont src _ _ ap a c sx Z b (Sp (ss sy) e) e [_] Ht); eauto; cbn [ss se]; auto; try lia; [right; do 2 eexists; split; [reflexivity|]; auto|].
              apply iends_set with q; auto; [rewrite <- H9, span_eta; exact Hcl|rewrite <- H9; apply H8].
        -- apply lastok_snoc. discriminate.
        -- rewrite !wsum_app. cbn [wsum iwt]. rewrite !wsum_app. cbn [wsum]. unfold U, iwt. cbn. lia.
    + exists (s_events s ++ [IE (IAttributes false (length (s_attrs s))) (Sp q e); IE IEmpty (Sp q e)]), [a].
      split.
      * unfold push, push_sp. change (s_span (s_set_attrs s (s_attrs s ++ [a]))) with (s_span s).
        change (s_span (s_set_events ?x ?y)) with (s_span s). rewrite Hsp. unfold s_set_events, s_set_attrs. cbn [s_in s_openers s_events s_verb s_attr s_cow s_attrs].
        rewrite <- app_assoc. reflexivity.
      * split; [|split].
        -- apply (zip_mono_a _ _ _ [a]) in Hz. eapply zip_app; [exact Hz|]. apply bal_word; cbn; auto. exists a. exact Hidx.
        -- match goal with |- lastok src (s_events s ++ [?u; ?v]) => change (s_events s ++ [u; v]) with (s_events s ++ u :: [] ++ [v]) end.
           apply lastok_cons2. discriminate.
        -- rewrite wsum_app. cbn. lia.
Qed.
