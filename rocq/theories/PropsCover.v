(** * PropsCover: no text is lost (C42); no attribute set is dropped (C35) *)
From Verif Require Import Base Lex Attr Block Inline Doc Lib SpecAttr SpecBlock SpecDoc SpecSrc SpecMark SpecCover PAttr PSafe PBlock2 PDoc2 PDoc4 PDoc5 PDoc6 PropsDoc PropsSrc PropsMark PCov10.
Local Open Scope nat_scope.

(** ** C42 *)
(** Every position of the source is in the range of an event, or holds something that is passed over. *)
Theorem C42_covered : forall src evs i, utf8 src -> parse_spans src = Ok evs -> i < length src -> covered evs i \/ passed src i.
Proof. intros src evs i Hu E Hi. apply doc_cov; auto. apply utf8_wfb. exact Hu. Qed.

(** In particular letters, digits, bytes of non-ASCII characters and most punctuation are never lost, except by the
    defect named in [in_unclosed_row]. *)
Definition text_char (c : ascii) : bool :=
  negb (is_ws c || beq c ">" || beq c "#" || beq c "^" || beq c "|" || beq c "-" || beq c ":" || beq c "{" || beq c "}").
Lemma sep_cells_chars als t : sep_cells als t -> Forall (fun c => text_char c = false) t.
Proof.
  assert (Hws : forall u, forallb is_ws u = true -> Forall (fun c => text_char c = false) u).
  { intros u H. rewrite forallb_forall in H. apply Forall_forall. intros c Hc. unfold text_char. rewrite (H c Hc). reflexivity. }
  induction 1 as [|a m u v als t (n & ->) Hu Hv Hs IH]; [constructor|]. repeat (apply Forall_app; split); auto.
  - destruct a; repeat constructor.
  - apply Forall_forall. intros c Hc. apply repeat_spec in Hc. subst c. reflexivity.
  - destruct a; repeat constructor.
  - repeat constructor.
Qed.
Lemma sep_row_chars als t : sep_row als t -> Forall (fun c => text_char c = false) t.
Proof. intros (r & -> & H). apply Forall_app. split; [repeat constructor|eapply sep_cells_chars; eauto]. Qed.
Theorem C42_text : forall src evs i c, utf8 src -> parse_spans src = Ok evs -> nth_error src i = Some c -> text_char c = true ->
  covered evs i \/ in_unclosed_row src i.
Proof.
  intros src evs i c Hu E Hn Hc. destruct (C42_covered src evs i Hu E) as [H|[[H|[H|[H|H]]]|H]]; auto; [apply nth_error_Some; congruence|exfalso..].
  - destruct H as (c' & H1 & H2). rewrite Hn in H1. injection H1 as <-. unfold text_char in Hc. rewrite H2 in Hc. discriminate.
  - destruct H as (k & Hk & _ & H). destruct (H i Hk (le_n _)) as (c' & H1 & H2). rewrite Hn in H1. injection H1 as <-. revert Hc H2. unfold text_char, margin_char.
    destruct (is_ws c), (beq c ">"), (beq c "#"), (beq c "^"); cbn; intros; discriminate.
  - destruct H as (s & als & H1 & H2 & H3 & H4). apply sep_row_chars in H4. rewrite Forall_forall in H4. rewrite (H4 c) in Hc; [discriminate|].
    apply (nth_error_In _ (i - ss s)). rewrite slice_nth by lia. replace (ss s + (i - ss s)) with i by lia. exact Hn.
  - destruct H as ([H|H] & _); rewrite Hn in H; injection H as ->; discriminate Hc.
Qed.

(** ** C35: what becomes of a brace *)
Section Q.
Variables (src : bytes) (pp : prepass).
Inductive txs : list container -> list (event * span) -> list container -> Prop :=
| tx_nil st : txs st [] st
| tx_attr st a sp r st' : (forall c s, st = c :: s -> holds_text c = true -> set_on src sp a /\ braced (slice src sp)) -> txs st r st' -> txs st ((Attributes a, sp) :: r) st'
| tx_other st e sp r st' : edge e = false -> (forall a, e <> Attributes a) -> txs st r st' -> txs st ((e, sp) :: r) st'
| tx_start st c a sp r st' : txs (c :: st) r st' -> txs st ((Start c a, sp) :: r) st'
| tx_end st c sp r st' : txs st r st' -> txs (c :: st) ((End_ c, sp) :: r) st'.
Lemma txs_app s a s' b s'' : txs s a s' -> txs s' b s'' -> txs s (a ++ b) s''.
Proof. induction 1; intros; cbn [app]; auto; [apply tx_attr|apply tx_other|apply tx_start|apply tx_end]; auto. Qed.
Lemma psteps_txs s O s' : psteps src s O s' -> forall st, txs (snd s ++ st) O (snd s' ++ st).
Proof.
  induction 1 as [|s e s1 E s2 H1 H2 IH]; intros st; [constructor|]. specialize (IH st). inversion H1; subst; cbn [snd] in *.
  - apply tx_other; auto. discriminate.
  - apply tx_other; auto; destruct e0; try discriminate; auto.
  - apply tx_attr; auto.
  - apply tx_start; auto.
  - apply tx_end; auto.
Qed.
Lemma body_txs c lo O hi st : body src pp c lo O hi -> txs st O st.
Proof. intros [(m & _ & H) _]. apply qsteps_psteps in H. exact (psteps_txs _ _ _ H st). Qed.
Lemma gq_txs g lo O y hi : gq src pp g lo O y hi -> forall st, match st with c :: _ => holds_text c = false | [] => True end -> txs st O st.
Proof.
  assert (Hb : forall l st, txs st (blanks l) st) by (induction l; intros; cbn; [constructor|apply tx_other; auto; discriminate]).
  induction 1; intros st Hst; auto.
  - constructor.
  - apply tx_other; auto; discriminate.
  - apply tx_other; auto; discriminate.
  - apply tx_attr; auto. intros c s -> Hc. congruence.
  - apply tx_start. eapply txs_app; [eapply body_txs; eauto|]. apply tx_end; auto.
  - apply tx_start. eapply txs_app; [eapply body_txs; eauto|]. apply tx_end; auto.
  - apply tx_start. eapply txs_app; [apply IHgq1; destruct H; reflexivity|]. apply tx_end; auto.
  - apply tx_start. eapply txs_app; [eapply body_txs; eauto|]. apply tx_end. eapply txs_app; [apply Hb|]. apply tx_start.
    eapply txs_app; [apply IHgq1; reflexivity|]. apply tx_end; auto.
Qed.
Lemma txs_split A : forall s b s'', txs s (A ++ b) s'' -> exists s', txs s A s' /\ txs s' b s'' /\ nest s (map fst A) = Some s'.
Proof.
  induction A as [|[e sp] A IH]; intros s b s'' H; cbn [app] in H; [exists s; repeat split; [constructor|auto]|].
  inversion H as [|st a sp' r st' Ha H1|st e' sp' r st' He Ha H1|st c a sp' r st' H1|st c sp' r st' H1]; subst; destruct (IH _ _ _ H1) as (s' & X1 & X2 & X3); exists s'; (split; [|split; [exact X2|]]).
  - apply tx_attr; auto.
  - exact X3.
  - apply tx_other; auto.
  - destruct e; try discriminate He; exact X3.
  - apply tx_start; auto.
  - exact X3.
  - apply tx_end; auto.
  - cbn [map fst]. rewrite nest_end. exact X3.
Qed.
End Q.
(** The container that is open was started. *)
Lemma add_cons {A} t (x : A) (v : bytes) st s1 : (x, v) :: st = PInl2.add t s1 -> exists u s2, s1 = (x, u) :: s2 /\ st = PInl2.add t s2.
Proof. destruct s1 as [|[y u] s2]; [discriminate|]. cbn. intros H. injection H as <- _ ->. eauto. Qed.
Lemma opened src pp c a x st : forall n A, length A <= n -> atts src pp [] A ((c, a, x) :: st) ->
  exists A1 sp M st1 t, A = A1 ++ (Start c a, sp) :: M /\ nest [] (map fst M) = Some [] /\ atts src pp [] A1 st1 /\ st = PInl2.add t st1.
Proof.
  intros n. revert c a x st. induction n as [|n IH]; intros c a x st A Hl H; destruct (rev_case A) as [->|(A' & [e sp] & ->)]; [inversion H| |inversion H|].
  { rewrite app_length in Hl. cbn in Hl. lia. }
  rewrite app_length in Hl. cbn in Hl. apply atts_split in H. destruct H as (s1 & H1 & H2).
  inversion H2 as [|st0 e0 sp0 r0 st1 He H3|st0 c0 a0 sp0 r0 st1 H3|st0 c0 a0 x0 sp0 r0 st1 He H3]; subst.
  - assert (Es : (c, a, x) :: st = PInl2.add (text_of src e sp) s1) by (inversion H3; auto). apply add_cons in Es. destruct Es as (u & s2 & -> & ->).
    destruct (IH c a u s2 A' ltac:(lia) H1) as (A1 & sp1 & M & st1 & t & -> & Hn & Ha & ->). exists A1, sp1, (M ++ [(e, sp)]), st1, (t ++ text_of src e sp). split; [rewrite <- app_assoc; reflexivity|]. split; [|split; [exact Ha|apply PInl2.add_add]].
    rewrite map_app, nest_app, Hn. destruct e; try discriminate He; reflexivity.
  - inversion H3; subst. exists A', sp, [], st, []. rewrite PInl2.add_nil. auto.
  - inversion H3; subst. destruct (IH c0 a0 _ _ A' ltac:(lia) H1) as (A1 & sp1 & M1 & st1 & t & -> & Hn1 & Ha1 & Es).
    apply add_cons in Es. destruct Es as (u & s2 & -> & ->).
    rewrite app_length in Hl. cbn [length] in Hl. destruct (IH c a u s2 A1 ltac:(lia) Ha1) as (A2 & sp2 & M2 & st2 & t2 & -> & Hn2 & Ha2 & ->).
    exists A2, sp2, (M2 ++ (Start c0 a0, sp1) :: M1 ++ [(End_ c0, sp)]), st2, (t2 ++ t). split; [repeat (rewrite <- app_assoc; cbn [app]); reflexivity|]. split; [|split; [exact Ha2|apply PInl2.add_add]].
    rewrite map_app, nest_app, Hn2. cbn [map fst nest]. rewrite map_app, nest_app.
    assert (Hk : forall l s s', nest s l = Some s' -> forall t, nest (s ++ t) l = Some (s' ++ t)).
    { induction l as [|y l IHl]; intros s s' Hs t0; cbn [nest] in *; [injection Hs as ->; auto|]. destruct y; try (apply IHl; exact Hs).
      - apply (IHl (c1 :: s)). exact Hs.
      - destruct s as [|c' s]; [discriminate|]. cbn [app]. destruct (container_eq_dec c1 c'); [|discriminate]. apply IHl. exact Hs. }
    pose proof (Hk _ _ _ Hn1 [c0]) as Hk1. cbn [app] in Hk1. rewrite Hk1. cbn [map fst]. rewrite nest_end. reflexivity.
Qed.

(** What an event whose range contains an opening brace says of it ([A]: the events before it):
    - an end event of an inline container has the sets in its range on the start event of the container;
    - an [Attributes] event in inline content has exactly the sets in its range;
    - in the range of the start event of an inline container it is part of a delimiter (braced delimiters);
    - in the range of the start event of a block there are the attributes written there (C35_block);
    - text is reported literally, and quote marks are braced. *)
Definition accounted (src : bytes) (A : list (event * span)) (e : event) (sp : span) : Prop :=
  match e with
  | Attributes a => (forall c st, nest [] (map fst A) = Some (c :: st) -> holds_text c = true -> set_on src sp a /\ braced (slice src sp)) /\ sets_text (slice src sp) /\ written src a
  | End_ c => inline_box c = true -> exists A1 a sp0 M, A = A1 ++ (Start c a, sp0) :: M /\ nest [] (map fst M) = Some [] /\
      exists l da wa, a = da ++ wa /\ ends src c l (slice src sp0) (plain_text src M) wa sp /\ (resolved c = false -> da = [])
  | Start c a => if inline_box c then opens_with c (slice src sp) else within src (ss sp) (se sp) a
  | _ => spelled src e (slice src sp)
  end.
Theorem C35_none_dropped : forall src evs i, utf8 src -> parse_spans src = Ok evs -> nth_error src i = Some "{"%char ->
  in_unclosed_row src i \/ in_braces src i \/
  exists A e sp Z, evs = A ++ (e, sp) :: Z /\ ss sp <= i /\ i < se sp /\ accounted src A e sp.
Proof.
  intros src evs i Hu E Hn. destruct (C42_covered src evs i Hu E) as [H|[[H|[H|[H|H]]]|H]]; auto; [apply nth_error_Some; congruence| |exfalso..].
  - right. right. destruct H as (e & sp & Hin & H1 & H2). pose proof (ev_src _ _ _ _ Hu E Hin) as (S1 & S2 & _). cbn [fst snd] in S1, S2. pose proof Hin as Hin0.
    apply in_split in Hin. destruct Hin as (A & Z & ->). exists A, e, sp, Z. split; [reflexivity|]. split; [exact H1|]. split; [exact H2|].
    destruct e; try exact S1; cbn [accounted].
    + destruct (inline_box c) eqn:Ec; [exact S1|]. eapply C35_block; eauto.
    + intros Hc. pose proof (gq_atts _ _ _ _ _ _ _ (spans_ok _ _ Hu E) []) as H. apply atts_split in H. destruct H as (s1 & Ha & H).
      inversion H as [|? ? ? ? ? Hed|?|? ? a ? ? ? st' Hok]; subst; [discriminate Hed|].
      destruct (opened _ _ _ _ _ _ _ A (le_n _) Ha) as (A1 & sp0 & M & ? & ? & -> & Hm & _). exists A1, a, sp0, M. split; [reflexivity|]. split; [exact Hm|].
      destruct (C35_attached src _ A1 c a sp0 M sp Z Hu E) as (l & da & wa & X1 & X2 & X3 & X4); auto.
      { rewrite <- app_assoc. reflexivity. }
      exists l, da, wa. auto.
    + split; [|split; [exact S1|exact S2]]. intros c st Hst Hc. pose proof (gq_txs _ _ _ _ _ _ _ (spans_ok _ _ Hu E) [] I) as H. apply txs_split in H. destruct H as (s1 & _ & H & Hs).
      rewrite Hst in Hs. injection Hs as <-. inversion H as [|st0 a0 sp0 r st1 Ha _|? ? ? ? ? ? Ha| |]; subst; [eapply Ha; eauto|exfalso; eapply Ha; reflexivity].
  - destruct H as (c' & X1 & X2). rewrite Hn in X1. injection X1 as <-. discriminate.
  - destruct H as (k & Hk & _ & H). destruct (H i Hk (le_n _)) as (c' & X1 & X2). rewrite Hn in X1. injection X1 as <-. discriminate X2.
  - destruct H as (s & als & H1 & H2 & H3 & H4).
    assert (Hno : forall als t, sep_cells als t -> ~ List.In "{"%char t).
    { clear. assert (Hws : forall u, forallb is_ws u = true -> ~ List.In "{"%char u) by (intros u H X; rewrite forallb_forall in H; specialize (H _ X); discriminate).
      induction 1 as [|a m u v als t (n & ->) Hu Hv Hs IH]; [intros []|]. rewrite !in_app_iff. intros [X|[[X|[X|X]]|[X|[X|X]]]]; [exact (Hws _ Hu X)| | | |exact (Hws _ Hv X)|cbn in X; destruct X as [X|[]]; discriminate|exact (IH X)].
      - destruct a; cbn in X; try destruct X as [X|[]]; try discriminate; exact X.
      - apply repeat_spec in X. discriminate.
      - destruct a; cbn in X; try destruct X as [X|[]]; try discriminate; exact X. }
    destruct H4 as (r & Er & H4). apply Hno in H4. assert (Hin : List.In "{"%char (slice src s)).
    { apply (nth_error_In _ (i - ss s)). rewrite slice_nth by lia. replace (ss s + (i - ss s)) with i by lia. exact Hn. }
    rewrite Er in Hin. apply in_app_iff in Hin. destruct Hin as [[X|[]]|Hin]; [discriminate|contradiction].
Qed.

(** *** The hypotheses are met *)
(** A document with something of every kind that is passed over. *)
Definition cov_doc : bytes := nls [B "> # h"; B "> # i"; []; B "|a|`b|"; B "|-|"; B "^ k"; []; B "c {} d{.e}"].
Definition cov_evs : list (event * span) := Eval vm_compute in match parse_spans cov_doc with Ok l => l | _ => [] end.
Lemma cov_utf8 : utf8 cov_doc.
Proof. unfold cov_doc, nls. cbn. repeat first [apply u_nil | apply u_1; [vm_compute; split; discriminate|] ]. Qed.
Definition coverb (evs : list (event * span)) (i : nat) : bool := existsb (fun x => Nat.leb (ss (snd x)) i && Nat.ltb i (se (snd x)))%bool evs.
Lemma coverb_ok evs i : coverb evs i = true <-> covered evs i.
Proof.
  unfold coverb. rewrite existsb_exists. split.
  - intros ([e sp] & H1 & H2). apply andb_prop in H2. destruct H2 as [H2 H3]. apply Nat.leb_le in H2. apply Nat.ltb_lt in H3. exists e, sp. auto.
  - intros (e & sp & H1 & H2 & H3). exists (e, sp). split; [auto|]. cbn [snd]. apply andb_true_intro. split; [apply Nat.leb_le|apply Nat.ltb_lt]; auto.
Qed.
(** Its positions that are not covered, with what is there: the margin of the second line, spaces, the last cell of a
    row with an open backtick, a separator row, the marker of the caption, an empty set. *)
Example C42_ex : utf8 cov_doc /\ parse_spans cov_doc = Ok cov_evs /\ length cov_doc = 40 /\
  map (fun i => (i, nth i cov_doc NL)) (filter (fun i => negb (coverb cov_evs i)) (List.seq 0 40)) =
    [(1, " "); (3, " "); (6, ">"); (7, " "); (8, "#"); (9, " "); (11, NL); (16, "`"); (17, "b"); (18, "|"); (19, NL); (20, "|"); (21, "-"); (22, "|"); (23, NL);
     (24, "^"); (25, " "); (27, NL); (31, "{"); (32, "}"); (39, NL)]%char.
Proof. split; [apply cov_utf8|]. split; [vm_compute; reflexivity|]. split; [vm_compute; reflexivity|]. vm_compute; reflexivity. Qed.
(** The brace at 35 is in the range of the end event of a span with a class. *)
Example C35_none_dropped_ex : nth_error cov_doc 35 = Some "{"%char /\
  exists A Z sp sp', cov_evs = A ++ (Start Span_ [(KClass, B "e")], sp) :: (Str (B "d"), Sp 34 35) :: (End_ Span_, sp') :: Z /\ ss sp' <= 35 /\ 35 < se sp'.
Proof. split; [reflexivity|]. exists (firstn 23 cov_evs), (skipn 26 cov_evs), (Sp 34 34), (Sp 35 39). split; [vm_compute; reflexivity|]. cbn [ss se]. lia. Qed.

(** *** What one would expect, and does not hold *)
(** A letter can be lost: in the last cell of a row with a backtick that is not closed. *)
Theorem C42_backtick_refuted : ~ (forall src evs i c, utf8 src -> parse_spans src = Ok evs -> nth_error src i = Some c -> text_char c = true -> covered evs i).
Proof.
  intros H. specialize (H cov_doc cov_evs 17 "b"%char cov_utf8 ltac:(vm_compute; reflexivity) eq_refl eq_refl). apply coverb_ok in H. vm_compute in H. discriminate.
Qed.

Definition PropsCover_all := (@C42_covered, @C42_text, @C42_ex, @C42_backtick_refuted, @C35_none_dropped, @C35_none_dropped_ex).
Print Assumptions PropsCover_all.
