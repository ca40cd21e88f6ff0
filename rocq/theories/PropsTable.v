(** * PropsTable: head rows and alignments of tables (C33) *)
From Verif Require Import Base Lex Attr Block Inline Doc SpecDoc SpecLex SpecBlock SpecAttr SpecTable Lib PSafe PBlock2 PBlock3 PGram PDoc1 PDoc2 PDoc3 PDoc4 PDoc5 PDoc6 PropsDoc.
Local Open Scope nat_scope.

Section Q.
Variable src : bytes.
Variable pp : prepass.
Definition quiet (x : event * span) : Prop := is_table_event (fst x) = false.
Lemma cq O st R : Forall quiet O -> columns src st R -> columns src st (O ++ R).
Proof. induction 1 as [|[e sp] O H _ IH]; intros HR; cbn [app]; [auto|]. apply c_other; auto. Qed.
Lemma psteps_quiet s O s' : psteps src s O s' -> Forall quiet O.
Proof.
  induction 1 as [s|s e s1 E s2 H1 H2 IH]; constructor; auto. inversion H1; subst; unfold quiet; cbn [fst]; try reflexivity.
  - destruct e0; try reflexivity; discriminate.
  - destruct c; try reflexivity; discriminate.
  - destruct c; try reflexivity; discriminate.
Qed.
Lemma body_quiet c lo O hi : body src pp c lo O hi -> Forall quiet O.
Proof. intros [(m & _ & H) _]. apply qsteps_psteps in H. eapply psteps_quiet; eauto. Qed.
Lemma blanks_quiet l : Forall quiet (blanks l).
Proof. induction l; constructor; cbn; auto. reflexivity. Qed.

Definition upto (st st' : state) : Prop :=
  match st, st' with
  | Opened lo, Opened lo' => lo' <= lo
  | Between als lo, Between als' lo' => als = als' /\ lo' <= lo
  | _, _ => st = st'
  end.
Lemma columns_lo st R : columns src st R -> forall st', upto st st' -> columns src st' R.
Proof.
  induction 1; intros st' Hu; destruct st'; cbn in Hu; try discriminate Hu; try (destruct Hu as [<- Hu]); try (injection Hu as <- <-);
    try (econstructor; eauto; fail); try (econstructor; eauto; lia).
  - apply c_plain. apply IHcolumns. split; auto.
  - destruct H as (? & ?). eapply c_first; [split; [|eassumption]; lia|auto].
Qed.
(** The state of the specification at a place of the grammar; [A] are the alignments of the row one is
    in; after a head row its separator row is still to be read. *)
Definition cols (A : list align) (g : gctx) (lo : nat) (R : list (event * span)) : Prop :=
  match g with
  | GTable _ als T0 => als = [] -> columns src (Opened lo) R
  | GTable _ als TDue => exists s, separator src lo s als /\ columns src (Between als (se s)) R
  | GTable _ als TNone => columns src (Between als lo) R
  | GRow h rest => columns src (InRow A rest) R
  | _ => columns src Outside R
  end.
Lemma cols_other A g lo e sp R lo' : is_table_event e = false -> cols A g lo' R -> (forall c als d, g <> GTable c als d) -> cols A g lo ((e, sp) :: R).
Proof. intros H1 H2 H3. destruct g; cbn in *; try (apply c_other; auto; fail). destruct (H3 cap als due eq_refl). Qed.
Lemma flow_nt g : gflow g -> forall c als d, g <> GTable c als d.
Proof. intros [-> |[l ->]]; discriminate. Qed.
Lemma gq_cols g lo O y hi : gq src pp g lo O y hi -> forall A R, cols A y hi R -> cols A g lo (O ++ R).
Proof.
  induction 1; intros A R HR; cbn [app].
  - destruct g; cbn in *; auto. destruct due; cbn in *.
    + intros E. eapply columns_lo; [apply HR; auto|]. exact H.
    + destruct HR as (s & (? & ?) & HR). exists s. split; [split; [lia|auto]|auto].
    + eapply columns_lo; [apply HR; auto|]. split; auto.
  - eapply cols_other; [reflexivity|apply IHgq; exact HR|apply flow_nt; auto].
  - eapply cols_other; [reflexivity|apply IHgq; exact HR|apply flow_nt; auto].
  - eapply cols_other; [reflexivity|apply IHgq; exact HR|]. destruct H as [H|(l & m & ->)]; [apply flow_nt; auto|discriminate].
  - rewrite <- app_assoc. cbn [app]. specialize (IHgq A R HR). pose proof (body_quiet _ _ _ _ H2) as Hq.
    assert (Hs : forall st, columns src st (r ++ R) -> columns src st (O ++ (End_ c, sp') :: r ++ R)).
    { intros st Hc. apply cq; [auto|]. apply c_other; [destruct H; reflexivity|auto]. }
    destruct H; try (destruct H as [-> |[? ->]]); cbn [cols] in *; try (apply c_other; [reflexivity|]; apply Hs; exact IHgq).
    destruct als as [|al als]; cbn [hd tl] in *; [apply c_beyond|apply c_cell]; apply Hs; exact IHgq.
  - specialize (IHgq A R HR). destruct H0 as (? & ? & _). assert (Hsep : separator src lo sp als') by (repeat split; auto; lia).
    destruct due; cbn [cols] in *; [|exists sp; rewrite <- H2 by reflexivity; split; auto|congruence].
    intros _. eapply c_first; eauto.
  - rewrite <- app_assoc. cbn [app]. specialize (IHgq A R HR). cbn [cols] in *. intros E. apply c_other; [reflexivity|]. apply cq; [eapply body_quiet; eauto|]. apply c_other; [reflexivity|]. auto.
  - rewrite <- app_assoc. cbn [app]. specialize (IHgq2 A R HR).
    assert (Hf : fits m (c :: match c with Document => [] | _ => [Document] end)).
    { eapply gq_fits; [exact H2|]. destruct H; cbn; auto; try lia. }
    assert (Ho : is_table_event (End_ c) = false -> forall A0, columns src Outside (r ++ R) -> cols A0 m q ((End_ c, sp') :: r ++ R)).
    { intros He A0 Hc. destruct m; destruct c; cbn in Hf; try contradiction; try discriminate He; cbn [cols]; apply c_other; auto. }
    destruct H; try (destruct H as [-> |[? ->]]); cbn [cols] in *;
      try (apply c_other; [reflexivity|]; apply (IHgq1 A); apply Ho; [reflexivity|exact IHgq2]).
    1,2: (apply c_table; apply (IHgq1 A); [|reflexivity]; destruct m; cbn in Hf; try contradiction; destruct due; cbn [cols gokend] in *; try contradiction;
      [intros ->; apply c_plain|]; apply c_table_end; auto).
    assert (Hm : exists rest, m = GRow h rest) by (destruct m; cbn in Hf; try contradiction; subst; eauto). destruct Hm as [rest ->]. clear Hf Ho H3.
    assert (HI : forall lo0, lo0 <= ss sp -> columns src (Between als lo0) ((Start (TableRow h) [], sp) :: inner ++ (End_ (TableRow h), sp') :: r ++ R)).
    { intros lo0 Hlo. destruct h; cbn [cols] in *.
      - apply (c_head src als lo0 als'); [auto|]. apply (IHgq1 als'). cbn [cols]. destruct IHgq2 as (s & Hs & Hc). eapply c_head_end; eauto.
      - rewrite <- (H eq_refl) in *. apply c_body; [auto|]. apply (IHgq1 als'). cbn [cols]. apply c_body_end. exact IHgq2. }
    destruct d; [|congruence|apply HI; auto]. intros ->. apply c_plain. apply HI; auto.
  - cbn [cols] in *. repeat (rewrite <- app_assoc; cbn [app]). apply c_other; [reflexivity|]. apply cq; [eapply body_quiet; eauto|]. apply c_other; [reflexivity|].
    apply cq; [apply blanks_quiet|]. apply c_other; [reflexivity|]. apply (IHgq1 A).
    assert (Hf : fits m [DescriptionDetails]) by (eapply gq_fits; [exact H6|exact I]). destruct m; cbn in Hf; try contradiction. cbn [cols]. apply c_other; [reflexivity|]. apply (IHgq2 A). exact HR.
Qed.
End Q.

(** ** C33: columns *)
Theorem C33_alignment : forall src evs, utf8 src -> parse_spans src = Ok evs -> columns src Outside evs.
Proof.
  intros src evs Hu E. rewrite <- (app_nil_r evs). apply (gq_cols src (pre_of src) _ _ _ _ _ (spans_ok _ _ Hu E) []). apply c_done.
Qed.

(** A table with a head row, three columns of cells and two columns of alignments. *)
Definition ex_table : bytes := nls [B "|a|b|c|"; B "|:-|--:|"; B "|1|2|3|"].
Definition cells_of (evs : list (event * span)) : list (align * bool) :=
  flat_map (fun x => match fst x with Start (TableCell al h) _ => [(al, h)] | _ => [] end) evs.
Example C33_ex : utf8 ex_table /\ exists evs, parse_spans ex_table = Ok evs /\
  cells_of evs = [(AlLeft, true); (AlRight, true); (AlUnspecified, true); (AlLeft, false); (AlRight, false); (AlUnspecified, false)].
Proof.
  split; [unfold ex_table, nls; cbn; repeat first [apply u_nil | apply u_1; [vm_compute; split; discriminate|] ]|].
  destruct (parse_spans ex_table) as [evs| | ] eqn:E; [|exfalso; revert E; vm_compute; discriminate..]. exists evs. split; [reflexivity|].
  revert E. vm_compute. intros E. injection E as <-. reflexivity.
Qed.
Definition PropsTable_all := (@C33_alignment, @C33_ex).
Print Assumptions PropsTable_all.
