(** * PCan16: the lines of canonical blocks, and what blocks hand to their contents *)
From Verif Require Import Base Lex Attr Inline Block Doc Lib PSafe PIds SpecBlock PCan1 PCan2 PCan3 PCan12 PCan13 PCan14 PCan15.
From Verif Require Import SpecCanon.
Local Open Scope nat_scope.

(** ** Lines of blocks *)
Definition good (l : bytes) : Prop := forallb (fun c => negb (beq c NL)) l = true /\ (l = [] \/ existsb (fun c => negb (is_ws c)) l = true).

Fixpoint item_lines (m : marks) (i : N) (its : list (bool * list blk)) : list (list bytes) :=
  match its with
  | [] => []
  | (c, bs) :: its' => hang (mark_text m i c) (blks_lines bs) :: item_lines m (i + 1)%N its'
  end.
Definition lsep (loose : bool) : list bytes := if loose then [[]] else [].
Lemma list_lines m loose items : blk_lines (DList m loose items) = sep_with (lsep loose) (item_lines m 0 items).
Proof.
  cbn [blk_lines]. unfold lsep. f_equal. generalize 0%N. induction items as [|[c bs] items IH]; intros i; [reflexivity|]. cbn [item_lines]. rewrite <- IH. reflexivity.
Qed.
Lemma sep_cons {A} (s x : list A) y l : sep_with s (x :: y :: l) = x ++ s ++ sep_with s (y :: l).
Proof. reflexivity. Qed.
Lemma Forall_sep {A} (P : A -> Prop) s l : Forall P s -> Forall (Forall P) l -> Forall P (sep_with s l).
Proof.
  intros Hs H. induction H as [|x l H1 H2 IH]; [constructor|]. destruct l as [|y l]; [exact H1|]. rewrite sep_cons. apply Forall_app. split; [exact H1|]. apply Forall_app. split; assumption.
Qed.
Lemma good_nil : good [].
Proof. split; [reflexivity|left; reflexivity]. Qed.
Lemma good_cons c r : is_ws c = false -> forallb (fun c => negb (beq c NL)) r = true -> good (c :: r).
Proof. intros H1 H2. split; cbn; [rewrite (not_ws_nl c H1), H2; reflexivity|]. rewrite H1. auto. Qed.
Lemma good_quote l : good l -> good (quote_line l).
Proof. intros [H1 H2]. destruct l as [|c l]; [apply good_cons; reflexivity|]. apply (good_cons ">"%char (SP :: c :: l)); [reflexivity|exact H1]. Qed.
Lemma good_indent n l : good l -> good (indent_line n l).
Proof.
  intros [H1 H2]. destruct l as [|c l]; [apply good_nil|]. destruct H2 as [H2|H2]; [discriminate|]. cbn [indent_line]. split.
  - rewrite forallb_app, H1, andb_true_r. clear. induction n; auto.
  - right. rewrite existsb_app, H2. apply orb_true_r.
Qed.
Lemma mark_head m i ck : exists c r, mark_text m i ck = c :: r /\ is_ws c = false /\ beq c "[" = false /\ forallb (fun c => negb (beq c NL)) (c :: r) = true.
Proof.
  destruct m as [b|b|n st]; cbn [mark_text].
  - exists (bullet_char b), []. destruct b; repeat split; reflexivity.
  - eexists _, _. split; [reflexivity|]. destruct b, ck; repeat split; reflexivity.
  - rewrite number_text_eq. pose proof (dec_digits (n + i)) as Hd. pose proof (dec_nonempty (n + i)) as Hne.
    destruct (dec (n + i)) as [|d ds]; [congruence|].
    assert (Hn : forallb (fun c => negb (beq c NL)) (d :: ds) = true).
    { clear - Hd. rewrite forallb_forall in *. intros x Hx. specialize (Hd x Hx). revert Hd. clear. destruct x as [[][][][][][][][]]; intros H; try discriminate H; reflexivity. }
    cbn [forallb] in Hd, Hn. apply andb_prop in Hd as [Hd _]. apply andb_prop in Hn as [Hn1 Hn2].
    assert (is_ws d = false /\ beq d "[" = false) as [A1 A2] by (revert Hd; clear; destruct d as [[][][][][][][][]]; intros H; try discriminate H; split; reflexivity).
    destruct st; cbn [number_pre B list_ascii_of_string app]; eexists _, _; (split; [reflexivity|]); (split; [assumption || reflexivity|]); (split; [assumption || reflexivity|]);
      cbn [forallb]; rewrite ?Hn1, ?forallb_app, ?Hn2; reflexivity.
Qed.
Lemma good_hang m i ck ls : Forall good ls -> Forall good (hang (mark_text m i ck) ls).
Proof.
  intros H. destruct H as [|l ls H1 H2]; [constructor|]. cbn [hang]. constructor.
  - destruct (mark_head m i ck) as (c & r & -> & A & _ & C). cbn [app]. apply good_cons; [exact A|]. cbn in C. apply andb_prop in C as [_ C].
    rewrite forallb_app, C. cbn. apply H1.
  - apply Forall_map. eapply Forall_impl; [|exact H2]. intros a Ha. apply good_indent, Ha.
Qed.
Lemma no_nl_good l : line_ok l = true -> no_nl l -> good l.
Proof.
  intros H1 H2. destruct (line_ok_cons l H1) as (c & r & -> & Hc). apply good_cons; [exact Hc|].
  apply forallb_forall. intros x Hx. destruct (beq x NL) eqn:E; [|reflexivity]. apply beq_eq in E as ->. exfalso.
  revert H2. unfold no_nl. intros H2. first [exact (H2 (or_intror Hx)) | idtac].
  all: try (rewrite forallb_forall in H2; specialize (H2 NL (or_intror Hx)); discriminate H2).
  all: try (rewrite Forall_forall in H2; specialize (H2 NL (or_intror Hx)); congruence).
Qed.
Lemma blk_good b : blk_ok b = true -> Forall good (blk_lines b).
Proof.
  induction b as [l| |lang ls|bs H|m loose items H] using blk_ind'; intros Hok.
  - cbn [blk_ok blk_lines] in *. apply andb_prop in Hok as [_ Hok]. rewrite forallb_forall in Hok. pose proof (split_no_nl (inls_src l)) as Hn.
    rewrite Forall_forall in *. intros x Hx. apply no_nl_good; auto.
  - constructor; [|constructor]. apply (good_cons "*"%char (B "**")); reflexivity.
  - cbn [blk_ok blk_lines] in *. apply andb_prop in Hok as [Hl Hok]. apply andb_prop in Hok as [Hok _]. constructor; [|apply Forall_app; split].
    + change (B "```" ++ lang) with ("`"%char :: "`"%char :: "`"%char :: lang). apply good_cons; [reflexivity|]. cbn. unfold lang_ok in Hl.
      rewrite forallb_forall in *. intros x Hx. specialize (Hl x Hx). apply andb_prop in Hl as [Hl _]. apply negb_true_iff in Hl. rewrite (not_ws_nl x Hl). reflexivity.
    + apply Forall_forall. intros x Hx. rewrite forallb_forall in Hok. specialize (Hok x Hx). unfold code_line in Hok. apply andb_prop in Hok as [Hok _]. apply andb_prop in Hok as [A C].
      split; [exact A|]. destruct x; [left; reflexivity|right; exact C].
    + constructor; [|constructor]. apply (good_cons "`"%char (B "``")); reflexivity.
  - cbn [blk_ok blk_lines] in *. apply andb_prop in Hok as [_ Hok]. apply Forall_map. eapply Forall_impl; [intros a; apply good_quote|].
    apply Forall_sep; [constructor; [apply good_nil|constructor]|]. apply Forall_map. rewrite Forall_forall in *. rewrite forallb_forall in Hok. auto.
  - rewrite list_lines. cbn [blk_ok] in Hok. apply andb_prop in Hok as [Hok _]. apply andb_prop in Hok as [_ Hok].
    apply Forall_sep; [destruct loose; [constructor; [apply good_nil|constructor]|constructor]|].
    revert Hok H. generalize 0%N. induction items as [|[ck bs] items IH]; intros i Hok H; [constructor|]. cbn [item_lines forallb snd] in *.
    apply andb_prop in Hok as [Hok1 Hok]. inversion H as [|? ? H1 H2]; subst. constructor; [|apply IH; auto].
    apply good_hang. apply andb_prop in Hok1 as [_ Hok1]. apply Forall_sep; [constructor; [apply good_nil|constructor]|]. apply Forall_map.
    cbn in H1. rewrite Forall_forall in *. rewrite forallb_forall in Hok1. auto.
Qed.
Lemma blks_good bs : forallb blk_ok bs = true -> Forall good (blks_lines bs).
Proof.
  intros H. apply Forall_sep; [constructor; [apply good_nil|constructor]|]. apply Forall_map. rewrite forallb_forall in H. apply Forall_forall. intros x Hx. apply blk_good; auto.
Qed.

(** ** First lines *)
Lemma blks_first b bs l ls : blk_lines b = l :: ls -> exists ls', blks_lines (b :: bs) = l :: ls'.
Proof.
  intros H. unfold blks_lines. cbn [map]. destruct bs as [|b' bs].
  - exists ls. exact H.
  - cbn [map]. rewrite sep_cons, H. eexists. reflexivity.
Qed.
Definition head_ok (l : bytes) : Prop := exists c r, l = c :: r /\ is_ws c = false /\ beq c "[" = false.
Lemma blk_first b : blk_ok b = true -> exists l ls, blk_lines b = l :: ls /\ head_ok l /\ (starts_rule b = false -> forall n, thematic_loop (l ++ [NL]) n = false).
Proof.
  induction b as [l| |lang ls|bs H|m loose items H] using blk_ind'; intros Hok.
  - cbn [blk_ok blk_lines] in *. apply andb_prop in Hok as [_ Hok]. pose proof (split_lines_ne (inls_src l)) as Hne.
    destruct (split_lines (inls_src l)) as [|x xs]; [congruence|]. exists x, xs. split; [reflexivity|].
    cbn [forallb] in Hok. apply andb_prop in Hok as [Hx _]. pose proof Hx as Hx'. unfold line_ok in Hx'. destruct x as [|c r]; [discriminate|].
    apply andb_prop in Hx' as [Hx' _]. apply andb_prop in Hx' as [Hx' _]. apply andb_prop in Hx' as [H1 H2]. apply negb_true_iff in H1, H2.
    split; [exists c, r; repeat split; auto; apply not_block; [exact H2|cbn; auto 20]|]. intros _ n. cbn [app thematic_loop].
    rewrite (not_block c "-"), (not_block c "*"), H1 by (try exact H2; cbn; auto 20). reflexivity.
  - exists (B "***"), []. split; [reflexivity|]. split; [eexists _, _; repeat split; reflexivity|discriminate].
  - exists (B "```" ++ lang), (ls ++ [B "```"]). split; [reflexivity|]. split; [eexists _, _; repeat split; reflexivity|]. reflexivity.
  - cbn [blk_ok] in Hok. apply andb_prop in Hok as [Hok1 Hok]. apply andb_prop in Hok1 as [Hne _]. destruct bs as [|b bs]; [discriminate|].
    inversion H as [|? ? H1 H2]; subst. cbn [forallb] in Hok. apply andb_prop in Hok as [Hb _]. destruct (H1 Hb) as (l & ls & E & _ & _).
    destruct (blks_first b bs l ls E) as (ls' & E'). exists (quote_line l), (map quote_line ls').
    split; [cbn [blk_lines]; fold (blks_lines (b :: bs)); rewrite E'; reflexivity|].
    destruct l as [|c l]; (split; [eexists _, _; repeat split; reflexivity|]); reflexivity.
  - cbn [blk_ok] in Hok. apply andb_prop in Hok as [Hok Hn]. apply andb_prop in Hok as [_ Hok].
    assert (Hi : items <> []) by (destruct items; [destruct loose; discriminate Hn|discriminate]).
    destruct items as [|[ck bs] items]; [congruence|]. cbn [forallb snd] in Hok. apply andb_prop in Hok as [Hok _]. apply andb_prop in Hok as [Hf Hok]. apply andb_prop in Hf as [Hf _].
    destruct bs as [|b bs]; [discriminate Hf|]. inversion H as [|? ? H1 _]; subst. cbn [snd] in H1. inversion H1 as [|? ? H2 _]; subst.
    cbn [forallb] in Hok. apply andb_prop in Hok as [Hb _]. destruct (H2 Hb) as (l & ls & E & _ & Ht).
    destruct (blks_first b bs l ls E) as (ls' & E').
    assert (E2 : exists R, blk_lines (DList m loose ((ck, b :: bs) :: items)) = (mark_text m 0 ck ++ SP :: l) :: R).
    { rewrite list_lines. cbn [item_lines]. rewrite E'. cbn [hang]. destruct (item_lines m (0 + 1) items); [|rewrite sep_cons]; eexists; reflexivity. }
    destruct E2 as (R & E2). exists (mark_text m 0 ck ++ SP :: l), R. split; [exact E2|]. split.
    + destruct (mark_head m 0 ck) as (c & r & -> & A1 & A2 & _). exists c, (r ++ SP :: l). repeat split; auto.
    + cbn [starts_rule]. intros Hs n. cbn in Hf. rewrite <- app_assoc. cbn [app]. destruct m as [bu|bu|s st]; cbn [mark_text].
      * destruct bu; cbn [bullet_char app thematic_loop]; cbn; auto.
      * destruct bu, ck; reflexivity.
      * rewrite number_text_eq. pose proof (dec_digits (s + 0)) as Hd. pose proof (dec_nonempty (s + 0)) as Hne. destruct (dec (s + 0)) as [|d ds]; [congruence|].
        cbn [forallb] in Hd. apply andb_prop in Hd as [Hd _].
        destruct st; cbn [number_pre app B list_ascii_of_string thematic_loop]; try reflexivity;
          (assert (beq d "-" || beq d "*" = false) as -> by (revert Hd; clear; destruct d as [[][][][][][][][]]; intros Hd; try discriminate Hd; reflexivity));
          (assert (is_ws d = false) as -> by (revert Hd; clear; destruct d as [[][][][][][][][]]; intros Hd; try discriminate Hd; reflexivity)); reflexivity.
Qed.
Lemma blks_head bs : bs <> [] -> forallb blk_ok bs = true -> exists l ls, blks_lines bs = l :: ls /\ head_ok l.
Proof.
  intros Hne H. destruct bs as [|b bs]; [congruence|]. cbn in H. apply andb_prop in H as [H _]. destruct (blk_first b H) as (l & ls & E & A & _).
  destruct (blks_first b bs l ls E) as (ls' & E'). eauto.
Qed.
Lemma body_first bs : first_ok bs = true -> forallb blk_ok bs = true -> exists l ls, blks_lines bs = l :: ls /\ item_line l.
Proof.
  intros Hf H. destruct bs as [|b bs]; [discriminate|]. cbn in H, Hf. apply andb_prop in H as [H _]. apply negb_true_iff in Hf.
  destruct (blk_first b H) as (l & ls & E & (c & r & E1 & A1 & A2) & T). destruct (blks_first b bs l ls E) as (ls' & E').
  exists l, ls'. split; [exact E'|]. exists c, r. repeat split; auto.
Qed.
