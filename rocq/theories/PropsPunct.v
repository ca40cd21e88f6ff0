(** * PropsPunct: smart punctuation (C21) *)
From Verif Require Import Base Lex Attr Block Inline Doc Lib PSafe.
Local Open Scope nat_scope.

(** [m] em dashes and [k] en dashes for a run of [n] hyphens. *)
Definition dash_spec (n m k : nat) : Prop :=
  3 * m + 2 * k = n /\
  (n mod 3 = 0 -> k = 0) /\
  (n mod 3 <> 0 -> n mod 2 = 0 -> m = 0) /\
  (n mod 3 <> 0 -> n mod 2 <> 0 -> forall m' k', 3 * m' + 2 * k' = n -> k <= k').

Lemma find_en_ok : forall f len n, 2 * n <= len -> len < n + f ->
  (exists j, n <= j /\ 2 * j <= len /\ (len - 2 * j) mod 3 = 0) ->
  exists k, find_en f len n = Ok k /\ n <= k /\ 2 * k <= len /\ (len - 2 * k) mod 3 = 0 /\
    forall j, n <= j < k -> (len - 2 * j) mod 3 <> 0.
Proof.
  induction f as [|f IH]; intros len n H1 H2 (j & Hj1 & Hj2 & Hj3); [lia|].
  cbn [find_en]. rewrite usub_yes by auto. cbn [bind]. destruct (Nat.eqb ((len - 2 * n) mod 3) 0) eqn:E.
  - apply Nat.eqb_eq in E. exists n. repeat split; auto. lia.
  - apply Nat.eqb_neq in E. assert (n <> j) by congruence.
    destruct (IH len (S n)) as (k & E1 & K1 & K2 & K3 & K4); [lia|lia|exists j; repeat split; auto; lia|].
    exists k. repeat split; auto; [lia|]. intros i Hi. destruct (Nat.eq_dec i n) as [->|Hn]; [auto|]. apply K4. lia.
Qed.
Lemma mod3 n : n mod 3 = n - 3 * (n / 3).
Proof. pose proof (Nat.div_mod n 3). lia. Qed.
Theorem C21_dash_counts : forall n, 2 <= n -> exists m k, dash_counts n = Ok (m, k) /\ dash_spec n m k.
Proof.
  intros n Hn. unfold dash_counts.
  pose proof (Nat.div_mod n 3 ltac:(lia)) as D3. pose proof (Nat.div_mod n 2 ltac:(lia)) as D2.
  destruct (Nat.eqb (n mod 3) 0) eqn:E3.
  - apply Nat.eqb_eq in E3. exists (n / 3), 0. split; [auto|]. repeat split; try lia.
  - apply Nat.eqb_neq in E3. destruct (Nat.eqb (n mod 2) 0) eqn:E2.
    + apply Nat.eqb_eq in E2. exists 0, (n / 2). split; [auto|]. repeat split; try lia.
    + apply Nat.eqb_neq in E2.
      assert (H2 : n mod 2 = 1) by (pose proof (Nat.mod_upper_bound n 2); lia).
      destruct (find_en_ok (S n) n 1) as (k & E & K1 & K2 & K3 & K4); try lia.
      { pose proof (Nat.mod_upper_bound n 3 ltac:(lia)). assert (n mod 3 = 1 \/ n mod 3 = 2) as [H3|H3] by lia.
        - exists 2. split; [lia|]. assert (2 * 2 <= n) by (destruct (Nat.eq_dec n 1); [lia|]; destruct n as [|[|[|[|n]]]]; cbn in *; lia).
          split; [lia|]. replace (n - 2 * 2) with (3 * (n / 3 - 1)) by lia. rewrite Nat.mul_comm, Nat.mod_mul; lia.
        - exists 1. split; [lia|]. split; [lia|]. replace (n - 2 * 1) with (3 * (n / 3)) by lia. rewrite Nat.mul_comm, Nat.mod_mul; lia. }
      rewrite E. cbn [bind]. rewrite usub_yes by lia. cbn [bind]. exists ((n - 2 * k) / 3), k. split; [auto|].
      pose proof (Nat.div_mod (n - 2 * k) 3 ltac:(lia)). repeat split; try lia.
      intros _ _ m' k' Hm. destruct (Nat.le_gt_cases k k') as [|Hlt]; [auto|]. exfalso.
      destruct k' as [|k'].
      * apply E3. rewrite <- Hm, Nat.mul_0_r, Nat.add_0_r, Nat.mul_comm. apply Nat.mod_mul. lia.
      * apply (K4 (S k')); [lia|]. replace (n - 2 * S k') with (m' * 3) by lia. apply Nat.mod_mul. lia.
Qed.
Print Assumptions C21_dash_counts.

(** [n] consecutive atoms [a] of width [w] from position [p]. *)
Fixpoint row (n w p : nat) (a : iatom) : list iev :=
  match n with O => [] | S n' => IE (IAtom a) (Sp p (p + w)) :: row n' w (p + w) a end.

Lemma push_dashes_row : forall n w a s, push_dashes n w a s =
  s_set_span (s_set_events s (s_events s ++ row n w (ss (s_span s)) a)) (Sp (ss (s_span s) + n * w) (se (s_span s))).
Proof.
  induction n as [|n IH]; intros w a s; cbn [push_dashes row].
  - rewrite app_nil_r, Nat.add_0_r. destruct s as [[l c li ah [p q]] ops evs v at_ cow al]. reflexivity.
  - rewrite IH. destruct s as [[l c li ah [p q]] ops evs v at_ cow al]. cbn. rewrite <- app_assoc. cbn. rewrite Nat.add_assoc. reflexivity.
Qed.
Lemma ellipses_row : forall f s, sp_len (s_span s) < f -> ss (s_span s) <= se (s_span s) ->
  ellipses f s = let k := sp_len (s_span s) / 3 in
  Ok (s_set_span (s_set_events s (s_events s ++ row k 3 (ss (s_span s)) IEllipsis)) (Sp (ss (s_span s) + k * 3) (se (s_span s)))).
Proof.
  induction f as [|f IH]; intros s Hf Hs; [lia|]. cbn [ellipses]. cbv zeta.
  pose proof (Nat.div_mod (sp_len (s_span s)) 3 ltac:(lia)) as D. pose proof (Nat.mod_upper_bound (sp_len (s_span s)) 3 ltac:(lia)) as D'.
  destruct (Nat.leb 3 (sp_len (s_span s))) eqn:E.
  - apply Nat.leb_le in E. set (s1 := s_set_span _ _).
    assert (H1 : s_span s1 = Sp (ss (s_span s) + 3) (se (s_span s))) by reflexivity.
    assert (H2 : sp_len (s_span s1) = sp_len (s_span s) - 3) by (rewrite H1; unfold sp_len; cbn [ss se]; lia).
    rewrite IH; [|lia|rewrite H1; cbn [ss se]; unfold sp_len in *; lia]. cbv zeta. rewrite H2, H1. cbn [ss se].
    replace (sp_len (s_span s) / 3) with (S ((sp_len (s_span s) - 3) / 3)).
    2:{ replace (sp_len (s_span s)) with ((sp_len (s_span s) - 3) + 1 * 3) at 2 by lia. rewrite Nat.div_add by lia. lia. }
    cbn [row]. subst s1. destruct s as [[l c li ah [p q]] ops evs v at_ cow al]. unfold sp_len. cbn -[Nat.div Nat.mul]. rewrite <- app_assoc. cbn -[Nat.div Nat.mul].   match goal with |- context [Sp (?a + 3 + ?b) _] => replace (a + 3 + b) with (a + S ((q - p - 3) / 3) * 3) by lia end. reflexivity.
  - apply Nat.leb_gt in E. rewrite (Nat.div_small (sp_len (s_span s)) 3) by lia. cbn [row]. rewrite app_nil_r, Nat.add_0_r.
    destruct s as [[l c li ah [p q]] ops evs v at_ cow al]. reflexivity.
Qed.

Lemma rposition_none {A} (f : A -> bool) l : (forall x, f x = false) -> rposition f l = None.
Proof. intros H. induction l as [|x l IH]; cbn; [auto|]. rewrite IH, H. auto. Qed.

(** Outside verbatim text, the step of the parser that meets a run of hyphens or periods. *)
Section RUN.
  Variables (src : bytes) (s : istate) (q : seq) (n : nat) (l' : lexer).
  Hypothesis Hlex : lex_next (i_lex (s_in s)) = Ok (Some (Tok (LSeq q) n), l').
  Hypothesis Hverb : s_verb s = None.
  Hypothesis Hattr : s_attr s = None.
  Let p := se (s_span s).
  Let s1 := s_set_in s (in_set_span (in_set_lex (in_reset_span (s_in s)) l') (Sp p (p + n))).
  Lemma parse_event_run : q <> Backtick -> parse_event src s =
    (let! (o, s2) := parse_atom s1 (Tok (LSeq q) n) in
     Ok (match o with Some f => (f, s2) | None => (FContinue, push s2 IStr) end)).
  Proof.
    intros Hq. unfold parse_event, in_eat. change (i_lex (s_in (s_set_in s (in_reset_span (s_in s))))) with (i_lex (s_in s)).
    rewrite Hlex. cbn [bind]. cbv beta iota.
    match goal with |- context [parse_verbatim src ?x _] => change x with s1 end.
    assert (Hv : parse_verbatim src s1 (Tok (LSeq q) n) = Ok (None, s1)).
    { unfold parse_verbatim. change (s_verb s1) with (s_verb s). rewrite Hverb. cbn [tk]. destruct q; [congruence|reflexivity|reflexivity]. }
    assert (Ha : parse_attributes src s1 (Tok (LSeq q) n) = Ok (None, s1)).
    { unfold parse_attributes. cbn [tk]. change (s_attr s1) with (s_attr s). rewrite Hattr. reflexivity. }
    assert (Hc : iparse_container src s1 (Tok (LSeq q) n) = Ok (None, s1)).
    { unfold iparse_container. rewrite rposition_none; [reflexivity|]. intros [[t|[]|[]|[]|[]| | | | | |e i []] z]; reflexivity. }
    unfold or_else at 6. rewrite Hv. cbn [bind]. unfold or_else at 5. rewrite Ha. cbn [bind].
    unfold or_else at 4. unfold parse_autolink; cbn [tk bind]. unfold or_else at 3. unfold parse_symbol; cbn [tk bind].
    unfold or_else at 2. unfold parse_footnote_reference; cbn [tk bind]. unfold or_else. rewrite Hc. cbn [bind]. reflexivity.
  Qed.
End RUN.

(** A run of [n >= 2] hyphens at position [p] becomes [m] em dashes followed by [k] en dashes, laid out
    side by side from [p] to [p + n]; nothing else is added. *)
Theorem C21_hyphens : forall src s n l', 2 <= n ->
  lex_next (i_lex (s_in s)) = Ok (Some (Tok (LSeq Hyphen) n), l') -> s_verb s = None -> s_attr s = None ->
  exists m k s', dash_spec n m k /\ parse_event src s = Ok (FContinue, s') /\
    let p := se (s_span s) in
    s_events s' = s_events s ++ row m 3 p IEmDash ++ row k 2 (p + 3 * m) IEnDash /\ p + 3 * m + 2 * k = p + n.
Proof.
  intros src s n l' Hn Hl Hv Ha. destruct (C21_dash_counts n Hn) as (m & k & E & Hs). exists m, k.
  rewrite (parse_event_run src s Hyphen n l' Hl Hv Ha) by discriminate.
  cbn [parse_atom tk tlen]. replace (Nat.leb 2 n) with true by (symmetry; apply Nat.leb_le; auto). rewrite E. cbn [bind].
  eexists. split; [exact Hs|]. split; [reflexivity|]. rewrite !push_dashes_row. destruct s as [[l c li ah [p q]] ops evs v at_ cow al]. cbn.
  rewrite <- app_assoc. destruct Hs as (Hs & _). split; [|lia]. do 4 f_equal. lia.
Qed.
Print Assumptions C21_hyphens.
(** A run of [n] periods becomes [n / 3] ellipses and one text event of the remaining [n mod 3]
    periods. *)
Theorem C21_periods : forall src s n l',
  lex_next (i_lex (s_in s)) = Ok (Some (Tok (LSeq Period) n), l') -> s_verb s = None -> s_attr s = None ->
  exists s', parse_event src s = Ok (FContinue, s') /\
    let p := se (s_span s) in
    s_events s' = s_events s ++ row (n / 3) 3 p IEllipsis ++ [IE IStr (Sp (p + 3 * (n / 3)) (p + n))] /\
    p + n - (p + 3 * (n / 3)) = n mod 3.
Proof.
  intros src s n l' Hl Hv Ha. rewrite (parse_event_run src s Period n l' Hl Hv Ha) by discriminate.
  cbn [parse_atom tk]. rewrite ellipses_row; [|lia|cbn; lia]. cbv zeta. cbn [bind]. eexists. split; [reflexivity|].
  pose proof (Nat.div_mod n 3 ltac:(lia)) as D. destruct s as [[l c li ah [p q]] ops evs v at_ cow al]. unfold sp_len. cbn -[Nat.div Nat.mul Nat.modulo Nat.sub].
  replace (q + n - q) with n by lia. rewrite <- app_assoc. split; [|lia]. replace (n / 3 * 3) with (3 * (n / 3)) by lia. reflexivity.
Qed.
Print Assumptions C21_periods.
(** The two events are what the user sees as dashes and ellipses. *)
Theorem C21_public : atom_event IEmDash = EmDash /\ atom_event IEnDash = EnDash /\ atom_event IEllipsis = Ellipsis.
Proof. auto. Qed.
(** The hypotheses are met. *)
Example C21_ex : exists s l', i_feed_line (B "-------") i_new (Sp 0 7) true = Ok s /\
  lex_next (i_lex (s_in s)) = Ok (Some (Tok (LSeq Hyphen) 7), l') /\ s_verb s = None /\ s_attr s = None /\ dash_spec 7 1 2.
Proof.
  do 2 eexists. split; [vm_compute; reflexivity|]. split; [vm_compute; reflexivity|]. split; [auto|]. split; [auto|].
  repeat split; cbn; try lia. 
Qed.
Example C21_ex2 : option_map (map fst) (match parse_spans (B "a.......") with Ok x => Some x | _ => None end)
  = Some [Start Document []; Start Paragraph []; Str (B "a"); Ellipsis; Ellipsis; Str (B "."); End_ Paragraph; End_ Document].
Proof. vm_compute. reflexivity. Qed.
