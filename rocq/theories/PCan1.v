(** * PCan1: partial correctness, and what the lexer does on known text *)
From Verif Require Import Base Lex Attr Inline Lib PSafe.
Local Open Scope nat_scope.

(** ** Partial correctness: every value of [r] satisfies [P] *)
Definition pc {A} (P : A -> Prop) (r : res A) : Prop := forall a, r = Ok a -> P a.

Lemma pc_ok {A} (P : A -> Prop) a : P a -> pc P (Ok a).
Proof. intros H b E. injection E as <-. exact H. Qed.
Lemma pc_bind {A C} (P : A -> Prop) (Q : C -> Prop) r f :
  pc P r -> (forall a, P a -> pc Q (f a)) -> pc Q (bind r f).
Proof. intros H K c E. apply bind_ok in E as (a & E1 & E2). eapply K; eauto. Qed.
Lemma pc_bind_eq {A C} (Q : C -> Prop) (r : res A) f :
  (forall a, r = Ok a -> pc Q (f a)) -> pc Q (bind r f).
Proof. intros K c E. apply bind_ok in E as (a & E1 & E2). eapply K; eauto. Qed.
Lemma pc_weaken {A} (P Q : A -> Prop) r : pc P r -> (forall a, P a -> Q a) -> pc Q r.
Proof. unfold pc. auto. Qed.
Lemma pc_panic {A} (P : A -> Prop) w : pc P (Panic w).
Proof. intros a E. discriminate E. Qed.
Lemma pc_fuel {A} (P : A -> Prop) : pc P Fuel.
Proof. intros a E. discriminate E. Qed.
Lemma pc_ssub src sp w : pc (eq (slice src sp)) (ssub src sp w).
Proof. intros a E. apply ssub_ok in E as (? & ? & ? & ? & E). auto. Qed.
Lemma pc_bsub src sp w : pc (eq (slice src sp)) (bsub src sp w).
Proof. intros a E. apply bsub_ok in E as (? & ? & E). auto. Qed.

(** ** The state of the lexer *)

(** Nothing peeked; [r] is the input left. *)
Definition LX (v e : bool) (l : lexer) (r : bytes) : Prop :=
  lx_next l = None /\ lx_esc l = e /\ lx_verb l = v /\ skipn (lx_pos l) (lx_src l) = r
  /\ lx_pos l <= length (lx_src l).
(** The first token of [r] has been peeked. *)
Definition LP (v : bool) (l : lexer) (r : bytes) : Prop :=
  exists t, lx_next l = Some t /\ scan v false r = (Some t, lx_esc l) /\ lx_verb l = v
            /\ skipn (lx_pos l) (lx_src l) = skipn (tlen t) r
            /\ tlen t <= lx_pos l /\ skipn (lx_pos l - tlen t) (lx_src l) = r /\ lx_pos l <= length (lx_src l).
Definition LV (v : bool) (l : lexer) (r : bytes) : Prop := LX v false l r \/ LP v l r.

Definition is_text (o : option token) : bool := match o with Some (Tok LText _) => true | _ => false end.

Lemma LX_new r : LX false false (lex_new r) r.
Proof. repeat split; cbn; auto. lia. Qed.

Lemma scan_special v c r : is_special c = true ->
  scan v false (c :: r) = (Some (fst (special_token v c r)), snd (special_token v c r)).
Proof. intros H. unfold scan. cbn [count_while]. rewrite H. cbn. destruct (special_token v c r). reflexivity. Qed.
Lemma scan_plain v r : hd_is (fun c => negb (is_special c)) r = true ->
  scan v false r = (Some (Tok LText (count_while (fun c => negb (is_special c)) r)), false).
Proof.
  destruct r as [|c r]; [discriminate|]. cbn [hd_is]. intros H. unfold scan. cbn [count_while]. rewrite H. reflexivity.
Qed.

Lemma skipn_tl {A} n m (l : list A) r : skipn n l = r -> skipn (n + m) l = skipn m r.
Proof. intros <-. rewrite skipn_skipn. reflexivity. Qed.

Lemma LX_token v e l r : LX v e l r -> forall t e', scan v e r = (t, e') ->
  lex_token l = (t, Lx (lx_src l) (lx_pos l + match t with Some t => tlen t | None => 0 end) e' None v).
Proof.
  intros (H1 & H2 & H3 & H4 & H5) t e' E. unfold lex_token. rewrite H2, H3, H4, E, H1. reflexivity.
Qed.

(** The token is within the input. *)
Definition inside (t : option token) (r : bytes) : Prop :=
  match t with Some t => tlen t <= length r | None => r = [] end.
Lemma hyphen_run_le r : hyphen_run r <= length r.
Proof. induction r as [|c r IH]; cbn; [lia|]. destruct (beq c "-" && _); cbn; lia. Qed.
Lemma hd_len f (r : bytes) : hd_is f r = true -> 1 <= length r.
Proof. destruct r; cbn; [discriminate|lia]. Qed.
Lemma special_inside v c r : tlen (fst (special_token v c r)) <= S (length r).
Proof.
  unfold special_token, maybe_close.
  repeat match goal with
  | |- context [if hd_is ?f r then _ else _] => destruct (hd_is f r) eqn:?H
  | |- context [if ?b then _ else _] => destruct b
  | |- context [match r with [] => _ | _ => _ end] => destruct r
  | |- context [match open_brace ?c with _ => _ end] => destruct (open_brace c)
  end; cbn; repeat match goal with H : hd_is _ _ = true |- _ => apply hd_len in H end;
    try match goal with |- context [count_while ?f ?l] => pose proof (count_while_le f l) end;
    try match goal with |- context [hyphen_run ?l] => pose proof (hyphen_run_le l) end; try lia.
Qed.
Lemma scan_inside v e r t e' : scan v e r = (t, e') -> inside t r.
Proof.
  destruct r as [|c r]; [cbn; intros [= <- <-]; reflexivity|]. cbn [scan].
  destruct e.
  - intros H. apply (f_equal fst) in H. cbn [fst] in H. subst t. cbn [inside]. unfold escaped_token.
    destruct (beq c NL); cbn; [lia|]. destruct (is_blank c && _) eqn:E.
    + apply andb_prop in E as [_ E]. cbn. apply hd_len in E. rewrite skipn_length in E. lia.
    + destruct (beq c SP); cbn; lia.
  - cbn [count_while]. destruct (is_special c) eqn:E; cbn [negb Nat.ltb Nat.leb].
    + pose proof (special_inside v c r) as H. destruct (special_token v c r) as [t1 e1].
      intros E1. apply (f_equal fst) in E1. cbn [fst] in E1. subst t. exact H.
    + intros E1. apply (f_equal fst) in E1. cbn [fst] in E1. subst t. cbn.
      pose proof (count_while_le (fun c => negb (is_special c)) r). lia.
Qed.

Lemma LX_after v e l r t e' : LX v e l r -> scan v e r = (Some t, e') ->
  LX v e' (Lx (lx_src l) (lx_pos l + tlen t) e' None v) (skipn (tlen t) r).
Proof.
  intros (H1 & H2 & H3 & H4 & H5) E. pose proof (scan_inside _ _ _ _ _ E) as Hi. cbn in Hi.
  repeat split; cbn; auto; [apply skipn_tl; auto|]. rewrite <- H4, skipn_length in Hi. lia.
Qed.

(** [next] on a token other than text. *)
Lemma lex_special v l r t e : LV v l r -> scan v false r = (Some t, e) -> is_text (Some t) = false ->
  exists l', lex_next l = Ok (Some t, l') /\ LX v e l' (skipn (tlen t) r).
Proof.
  intros [H|H] E Ht.
  - pose proof H as (H1 & _). unfold lex_next. rewrite H1. unfold next_token. rewrite (LX_token _ _ _ _ H _ _ E).
    pose proof (LX_after _ _ _ _ _ _ H E) as H2.
    destruct t as [[] n]; try discriminate Ht; eexists; (split; [reflexivity|exact H2]).
  - destruct H as (t1 & H1 & H2 & H3 & H4 & H5 & H6 & H7). rewrite E in H2. injection H2 as <- ->.
    unfold lex_next. rewrite H1. eexists. split; [reflexivity|]. repeat split; cbn; auto.
Qed.

(** [next] at the end of the input. *)
Lemma lex_end v e l : LX v e l [] -> exists l', lex_next l = Ok (None, l') /\ LX v false l' [].
Proof.
  intros H. pose proof H as (H1 & H2 & H3 & H4 & H5). unfold lex_next. rewrite H1. unfold next_token.
  assert (E : scan v e [] = (None, false)) by reflexivity.
  rewrite (LX_token _ _ _ _ H _ _ E). eexists. split; [reflexivity|]. repeat split; cbn; auto; rewrite Nat.add_0_r; auto.
Qed.
Lemma LP_nil v l : ~ LP v l [].
Proof. intros (t & _ & H & _). cbn in H. discriminate H. Qed.

(** [peek]. *)
Lemma lex_peek_is v l r t e : LV v l r -> scan v false r = (t, e) ->
  exists l', lex_peek l = (t, l') /\ LV v l' r /\ lx_verb l' = v
             /\ match t with Some t => lx_next l' = Some t | None => True end.
Proof.
  intros [H|H] E.
  - pose proof H as (H1 & H2 & H3 & H4 & H5). unfold lex_peek. rewrite H1. rewrite (LX_token _ _ _ _ H _ _ E).
    eexists. split; [reflexivity|]. destruct t as [t|].
    + pose proof (LX_after _ _ _ _ _ _ H E) as (K1 & K2 & K3 & K4 & K5). split; [|cbn; auto]. right. exists t. cbn in *.
      repeat split; auto. { lia. } replace (lx_pos l + tlen t - tlen t) with (lx_pos l) by lia. exact H4.
    + split; [|cbn; auto]. left.
      assert (r = []) as ->. { destruct r as [|c r]; [reflexivity|]. exfalso. cbn in E.
        destruct (_ : bool) in E; [discriminate|]. destruct (special_token v c r); discriminate. }
      cbn in E. injection E as <-. repeat split; cbn; auto; rewrite Nat.add_0_r; auto.
  - pose proof H as (t1 & H1 & H2 & H3 & _). rewrite E in H2. injection H2 as -> ->.
    unfold lex_peek. rewrite H1. eexists. split; [reflexivity|]. split; [right; auto|]. auto.
Qed.

Lemma lex_ahead_is v l r : LV v l r -> lex_ahead l = Ok r.
Proof.
  intros [(H1 & H2 & H3 & H4 & H5)|(t & H1 & H2 & H3 & H4 & H5 & H6 & H7)]; unfold lex_ahead; rewrite H1.
  - rewrite usub_yes by lia. cbn. rewrite Nat.sub_0_r. apply Nat.leb_le in H5. rewrite H5, H4. reflexivity.
  - rewrite usub_yes by lia. cbn. assert (lx_pos l - tlen t <= length (lx_src l)) as K by lia.
    apply Nat.leb_le in K. rewrite K, H6. reflexivity.
Qed.

Lemma lex_skip_is v e l r n : LX v e l r -> pc (fun l' => LX false false l' (skipn n r)) (lex_skip_ahead l n).
Proof.
  intros (H1 & H2 & H3 & H4 & H5). unfold lex_skip_ahead. destruct (Nat.leb _ _); [|apply pc_panic].
  apply pc_ok. rewrite (skipn_tl _ _ _ _ H4). apply LX_new.
Qed.

(** ** Runs of text *)

(** [text_run]: all following text tokens are taken; [Q] holds of every place reached. *)
Lemma text_run_is v (Q : nat -> bytes -> Prop) :
  (forall k r n e, Q k r -> scan v false r = (Some (Tok LText n), e) -> Q (k + n) (skipn n r) /\ e = false) ->
  forall f l r len k, LX v false l r -> Q k r ->
  pc (fun x => exists k' r', k <= k' /\ fst x = Tok LText (len + (k' - k)) /\ Q k' r' /\ r' = skipn (k' - k) r
                             /\ is_text (fst (scan v false r')) = false /\ LV v (snd x) r')
     (text_run f l len).
Proof.
  intros HQ f. induction f as [|f IH]; intros l r len k H Hk; [apply pc_fuel|]. cbn [text_run].
  destruct (scan v false r) as [t e] eqn:E. rewrite (LX_token _ _ _ _ H _ _ E).
  destruct (is_text t) eqn:Et.
  - destruct t as [[[] n]|]; try discriminate Et. destruct (HQ _ _ _ _ Hk E) as [Hk' ->].
    pose proof (LX_after _ _ _ _ _ _ H E) as H'. cbn [tlen] in *.
    eapply pc_weaken; [apply (IH _ _ (len + n) _ H' Hk')|].
    intros x (k' & r' & A1 & A2 & A3 & A4 & A5 & A6). exists k', r'. repeat split; auto; try lia.
    + rewrite A2. f_equal. lia.
    + rewrite A4, skipn_skipn. f_equal. lia.
  - assert (K : LV v (lex_set_next (Lx (lx_src l) (lx_pos l + match t with Some t0 => tlen t0 | None => 0 end) e None v) t) r).
    { destruct t as [t|].
      - pose proof (LX_after _ _ _ _ _ _ H E) as (K1 & K2 & K3 & K4 & K5). destruct H as (H1 & H2 & H3 & H4 & H5).
        right. exists t. cbn in *. repeat split; auto; [lia|].
        replace (lx_pos l + tlen t - tlen t) with (lx_pos l) by lia. exact H4.
      - left. destruct H as (H1 & H2 & H3 & H4 & H5). pose proof (scan_inside _ _ _ _ _ E) as ->.
        injection E as <-. repeat split; cbn; auto; rewrite Nat.add_0_r; auto. }
    destruct t as [[[] n]|]; try discriminate Et; apply pc_ok; exists k, r; rewrite Nat.sub_diag; cbn [fst snd skipn];
      rewrite E; (split; [lia|]); (split; [f_equal; lia|]); (split; [exact Hk|]); (split; [reflexivity|]); (split; [reflexivity|]); exact K.
Qed.

(** [next] on text, when the next token is not text: one run. *)
Lemma lex_text v l r n e : LV v l r -> scan v false r = (Some (Tok LText n), e) -> e = false ->
  is_text (fst (scan v false (skipn n r))) = false ->
  pc (fun x => fst x = Some (Tok LText n) /\ LV v (snd x) (skipn n r)) (lex_next l).
Proof.
  intros [H|H] E -> Ht.
  - pose proof H as (H1 & _). unfold lex_next. rewrite H1. unfold next_token. rewrite (LX_token _ _ _ _ H _ _ E).
    pose proof (LX_after _ _ _ _ _ _ H E) as H2. cbn [tlen] in *.
    eapply pc_bind; [eapply (text_run_is v (fun k r' => k = 0 /\ is_text (fst (scan v false r')) = false))|].
    + intros k r0 n0 e0 [-> A] B. rewrite B in A. discriminate A.
    + exact H2.
    + split; [reflexivity|exact Ht].
    + intros [t l'] (k' & r' & A1 & A2 & (A3 & _) & A4 & A5 & A6). subst k'. cbn in *. subst. apply pc_ok. cbn.
      rewrite Nat.add_0_r. split; auto.
  - destruct H as (t1 & H1 & H2 & H3 & H4 & H5 & H6 & H7). rewrite E in H2. injection H2 as <- Ee.
    unfold lex_next. rewrite H1. apply pc_ok. cbn. split; [reflexivity|]. left. repeat split; cbn in *; auto.
Qed.

(** [next] after a backslash: the escaped byte and the text after it. *)
Lemma lex_escaped l c r n e : LX false true l (c :: r) -> escaped_token c r = Tok LText 1 ->
  (n = 0 \/ scan false false r = (Some (Tok LText n), e) /\ e = false) ->
  is_text (fst (scan false false (skipn n r))) = false ->
  pc (fun x => fst x = Some (Tok LText (1 + n)) /\ LV false (snd x) (skipn n r)) (lex_next l).
Proof.
  intros H E Hn Ht. pose proof H as (H1 & _). unfold lex_next. rewrite H1. unfold next_token.
  assert (E1 : scan false true (c :: r) = (Some (Tok LText 1), false)) by (cbn [scan]; rewrite E; reflexivity).
  rewrite (LX_token _ _ _ _ H _ _ E1). pose proof (LX_after _ _ _ _ _ _ H E1) as H2. cbn [tlen skipn] in *.
  eapply pc_bind.
  - eapply (text_run_is false (fun k r' => k = 0 /\ r' = r \/ k = n /\ r' = skipn n r)); [|exact H2|left; split; reflexivity].
    intros k r0 n0 e0 [[-> ->]|[-> ->]] B.
    + destruct Hn as [-> | [Hn He]].
      * cbn in Ht. rewrite B in Ht. discriminate Ht.
      * rewrite Hn in B. injection B as <- <-. split; [right; split; [reflexivity|reflexivity]|auto].
    + rewrite B in Ht. discriminate Ht.
  - intros [t l'] (k' & r' & A1 & A2 & A3 & A4 & A5 & A6). cbn in *.
    assert (k' = n /\ r' = skipn n r) as [-> ->].
    { destruct A3 as [[-> ->]|[-> ->]]; [|split; auto].
      destruct Hn as [-> | [Hn _]]; [split; reflexivity|]. rewrite Hn in A5. discriminate A5. }
    subst t. apply pc_ok. cbn. rewrite Nat.sub_0_r. split; auto.
Qed.
