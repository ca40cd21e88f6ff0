(** * PCan8: verbatim text *)
From Verif Require Import Base Lex Attr Inline Block Doc Lib PSafe PCan1 PCan2 PCan3 PCan4 PCan5 PCan6 PCan7.
From Verif Require Import SpecCanon.
Local Open Scope nat_scope.

(** ** The lexer in verbatim text *)
Definition vbyte (c : ascii) : bool := negb (beq c "`") && negb (beq c NL).

Lemma count_bt f t r : f "`"%char = false -> count_while f (t ++ "`"%char :: r) <= length t.
Proof. intros H. induction t as [|c t IH]; cbn; [rewrite H; lia|]. destruct (f c); cbn; lia. Qed.
Lemma hyphen_bt t r : hyphen_run (t ++ "`"%char :: r) <= length t.
Proof. induction t as [|c t IH]; cbn [app hyphen_run length]; [cbn; lia|]. destruct (_ && _); lia. Qed.
Lemma hd_bt f t r : f "`"%char = false -> hd_is f (t ++ "`"%char :: r) = true -> 1 <= length t.
Proof. destruct t; cbn; intros H K; [congruence|lia]. Qed.

Lemma special_v c t r : is_special c = true -> vbyte c = true -> exists k n,
  special_token true c (t ++ "`"%char :: r) = (Tok k n, false) /\ 1 <= n <= S (length t) /\ k <> LSeq Backtick.
Proof.
  pose proof (hyphen_bt t r) as Hh. pose proof (count_bt (fun c => beq c ".") t r eq_refl) as Hp.
  assert (Hd : forall f k k', f "`"%char = false -> k <> LSeq Backtick -> k' <> LSeq Backtick -> exists k0 n,
    (if hd_is f (t ++ "`"%char :: r) then Tok k 2 else Tok k' 1, false) = (Tok k0 n, false) /\ 1 <= n <= S (length t) /\ k0 <> LSeq Backtick).
  { intros f k k' Hf H1 H2. destruct (hd_is f (t ++ "`"%char :: r)) eqn:E.
    - apply hd_bt in E; [|exact Hf]. eexists _, _. split; [reflexivity|]. split; [lia|auto].
    - eexists _, _. split; [reflexivity|]. split; [lia|auto]. }
  assert (Hn : forall k, k <> LSeq Backtick -> exists k0 n, (Tok k 1, false) = (Tok k0 n, false) /\ 1 <= n <= S (length t) /\ k0 <> LSeq Backtick).
  { intros k Hk. eexists _, _. split; [reflexivity|]. split; [lia|exact Hk]. }
  assert (Hm : forall k d, k <> LSeq Backtick -> exists k0 n, (maybe_close k d (t ++ "`"%char :: r), false) = (Tok k0 n, false) /\ 1 <= n <= S (length t) /\ k0 <> LSeq Backtick)
    by (intros k d Hk; apply Hd; [reflexivity|discriminate|exact Hk]).
  assert (Hob : exists k0 n, match t ++ "`"%char :: r with
     | c' :: _ => match open_brace c' with Some d => (Tok (LOpen d) 2, false) | None => (Tok (LOpen Brace) 1, false) end
     | [] => (Tok (LOpen Brace) 1, false) end = (Tok k0 n, false) /\ 1 <= n <= S (length t) /\ k0 <> LSeq Backtick).
  { destruct t as [|d t]; [apply Hn; discriminate|]. cbn [app length]. destruct (open_brace d); (eexists _, _; split; [reflexivity|]; split; [lia|discriminate]). }
  assert (Hbs : exists k0 n, (if hd_is (fun c => is_ws c || is_punct c) (t ++ "`"%char :: r) then (Tok LEscape 1, negb true) else (Tok LText 1, false)) = (Tok k0 n, false) /\ 1 <= n <= S (length t) /\ k0 <> LSeq Backtick).
  { destruct (hd_is _ _); apply Hn; discriminate. }
  assert (Hhy : exists k0 n, (if hd_is (fun c => beq c "}") (t ++ "`"%char :: r) then (Tok (LClose BraceHyphen) 2, false) else (Tok (LSeq Hyphen) (S (hyphen_run (t ++ "`"%char :: r))), false)) = (Tok k0 n, false) /\ 1 <= n <= S (length t) /\ k0 <> LSeq Backtick).
  { destruct (hd_is (fun c => beq c "}") (t ++ "`"%char :: r)) eqn:E; [apply hd_bt in E; [|reflexivity]|]; (eexists _, _; split; [reflexivity|]; split; [lia|discriminate]). }
  assert (Hex : exists k0 n, (if hd_is (fun c => beq c "[") (t ++ "`"%char :: r) then (Tok (LSym ExclaimBracket) 2, false) else (Tok LText 1, false)) = (Tok k0 n, false) /\ 1 <= n <= S (length t) /\ k0 <> LSeq Backtick).
  { destruct (hd_is (fun c => beq c "[") (t ++ "`"%char :: r)) eqn:E; [apply hd_bt in E; [|reflexivity]|]; (eexists _, _; split; [reflexivity|]; split; [lia|discriminate]). }
  intros Hs Hv. destruct c as [[][][][][][][][]]; try discriminate Hs; try discriminate Hv;
    first [exact Hob|exact Hbs|exact Hhy|exact Hex|apply Hm; discriminate|apply Hn; discriminate
          |eexists _, _; split; [reflexivity|split; [lia|discriminate]]].
Qed.
Lemma vscan t r : forallb vbyte t = true -> t <> [] -> exists k n,
  scan true false (t ++ "`"%char :: r) = (Some (Tok k n), false) /\ 1 <= n <= length t /\ k <> LSeq Backtick.
Proof.
  intros Hb Hne. destruct t as [|c t]; [congruence|]. cbn [forallb] in Hb. apply andb_prop in Hb as [Hc _]. clear Hne.
  cbn [app length].
  destruct (is_special c) eqn:Es.
  - rewrite scan_special by exact Es.
    destruct (special_v c t r Es Hc) as (k & n & E & A1 & A2). exists k, n. rewrite E. auto.
  - rewrite scan_plain by (cbn; rewrite Es; reflexivity).
    eexists _, _. split; [reflexivity|]. split; [|discriminate]. cbn [count_while]. rewrite Es. cbn [negb].
    pose proof (count_bt (fun c => negb (is_special c)) t r eq_refl). lia.
Qed.

Lemma vlex l t r : forallb vbyte t = true -> t <> [] -> LV true l (t ++ "`"%char :: r) ->
  pc (fun x => exists k n, fst x = Some (Tok k n) /\ 1 <= n <= length t /\ k <> LSeq Backtick /\ LV true (snd x) (skipn n t ++ "`"%char :: r)) (lex_next l).
Proof.
  intros Hb Hne HV. destruct (vscan t r Hb Hne) as (k & n & E & Hn & Hk).
  assert (Hsk : forall n, n <= length t -> skipn n (t ++ "`"%char :: r) = skipn n t ++ "`"%char :: r).
  { intros m Hm. rewrite skipn_app. replace (m - length t) with 0 by lia. reflexivity. }
  destruct (is_text (Some (Tok k n))) eqn:Et.
  2:{ destruct (lex_special _ _ _ _ _ HV E Et) as (l' & A & B). rewrite A. apply pc_ok. exists k, n.
      cbn [tlen] in B. rewrite Hsk in B by lia. repeat split; auto; try lia. left. exact B. }
  destruct k; try discriminate Et. destruct HV as [HV|HV].
  - pose proof HV as (H1 & _). unfold lex_next. rewrite H1. unfold next_token. rewrite (LX_token _ _ _ _ HV _ _ E).
    pose proof (LX_after _ _ _ _ _ _ HV E) as H2. cbn [tlen] in *.
    eapply pc_bind; [eapply (text_run_is true (fun k r' => k <= length t /\ r' = skipn k t ++ "`"%char :: r)) with (k := n)|].
    + intros j r0 n0 e0 [A ->] B'. destruct (skipn j t) as [|c t'] eqn:Ej.
      * cbn [app] in B'. rewrite scan_special in B' by reflexivity. cbn in B'. discriminate B'.
      * assert (Hb' : forallb vbyte (c :: t') = true).
        { rewrite <- Ej. rewrite forallb_forall in *. intros x Hx. apply Hb. rewrite <- (firstn_skipn j t). apply in_or_app. right. exact Hx. }
        destruct (vscan (c :: t') r Hb' ltac:(discriminate)) as (k1 & n1 & E1 & Hn1 & _). rewrite E1 in B'.
        apply (f_equal fst) in B' as B1. apply (f_equal snd) in B' as B2. cbn [fst snd] in *. split; [|auto].
        assert (n1 = n0) as <- by congruence.
        assert (length t = j + length (c :: t')) as Hl by (rewrite <- Ej, skipn_length; lia).
        split; [lia|]. rewrite <- skipn_skipn, Ej. rewrite (skipn_app n1). replace (n1 - length (c :: t')) with 0 by lia. reflexivity.
    + exact H2.
    + split; [lia|]. rewrite Hsk by lia. reflexivity.
    + intros [t1 l'] (k' & r' & A1 & A2 & [A3 A3'] & A4 & A5 & A6). cbn [fst snd] in *. subst t1. apply pc_ok. cbn [fst snd].
      exists LText, (n + (k' - n)). replace (n + (k' - n)) with k' by lia. rewrite A3' in A6. repeat split; auto; try lia.
  - destruct HV as (t1 & H1 & H2 & H3 & H4 & H5 & H6 & H7). rewrite E in H2.
    assert (t1 = Tok LText n) as -> by congruence. assert (lx_esc l = false) as He by congruence.
    unfold lex_next. rewrite H1. apply pc_ok. cbn [fst snd]. exists LText, n. split; [reflexivity|]. split; [lia|]. split; [discriminate|].
    left. rewrite <- Hsk by lia. repeat split; cbn in *; auto.
Qed.

Lemma vscan_same r : hd_is (fun c => beq c BSL) r = false -> scan true false r = scan false false r.
Proof.
  intros H. destruct r as [|c r]; [reflexivity|]. cbn in H. destruct (is_special c) eqn:E.
  - rewrite !scan_special by exact E. unfold special_token. rewrite H. reflexivity.
  - rewrite !scan_plain by (cbn; rewrite E; reflexivity). reflexivity.
Qed.
Lemma LV_verb_off l r : hd_is (fun c => beq c BSL) r = false -> LV true l r -> LV false (lex_set_verb l false) r.
Proof.
  intros H [(H1 & H2 & H3 & H4 & H5)|(t & H1 & H2 & H3 & H4 & H5 & H6 & H7)].
  - left. repeat split; cbn; auto.
  - right. exists t. rewrite <- vscan_same by exact H. repeat split; cbn; auto.
Qed.

Section Canon.
Variables (src : bytes) (pp : prepass).
Notation St := (PCan3.St src). Notation From := (PCan3.From src pp). Notation FromB := (PCan4.FromB src pp). Notation Out := (PCan2.Out src pp).
Notation cat := (PCan3.cat src). Notation lns := (PCan3.lns src). Notation here := (PCan3.here src).
Notation Den := (PCan2.Den src pp). Notation ev1 := (PCan2.ev1 src pp).

Definition strs (t : bytes) : list event := match t with [] => [] | _ => [Str t] end.
Lemma join_strs x t X : x <> [] -> join (Str x :: strs t ++ X) = join (Str (x ++ t) :: X).
Proof. intros H. destruct t as [|c t]; [cbn [strs app]; rewrite app_nil_r; reflexivity|]. apply join_str_str. Qed.

Lemma pc_first_f P r g : pc (fun y => fst y = Some FContinue /\ P (snd y)) r -> pc (fun y => fst y = Some FContinue /\ P (snd y)) (or_else r g).
Proof. apply pc_first. Qed.
Lemma handle_verb P s t : 
  pc (fun y => fst y = Some FContinue /\ P (snd y)) (parse_verbatim src s t) ->
  pc (fun y => fst y = FContinue /\ P (snd y)) (result (handle src s t)).
Proof. intros H. apply pc_result. unfold handle. do 6 apply pc_first. exact H. Qed.

(** In the middle of verbatim text. *)
Definition vbok (v : vstate) (E : list iev) : Prop :=
  vs_opener v = length E + 1 /\ vs_len v = 1 /\ match vs_last v with Some (LSeq Backtick, _) => False | _ => True end.
Lemma verb_loop ba cow0 O E0 T pre post : top O E0 pre -> FromB ba (LV false) cow0 O E0 T pre post true ->
  kind T <> Some (LOpen Brace) -> kind T <> Some (LOpen BraceEqual) ->
  hd_is (fun c => beq c "`") T = false -> hd_is (fun c => beq c BSL) T = false ->
  forall n t, length t < n -> forallb vbyte t = true -> forall lx line sp ls R D wc S DS v a,
  vbok v (E0 ++ R) -> Den (cow0 ++ wc) R D -> Den (cow0 ++ wc) S DS ->
  chain ((E0 ++ R) ++ [IE IPlaceholder (Sp a a); IE (IEnter CVerbatim) (Sp a (a + 1))] ++ S) (se sp) ->
  LV true lx (slice src (Sp (se sp) (se line))) -> ss line <= se sp -> se sp <= se line -> lns (slice src (Sp (se sp) (se line))) ls ->
  t ++ "`"%char :: T = slice src (Sp (se sp) (se line)) ++ cat ls ->
  Out (IS (In lx (is_nil ls) line [] sp) O ((E0 ++ R) ++ [IE IPlaceholder (Sp a a); IE (IEnter CVerbatim) (Sp a (a + 1))] ++ S) (Some v) None (cow0 ++ wc) [])
      ls (join (pre ++ D ++ Start Verbatim [] :: DS ++ strs t ++ End_ Verbatim :: post)).
Proof.
  intros Htop HF Hk1 Hk2 Hbt Hbs. induction n as [|n IH]; intros t Hlen Ht lx line sp ls R D wc S DS v a Hv HR HS HC HL L1 L2 Hln ET; [lia|].
  set (base := (E0 ++ R) ++ [IE IPlaceholder (Sp a a); IE (IEnter CVerbatim) (Sp a (a + 1))] ++ S) in *.
  apply Out_step; [unfold must_buffer; cbn [s_events s_openers s_verb s_attr is_none negb]; rewrite !orb_true_r; reflexivity|].
  rewrite pe_eq. destruct t as [|c t].
  - (* the closing backtick *)
    cbn [app] in ET. destruct (lns_split _ ["`"%char] T _ _ Hln ET) as (r' & Er & ET' & Hr'); [intros [K|[]]; discriminate K|].
    destruct (slice_prefix _ _ _ _ _ Er L2) as (B1 & B2 & B3). change (length ["`"%char]) with 1 in *. cbn [app] in Er.
    rewrite Er in HL.
    assert (Esc : scan true false ("`"%char :: r') = (Some (Tok (LSeq Backtick) 1), false)).
    { rewrite scan_special by reflexivity. rewrite ET', lns_hd in Hbt by exact Hr'. cbn.
      destruct r' as [|d r']; [reflexivity|]. cbn in *. rewrite Hbt. reflexivity. }
    destruct (lex_special _ _ _ _ _ HL Esc eq_refl) as (l1 & E1 & H1). rewrite E1. cbn [bind tlen].
    cbn [tlen skipn] in H1.
    refine (handle_verb (fun y => Out y ls _) _ _ _).
    unfold parse_verbatim. cbn [s_verb tk tlen]. destruct Hv as (V1 & V2 & V3). rewrite V2. cbn [Nat.eqb andb].
    unfold ahead_raw_format, in_peek. cbn [s_in i_lex].
    assert (Hbs' : hd_is (fun c => beq c BSL) r' = false) by (rewrite ET', lns_hd in Hbs by exact Hr'; exact Hbs).
    destruct (scan true false r') as [t2 e2] eqn:E2. destruct (lex_peek_is true l1 r' _ _ (or_introl H1) E2) as (l2 & P2 & H2 & _).
    rewrite P2. rewrite vscan_same in E2 by exact Hbs'.
    rewrite <- (kind_line src T r' ls ET' Hr') in Hk1, Hk2. unfold kind in Hk1, Hk2. rewrite E2 in Hk1, Hk2.
    assert (peek_is_open t2 BraceEqual = false) as ->. { destruct t2 as [[[] ?]|]; try reflexivity. destruct d; try reflexivity. cbn in Hk2. congruence. }
    cbn [bind]. ist.
    rewrite V1. unfold base at 1. change ([?p; ?q] ++ ?r) with ([p] ++ q :: r). rewrite (app_assoc (E0 ++ R)).
    rewrite get_mid by (rewrite (app_length (E0 ++ R)); reflexivity). cbn [bind ik is_verb_cont assert].
    assert ((match vs_last v with
             | Some (LSeq Backtick, skip) => let! _ := assert (Nat.leb skip (length base)) "inline.rs:327" in
                 Ok (IS (In l2 (is_nil ls) line [] (Sp (se sp) (se sp + 1))) O (firstn skip base) (Some v) None (cow0 ++ wc) [])
             | _ => Ok (IS (In l2 (is_nil ls) line [] (Sp (se sp) (se sp + 1))) O base (Some v) None (cow0 ++ wc) [])
             end) = Ok (IS (In l2 (is_nil ls) line [] (Sp (se sp) (se sp + 1))) O base (Some v) None (cow0 ++ wc) [])) as ->.
    { destruct (vs_last v) as [[[| | | | | | | |[]] ?]|]; try reflexivity. contradiction. }
    ist.
    pose proof (LV_verb_off _ _ Hbs' H2) as H3.
    destruct (lex_peek_is false (lex_set_verb l2 false) r' _ _ H3 E2) as (l4 & P4 & H4 & _). rewrite P4.
    assert (peek_is_open t2 Brace = false) as ->. { destruct t2 as [[[] ?]|]; try reflexivity. destruct d; try reflexivity. cbn in Hk1. congruence. }
    apply pc_ok. split; [reflexivity|]. cbn [snd strs app].
    set (NEW := [IE IPlaceholder (Sp a a); IE (IEnter CVerbatim) (Sp a (a + 1))] ++ S ++ [IE (IExit CVerbatim) (Sp (se sp) (se sp + 1))]).
    assert (EN : base ++ [IE (IExit CVerbatim) (Sp (se sp) (se sp + 1))] = (E0 ++ R) ++ NEW)
      by (unfold base, NEW; rewrite <- !app_assoc; reflexivity).
    rewrite EN. replace (join _) with (join (pre ++ D ++ ([Start Verbatim []] ++ DS ++ [End_ Verbatim]) ++ post)) by (rewrite <- !app_assoc; reflexivity).
    eapply push_moreB with (b := ba) (new := NEW); [exact HF|exact HR| | | | | |].
    + unfold NEW. change ([?p; ?q] ++ ?r) with ([p] ++ [q] ++ r). rewrite <- (app_nil_l ([Start Verbatim []] ++ _)).
      apply Den_app; [apply Den_one; split; reflexivity|]. apply Den_app; [apply Den_one; exists Verbatim, []; auto|].
      apply Den_app; [exact HS|]. apply Den_one. exists Verbatim, []; auto.
    + assert (Hh : here ls T r' line (se sp) ["`"%char]) by (repeat split; auto).
      apply (St_mk src _ _ _ _ _ _ _ _ ["`"%char] _ _ _ Hh H4).
    + rewrite <- EN. eapply chain_push; [exact HC|intros K; discriminate K].
    + unfold NEW. rewrite !app_assoc. apply lastok_push. exact I.
    + discriminate.
    + assert (Hh : here ls T r' line (se sp) ["`"%char]) by (repeat split; auto).
      intros _. apply (ws_before_last src (se sp) ["`"%char]); [discriminate|apply Hh|reflexivity].
  - (* some text *)
    assert (Hn : no_nl (c :: t)). { intros K. rewrite forallb_forall in Ht. specialize (Ht _ K). discriminate Ht. }
    destruct (lns_split _ _ _ _ _ Hln ET) as (r1 & Er & ET1 & Hr1); [exact Hn|].
    destruct (lns_split _ ["`"%char] T _ _ Hr1 ET1) as (r' & Er' & ET' & Hr'); [intros [K|[]]; discriminate K|].
    subst r1. rewrite Er in HL. cbn [app] in HL.
    eapply pc_bind; [apply (vlex lx (c :: t) r' Ht ltac:(discriminate) HL)|].
    intros [t1 l1] (k & m & A1 & A2 & A3 & A4). cbn [fst snd] in *. subst t1. cbn [tlen].
    refine (handle_verb (fun y => Out y ls _) _ _ _).
    unfold parse_verbatim. cbn [s_verb tk tlen]. pose proof Hv as (V1 & V2 & V3). rewrite V2.
    assert (Nat.eqb 1 m && match k with LSeq Backtick => true | _ => false end = false) as ->.
    { destruct k as [| | | | | | | |[]]; rewrite ?andb_false_r; auto. congruence. }
    eapply pc_bind; [apply pc_bsub|]. intros b Hb. unfold s_span in Hb. cbn [s_in i_span] in Hb.
    set (x := firstn m (c :: t)) in *. set (t' := skipn m (c :: t)) in *.
    assert (Ex : c :: t = x ++ t') by (symmetry; apply firstn_skipn).
    assert (Hlx : length x = m) by (unfold x; rewrite firstn_length; lia).
    assert (Er2 : slice src (Sp (se sp) (se line)) = x ++ (t' ++ "`"%char :: r')) by (rewrite Er, Ex, <- app_assoc; reflexivity).
    destruct (slice_prefix _ _ _ _ _ Er2 L2) as (B1 & B2 & B3). rewrite Hlx in B1, B2, B3.
    assert (Hx : x <> []) by (intros K; rewrite K in Hlx; cbn in Hlx; lia).
    (* the next state *)
    assert (Hnext : forall l2 v', LV true l2 (t' ++ "`"%char :: r') -> vbok v' (E0 ++ R) ->
      Out (IS (In l2 (is_nil ls) line [] (Sp (se sp) (se sp + m))) O (base ++ [IE IStr (Sp (se sp) (se sp + m))]) (Some v') None (cow0 ++ wc) []) ls
          (join (pre ++ D ++ Start Verbatim [] :: DS ++ strs (c :: t) ++ End_ Verbatim :: post))).
    { intros l2 v' HL2 Hv'.
      assert (join (pre ++ D ++ Start Verbatim [] :: DS ++ strs (c :: t) ++ End_ Verbatim :: post)
              = join (pre ++ D ++ Start Verbatim [] :: (DS ++ [Str x]) ++ strs t' ++ End_ Verbatim :: post)) as ->.
      { apply join_app_r, join_app_r, join_cons. rewrite <- app_assoc. apply join_app_r. cbn [strs app]. symmetry. rewrite Ex. apply join_strs. exact Hx. }
      unfold base. rewrite <- (app_assoc (E0 ++ R)), <- (app_assoc [_; _]).
      apply (IH t'); cbn [se]; auto.
      - assert (length (c :: t) = length x + length t') by (rewrite Ex; apply app_length). lia.
      - unfold t'. rewrite forallb_forall in *. intros y Hy. apply Ht. rewrite Ex. apply in_or_app. right. exact Hy.
      - apply Den_app; [exact HS|]. apply Den_one. apply str_ev; [exact B1|exact Hx].
      - rewrite (app_assoc [_; _]), (app_assoc (E0 ++ R)). eapply chain_push; [exact HC|]. cbn. auto.
      - rewrite B2. exact HL2.
      - lia.
      - rewrite B2. apply (lns_skip src x); [|rewrite <- Er2; exact Hln].
        rewrite Ex in Hn. apply no_nl_app in Hn. tauto.
      - rewrite B2, <- app_assoc. cbn [app]. rewrite ET'. reflexivity. }
    assert (HvL : forall nw kk, kk <> LSeq Backtick -> vbok (VS (vs_opener v) 1 nw (Some (kk, length base + 1))) (E0 ++ R)).
    { intros nw kk Hkk. repeat split; auto. cbn. destruct kk as [| | | | | | | |[]]; auto. }
    destruct (forallb is_ws b).
    + destruct (vs_nonws v); cbn [negb andb].
      * apply pc_ok. split; [reflexivity|]. cbn [snd]. ist. apply Hnext; auto.
      * unfold s_peek, in_peek. cbn [s_in i_lex].
        destruct (scan true false (t' ++ "`"%char :: r')) as [t2 e2] eqn:E2.
        destruct (lex_peek_is true l1 _ _ _ A4 E2) as (l2 & P2 & H2 & _). rewrite P2.
        assert (match t2 with Some (Tok (LSeq Backtick) n0) => negb (Nat.eqb n0 1) | _ => false end = false) as ->.
        { destruct t' as [|c' t'0] eqn:Et'.
          - cbn [app] in E2. rewrite scan_special in E2 by reflexivity. rewrite ET', lns_hd in Hbt by exact Hr'.
            assert (special_token true "`"%char r' = (Tok (LSeq Backtick) 1, false)) as K.
            { destruct r' as [|d r']; [reflexivity|]. cbn in *. rewrite Hbt. reflexivity. }
            rewrite K in E2. apply (f_equal fst) in E2. cbn [fst] in E2. subst t2. reflexivity.
          - destruct (vscan (c' :: t'0) r') as (k1 & n1 & E3 & _ & K3); [|discriminate|].
            + rewrite <- Et'. rewrite forallb_forall in *. intros y Hy. apply Ht. rewrite Ex. apply in_or_app. right. rewrite <- Et'. exact Hy.
            + rewrite E3 in E2. apply (f_equal fst) in E2. cbn [fst] in E2. subst t2. destruct k1 as [| | | | | | | |[]]; auto. congruence. }
        apply pc_ok. split; [reflexivity|]. cbn [snd]. ist. apply Hnext; auto.
    + apply pc_ok. split; [reflexivity|]. cbn [snd]. ist. apply Hnext; [exact A4|apply HvL; exact A3].
Qed.

Lemma From_code ba t cow0 O E0 T pre post ne : top O E0 pre -> FromB ba (LV false) cow0 O E0 T pre post true ->
  kind T <> Some (LOpen Brace) -> kind T <> Some (LOpen BraceEqual) ->
  hd_is (fun c => beq c "`") T = false -> hd_is (fun c => beq c BSL) T = false ->
  forallb vbyte t = true -> t <> [] ->
  From (LV false) cow0 O E0 (B "`" ++ t ++ B "`" ++ T) pre (Start Verbatim [] :: Str t :: End_ Verbatim :: post) ne.
Proof.
  intros Htop HF Hk1 Hk2 Hbt Hbs Ht Hne. apply From_wlog; [exact Htop|].
  intros s ls R D wc M HS HD HC HL _.
  assert (Hn : no_nl t). { intros K. rewrite forallb_forall in Ht. specialize (Ht _ K). discriminate Ht. }
  eapply (step_tok _ _ _ _ _ _ _ (B "`") (t ++ B "`" ++ T) (Tok (LSeq Backtick) 1) false); [exact HS|exact M| |reflexivity|reflexivity| |].
  - intros [K|[]]; discriminate K.
  - intros r' ET Hr. change (B "`" ++ r') with ("`"%char :: r'). rewrite scan_special by reflexivity.
    assert (hd_is (fun c => beq c "`") r' = false) as Hh.
    { rewrite <- (lns_hd src r' ls) by exact Hr. rewrite <- ET. destruct t as [|c t]; [congruence|]. cbn in *. apply andb_prop in Ht as [Ht _]. apply andb_prop in Ht as [Ht _]. apply negb_true_iff in Ht. exact Ht. }
    cbn. destruct r' as [|d r']; [reflexivity|]. cbn in *. rewrite Hh. reflexivity.
  - intros l' line r' HV Hh. refine (handle_verb (fun y => Out y ls _) _ _ _).
    unfold parse_verbatim. cbn [s_verb tk tlen]. change (Nat.ltb 1 256) with true. cbn iota.
    assert (Hty : verb_type src (IS (In l' (is_nil ls) line [] (Sp (pos s) (pos s + length (B "`")))) O (E0 ++ R) None None (cow0 ++ wc) []) = Ok (CVerbatim, 0)
                  \/ ~ exists y, verb_type src (IS (In l' (is_nil ls) line [] (Sp (pos s) (pos s + length (B "`")))) O (E0 ++ R) None None (cow0 ++ wc) []) = Ok y).
    { unfold verb_type. cbn [s_events]. unfold lastok in HL. destruct (last_opt (E0 ++ R)) as [[k sp]|]; [|left; reflexivity].
      destruct k; try (left; reflexivity). cbn [ik isp] in HL. destruct (Nat.eqb_spec (se sp) (ss (s_span (IS (In l' (is_nil ls) line [] (Sp (pos s) (pos s + length (B "`")))) O (E0 ++ R) None None (cow0 ++ wc) [])))) as [Ee|Ee]; [|left; reflexivity].
      destruct (usub (ss sp + sp_len sp) 1 "inline.rs:378") as [i| |] eqn:Eu; [|right; intros [y K]; discriminate K|right; intros [y K]; discriminate K].
      cbn [bind]. unfold byte_is. destruct (get_at src i "inline.rs:378") as [d| |] eqn:Eg; [|right; intros [y K]; discriminate K|right; intros [y K]; discriminate K].
      cbn [bind]. apply usub_ok in Eu as [L ->]. apply get_at_ok in Eg.
      destruct (beq d "$") eqn:Ed; [|left; reflexivity]. exfalso. apply Ascii.eqb_eq in Ed. subst d. apply HL. rewrite <- Eg. f_equal. clear Eg.
      destruct HL as [HL _]. unfold sp_len. lia. }
    eapply pc_bind_eq. intros y Hy. destruct Hty as [Hty|Hty]; [|exfalso; apply Hty; eauto]. rewrite Hty in Hy. injection Hy as <-. cbn [bind].
    ist. cbn [ss se].
    apply pc_ok. split; [reflexivity|]. cbn [snd].
    rewrite <- (app_assoc (E0 ++ R)). cbn [app].
    rewrite <- (app_nil_r [_; _]).
    replace (join _) with (join (pre ++ D ++ Start Verbatim [] :: [] ++ strs t ++ End_ Verbatim :: post)) by (destruct t; [congruence|reflexivity]).
    destruct Hh as (Q1 & Q2 & Q3 & Q4 & Q5 & Q6). change (length (B "`")) with 1 in *.
    apply (verb_loop ba cow0 O E0 T pre post Htop HF Hk1 Hk2 Hbt Hbs (S (length t)) t); cbn [se]; auto; try lia.
    + repeat split; cbn; auto. rewrite app_length. cbn. reflexivity.
    + constructor.
    + rewrite app_nil_r. change [?a; ?b] with ([a] ++ [b]). rewrite app_assoc. eapply chain_push with (p := pos s); [|intros K; discriminate K].
      eapply chain_push; [exact HC|]. cbn; auto.
    + rewrite Q4. destruct HV as (W1 & W2 & W3 & W4 & W5). left. repeat split; cbn; auto.
    + rewrite Q4. exact Q2.
    + rewrite Q4. exact Q1.
Qed.
End Canon.
