(** * PCan6: hyphens, symbols, footnote references *)
From Verif Require Import Base Lex Attr Inline Block Doc Lib PSafe PCan1 PCan2 PCan3 PCan4 PCan5.
From Verif Require Import SpecCanon.
Local Open Scope nat_scope.

Section Canon.
Variables (src : bytes) (pp : prepass).
Notation St := (PCan3.St src). Notation FromB := (PCan4.FromB src pp). Notation From := (PCan3.From src pp). Notation Out := (PCan2.Out src pp).
Notation cat := (PCan3.cat src). Notation lns := (PCan3.lns src). Notation here := (PCan3.here src).
Notation Den := (PCan2.Den src pp). Notation ev1 := (PCan2.ev1 src pp).

(** *** Hyphens *)
Lemma hyphen_run_line T r ls : T = r ++ cat ls -> lns r ls -> hyphen_run T = 0 -> hyphen_run r = 0.
Proof.
  intros -> H. destruct r as [|c r]; [reflexivity|]. destruct r as [|d r]; [|cbn [app hyphen_run hd_is]; destruct (_ && _); [discriminate|auto]].
  destruct ls as [|l ls]; [cbn; auto|]. destruct H as [(r0 & E & _) _].
  assert (c = NL) as -> by (destruct r0 as [|? [|]]; cbn in E; congruence). reflexivity.
Qed.
Lemma hyphen_repeat n r : hyphen_run r = 0 -> hd_is (fun c => beq c "}") r = false -> hyphen_run (repeat "-"%char n ++ r) = n.
Proof.
  intros H1 H2. induction n as [|n IH]; [exact H1|]. cbn [repeat app hyphen_run].
  assert (hd_is (fun c => beq c "}") (repeat "-"%char n ++ r) = false) as -> by (destruct n; [exact H2|reflexivity]).
  cbn. rewrite IH. reflexivity.
Qed.
Lemma find_en_is len f n k : find_en f len n = Ok k -> len mod 3 <> 0 -> n = 1 -> 
  (len mod 3 = 2 /\ k = 1) \/ (len mod 3 = 1 /\ k = 2 /\ 4 <= len).
Proof.
  intros H H3 ->. destruct f as [|f]; [discriminate H|]. cbn [find_en] in H.
  apply bind_ok in H as (d & E & H). apply usub_ok in E as [L ->].
  pose proof (Nat.div_mod len 3 ltac:(lia)) as Hd. pose proof (Nat.mod_upper_bound len 3 ltac:(lia)) as Hb.
  remember (len / 3) as q. remember (len mod 3) as m.
  destruct (Nat.eqb_spec ((len - 2 * 1) mod 3) 0) as [K|K].
  - injection H as <-. left. split; [|reflexivity]. apply Nat.mod_divides in K as [j K]; lia.
  - assert (m = 1) as ->.
    { destruct m as [|[|[|]]]; try lia. exfalso. apply K. replace (len - 2 * 1) with (q * 3) by lia. apply Nat.mod_mul. lia. }
    right. split; [reflexivity|]. destruct f as [|f]; [discriminate H|]. cbn [find_en] in H.
    apply bind_ok in H as (d & E & H). apply usub_ok in E as [L' ->].
    destruct (Nat.eqb_spec ((len - 2 * 2) mod 3) 0) as [K'|K'].
    + injection H as <-. split; [reflexivity|lia].
    + exfalso. apply K'. replace (len - 2 * 2) with ((q - 1) * 3) by lia. apply Nat.mod_mul. lia.
Qed.
Lemma dash_counts_is n : 2 <= n -> pc (fun x => dash_events n = repeat EmDash (fst x) ++ repeat EnDash (snd x) /\ fst x + snd x <> 0) (dash_counts n).
Proof.
  intros Hn [m k] H. unfold dash_counts in H. unfold dash_events. cbn [fst snd].
  assert (Nat.eqb n 1 = false) as -> by (apply Nat.eqb_neq; lia).
  pose proof (Nat.div_mod n 3 ltac:(lia)) as Hd. pose proof (Nat.mod_upper_bound n 3 ltac:(lia)) as Hb.
  destruct (Nat.eqb_spec (n mod 3) 0) as [K|K].
  - injection H as <- <-. cbn [repeat]. rewrite app_nil_r. split; [reflexivity|]. change (n / 3 + 0 <> 0). lia.
  - destruct (Nat.eqb_spec (n mod 2) 0) as [K2|K2].
    + injection H as <- <-. split; [reflexivity|]. pose proof (Nat.div_mod n 2 ltac:(lia)). change (0 + n / 2 <> 0). lia.
    + apply bind_ok in H as (j & E & H). apply bind_ok in H as (d & E2 & H). apply usub_ok in E2 as [L ->].
      injection H as <- <-.
      destruct (find_en_is _ _ _ _ E K eq_refl) as [[A ->]|(A & -> & B)]; rewrite A; cbn [Nat.eqb repeat]; (split; [reflexivity|apply Nat.neq_sym, Nat.lt_neq, Nat.add_pos_r; lia]).
Qed.

Lemma push_dashes_is w a n : strl (IE (IAtom a) (Sp 0 0)) = false -> forall l cpl line x y O E cow,
  exists new x', push_dashes n w a (IS (In l cpl line [] (Sp x y)) O E None None cow []) = IS (In l cpl line [] (Sp x' y)) O (E ++ new) None None cow []
       /\ Den cow new (repeat (atom_event a) n) /\ length new = n /\ (forall e, List.In e new -> ik e = IAtom a).
Proof.
  intros Ha. induction n as [|n IH]; intros l cpl line x y O E cow.
  - exists [], x. cbn. rewrite app_nil_r. repeat split; auto; [constructor|intros e []].
  - change (push_dashes (S n) w a (IS (In l cpl line [] (Sp x y)) O E None None cow []))
      with (push_dashes n w a (IS (In l cpl line [] (Sp (x + w) y)) O (E ++ [IE (IAtom a) (Sp x (x + w))]) None None cow [])).
    destruct (IH l cpl line (x + w) y O (E ++ [IE (IAtom a) (Sp x (x + w))]) cow) as (new & x' & -> & A1 & A2 & A3).
    exists (IE (IAtom a) (Sp x (x + w)) :: new), x'. repeat split.
    + rewrite <- app_assoc. reflexivity.
    + cbn [repeat]. change (?e :: ?l) with ([e] ++ l). constructor; auto. reflexivity.
    + cbn. lia.
    + intros e [<-|He]; auto.
Qed.

Lemma From_dash cow0 O E0 n T pre post ne : top O E0 pre -> From (LV false) cow0 O E0 T pre post true ->
  1 <= n -> hyphen_run T = 0 -> hd_is (fun c => beq c "}") T = false ->
  From (LV false) cow0 O E0 (repeat "-"%char n ++ T) pre (dash_events n ++ post) ne.
Proof.
  intros Htop HF Hn Hrun Hhd. apply From_wlog; [exact Htop|].
  intros s ls R D w M HS HD HC HL _.
  eapply (step_tok _ _ _ _ _ _ _ (repeat "-"%char n) T (Tok (LSeq Hyphen) n) false); eauto.
  - apply repeat_no_nl. discriminate.
  - rewrite repeat_length. reflexivity.
  - intros r' ET Hr. destruct n as [|n]; [lia|]. cbn [repeat app]. rewrite scan_special by reflexivity.
    pose proof (hyphen_run_line _ _ _ ET Hr Hrun) as Hrun'. rewrite ET, lns_hd in Hhd by exact Hr.
    unfold special_token. cbn [beq Ascii.eqb Bool.eqb].
    assert (hd_is (fun c => beq c "}") (repeat "-"%char n ++ r') = false) as Hx by (destruct n; [exact Hhd|reflexivity]).
    change ((Some (fst (if hd_is (fun c => beq c "}") (repeat "-"%char n ++ r') then (Tok (LClose BraceHyphen) 2, false) else (Tok (LSeq Hyphen) (S (hyphen_run (repeat "-"%char n ++ r'))), false))),
             snd (if hd_is (fun c => beq c "}") (repeat "-"%char n ++ r') then (Tok (LClose BraceHyphen) 2, false) else (Tok (LSeq Hyphen) (S (hyphen_run (repeat "-"%char n ++ r'))), false))) = (Some (Tok (LSeq Hyphen) (S n)), false)).
    rewrite Hx, hyphen_repeat by auto. reflexivity.
  - intros l' line r' HV Hh. unfold result. rewrite handle_atom by (auto; noclose). cbn [parse_atom tk tlen].
    rewrite repeat_length.
    destruct (Nat.leb_spec 2 n) as [H2|H2].
    + eapply pc_bind with (P := fun y => exists new x',
        y = (Some FContinue, IS (In l' (is_nil ls) line [] (Sp x' (pos s + n))) O ((E0 ++ R) ++ new) None None (cow0 ++ w) [])
         /\ Den (cow0 ++ w) new (dash_events n) /\ new <> [] /\ (forall e, List.In e new -> exists a, ik e = IAtom a)).
      { eapply pc_bind; [apply dash_counts_is; exact H2|]. intros [m k] [Hm Hk]. cbn [fst snd] in *. apply pc_ok.
        destruct (push_dashes_is 3 IEmDash m eq_refl l' (is_nil ls) line (pos s) (pos s + n) O (E0 ++ R) (cow0 ++ w)) as (n1 & x1 & -> & A1 & A2 & A3).
        destruct (push_dashes_is 2 IEnDash k eq_refl l' (is_nil ls) line x1 (pos s + n) O ((E0 ++ R) ++ n1) (cow0 ++ w)) as (n2 & x2 & -> & B1 & B2 & B3).
        exists (n1 ++ n2), x2. rewrite app_assoc. split; [reflexivity|]. rewrite Hm. split; [apply Den_app; auto|]. split.
        - intros K. apply (f_equal (@length iev)) in K. rewrite app_length in K. cbn in K. lia.
        - intros e He. apply in_app_iff in He as [He|He]; eauto. }
      intros y (new & x' & -> & HN & Hne & Hns). apply pc_ok. split; [reflexivity|]. cbn [snd].
      assert (Hs' : forall e, List.In e new -> strl e = false) by (intros e He; destruct (Hns e He) as (a & Ea); unfold strl; rewrite Ea; reflexivity).
      eapply push_more with (new := new); [exact HF|exact HD|exact HN| | | |exact Hne].
      * pose proof (St_mk src O ((E0 ++ R) ++ new) (cow0 ++ w) ls T r' line (pos s)
                    (repeat "-"%char n) (LV false) l' x' Hh (or_introl HV)) as K.
        rewrite repeat_length in K. exact K.
      * eapply chain_atoms; eauto.
      * destruct (rev_case new) as [-> |(A & e & ->)]; [congruence|]. rewrite app_assoc. apply lastok_push.
        destruct (Hns e) as (a & ->); [apply in_or_app; right; left; reflexivity|]. exact I.
    + assert (n = 1) as -> by lia. cbn [bind]. apply pc_ok. split; [reflexivity|]. cbn [snd].
      eapply push_one with (p := pos s) (e := IE IStr (Sp (pos s) (pos s + 1))) (d := [Str (B "-")]); [exact HF|exact HD|exact HC| | |reflexivity| |].
      * apply str_ev; [apply Hh|discriminate].
      * cbn. intros _. split; reflexivity.
      * cbn [ik isp se]. rewrite (slice_last _ _ _ (B "-") "a"%char); [|apply Hh|reflexivity|discriminate]. discriminate.
      * apply (St_mk src _ _ _ _ _ _ _ _ (repeat "-"%char 1) _ _ _ Hh (or_introl HV)).
Qed.

(** *** More of the line *)
Lemma here_more ls T r line p x y : here ls (y ++ T) r line p x -> no_nl y ->
  exists r', r = y ++ r' /\ here ls T r' line p (x ++ y) /\ slice src (Sp (p + length x) (p + length x + length y)) = y.
Proof.
  intros (H1 & H2 & H3 & H4 & H5 & H6) Hy.
  destruct (lns_split _ _ _ _ _ H2 H1 Hy) as (r' & -> & ET & Hr).
  destruct (slice_prefix _ _ _ _ _ H4 H6) as (A1 & A2 & A3).
  exists r'. split; [reflexivity|]. split; [|exact A1]. unfold PCan3.here. rewrite app_length.
  split; [exact ET|]. split; [exact Hr|]. rewrite Nat.add_assoc. split; [|split; [exact A2|split; auto; lia]].
  rewrite <- (slice_app _ p (p + length x)) by lia. rewrite H3, A1. reflexivity.
Qed.

Lemma scan_until_is stop x c r : forallb (fun c => negb (stop c)) x = true -> stop c = true ->
  scan_until stop (x ++ c :: r) = (length x, Some c).
Proof.
  intros H1 H2. unfold scan_until. rewrite count_while_stop by (auto; cbn; rewrite H2; reflexivity).
  rewrite nth_error_app2 by lia. rewrite Nat.sub_diag. reflexivity.
Qed.


(** One of the alternatives of [handle] takes the token. *)
Lemma pc_first P r g : pc (fun y => fst y = Some FContinue /\ P (snd y)) r -> pc (fun y => fst y = Some FContinue /\ P (snd y)) (or_else r g).
Proof. intros H. unfold or_else. eapply pc_bind; [exact H|]. intros [o s] [A1 A2]. cbn in *. subst o. apply pc_ok. auto. Qed.
Lemma pc_result P r : pc (fun y => fst y = Some FContinue /\ P (snd y)) r -> pc (fun y => fst y = FContinue /\ P (snd y)) (result r).
Proof. intros H. unfold result. eapply pc_bind; [exact H|]. intros [o s] [A1 A2]. cbn in *. subst o. apply pc_ok. auto. Qed.
Lemma handle_symbol P i O E cow ats n : let s := IS i O E None None cow ats in
  pc (fun y => fst y = Some FContinue /\ P (snd y)) (parse_symbol src s (Tok (LSym Colon) n)) ->
  pc (fun y => fst y = FContinue /\ P (snd y)) (result (handle src s (Tok (LSym Colon) n))).
Proof. intros s H. apply pc_result. unfold handle. do 3 apply pc_first. exact H. Qed.
Lemma handle_note P i O E cow ats n : let s := IS i O E None None cow ats in
  pc (fun y => fst y = Some FContinue /\ P (snd y)) (parse_footnote_reference src s (Tok (LOpen Bracket) n)) ->
  pc (fun y => fst y = FContinue /\ P (snd y)) (result (handle src s (Tok (LOpen Bracket) n))).
Proof. intros s H. apply pc_result. unfold handle. do 2 apply pc_first. exact H. Qed.

Lemma handle_auto P i O E cow ats n : let s := IS i O E None None cow ats in
  pc (fun y => fst y = Some FContinue /\ P (snd y)) (parse_autolink src s (Tok (LSym Lt) n)) ->
  pc (fun y => fst y = FContinue /\ P (snd y)) (result (handle src s (Tok (LSym Lt) n))).
Proof. intros s H. apply pc_result. unfold handle. do 4 apply pc_first. exact H. Qed.

(** *** Autolinks *)
Lemma push_is l cpl line ah sp O E v a cow ats k :
  push (IS (In l cpl line ah sp) O E v a cow ats) k = IS (In l cpl line ah sp) O (E ++ [IE k sp]) v a cow ats.
Proof. reflexivity. Qed.
Lemma set_span_is l cpl line ah sp O E v a cow ats sp' :
  s_set_span (IS (In l cpl line ah sp) O E v a cow ats) sp' = IS (In l cpl line ah sp') O E v a cow ats.
Proof. reflexivity. Qed.
Lemma set_lex_is l cpl line ah sp O E v a cow ats l' :
  s_set_lex (IS (In l cpl line ah sp) O E v a cow ats) l' = IS (In l' cpl line ah sp) O E v a cow ats.
Proof. reflexivity. Qed.
Lemma From_auto b cow0 O E0 x T pre post ne : top O E0 pre -> FromB b (LV false) cow0 O E0 T pre post true ->
  forallb auto_byte x = true -> existsb (fun c => beq c ":" || beq c "@") x = true ->
  From (LV false) cow0 O E0 (B "<" ++ x ++ B ">" ++ T) pre
    (Start (Link x (auto_type x)) [] :: Str x :: End_ (Link x (auto_type x)) :: post) ne.
Proof.
  intros Htop HF Hx Hu. apply From_wlog; [exact Htop|].
  intros s ls R D w M HS HD HC HL _.
  assert (Hne : x <> []) by (intros ->; discriminate Hu).
  assert (Hn : no_nl (x ++ B ">")).
  { apply no_nl_app. split; [|intros [K|[]]; discriminate K]. intros K. rewrite forallb_forall in Hx. specialize (Hx _ K). discriminate Hx. }
  eapply (step_tok _ _ _ _ _ _ _ (B "<") (x ++ B ">" ++ T) (Tok (LSym Lt) 1) false); eauto.
  - intros [K|[]]; discriminate K.
  - intros l' line r1 HV Hh. rewrite (app_assoc x) in Hh.
    destruct (here_more _ _ _ _ _ _ _ Hh Hn) as (r' & -> & Hh' & Hsl).
    refine (handle_auto (fun y => Out y ls _) _ _ _ _ _ _ _). unfold parse_autolink. cbn [tk s_in i_lex].
    rewrite (lex_ahead_is false l' ((x ++ B ">") ++ r')) by (left; exact HV). cbn [bind].
    rewrite <- app_assoc. change (B ">" ++ r') with (">"%char :: r').
    rewrite scan_until_is; [|exact Hx|reflexivity].
    cbn [stopped_at]. change (beq ">" ">") with true. cbn [andb]. rewrite firstn_app, firstn_all, Nat.sub_diag. cbn [firstn]. rewrite app_nil_r, Hu.
    eapply pc_bind; [eapply (lex_skip_is false false l' _ (length x + 1) HV)|]. intros l2 HX.
    rewrite <- app_assoc, skipn_app, skipn_all2 in HX by lia.
    replace (length x + 1 - length x) with 1 in HX by lia. change (skipn 1 (B ">" ++ r')) with r' in HX. cbn [app] in HX.
    eapply pc_bind; [apply pc_ssub|]. intros sy Hsy.
    apply pc_ok. split; [reflexivity|]. cbn [snd].
    assert (Hx' : slice src (Sp (pos s + 1) (pos s + 1 + length x)) = x).
    { rewrite app_length in Hsl. destruct (slice_prefix src _ _ _ _ Hsl ltac:(lia)) as (A & _). exact A. }
    assert (sy = x) as -> by (rewrite <- Hsy; exact Hx').
    clear Hsy. change (length (B "<")) with 1 in *.
    rewrite set_lex_is. cbn [s_span s_in i_span se]. rewrite !push_is, set_span_is, push_is, set_span_is, push_is.
    replace (pos s + 1 + length x + 1) with (pos s + length (B "<" ++ x ++ B ">")) by (rewrite !app_length; change (length (B "<")) with 1; change (length (B ">")) with 1; lia).
    set (q := pos s + length (B "<" ++ x ++ B ">")).
    set (e1 := IE (IEnter (CAutolink x)) (Sp (pos s) (pos s + 1))).
    set (e2 := IE IStr (Sp (pos s + 1) (pos s + 1 + length x))).
    set (e3 := IE (IExit (CAutolink x)) (Sp (pos s + 1 + length x) q)).
    replace ((((E0 ++ R) ++ [e1]) ++ [e2]) ++ [e3]) with ((E0 ++ R) ++ [e1; e2; e3]) by (rewrite <- !app_assoc; reflexivity).
    change (join _) with (join (pre ++ D ++ [Start (Link x (auto_type x)) []; Str x; End_ (Link x (auto_type x))] ++ post)).
    eapply push_moreB with (new := [e1; e2; e3]); [exact HF|exact HD| | | | |discriminate|].
    + change [e1; e2; e3] with ([e1] ++ [e2] ++ [e3]). change [?a; ?b; ?c] with ([a] ++ [b] ++ [c]).
      apply Den_app; [apply Den_one; exists (Link x (auto_type x)), []; auto|].
      apply Den_app; [apply Den_one, str_ev; auto|]. apply Den_one. exists (Link x (auto_type x)), []; auto.
    + apply (St_mk src _ _ _ _ _ _ _ _ _ _ _ _ Hh'). left. exact HX.
    + change [e1; e2; e3] with ([e1] ++ [e2] ++ [e3]). rewrite !app_assoc.
      eapply chain_push with (p := pos s + 1 + length x); [|intros K; discriminate K].
      eapply chain_push with (p := pos s + 1); [|intros _; split; reflexivity].
      eapply chain_push with (p := pos s); [exact HC|intros K; discriminate K].
    + change [e1; e2; e3] with ([e1; e2] ++ [e3]). rewrite app_assoc. apply lastok_push. exact I.
    + intros _. apply (ws_before_last src (pos s) (B "<" ++ x ++ B ">")); [discriminate|apply Hh'|rewrite !app_assoc; change (B ">") with [">"%char]; rewrite last_last; reflexivity].
Qed.

(** *** Symbols *)
Lemma From_sym b cow0 O E0 x T pre post ne : top O E0 pre -> FromB b (LV false) cow0 O E0 T pre post true ->
  forallb symbol_byte x = true ->
  From (LV false) cow0 O E0 (B ":" ++ x ++ B ":" ++ T) pre (Symbol x :: post) ne.
Proof.
  intros Htop HF Hx. apply From_wlog; [exact Htop|].
  intros s ls R D w M HS HD HC HL _.
  assert (Hn : no_nl (x ++ B ":")).
  { apply no_nl_app. split; [|intros [K|[]]; discriminate K]. intros K. rewrite forallb_forall in Hx. specialize (Hx _ K). discriminate Hx. }
  assert (Hsym : forall c, symbol_byte c = true -> is_symbol_char c = true /\ negb (beq c ":" || is_ws c) = true).
  { clear. intros c. destruct c as [[][][][][][][][]]; intros H; try discriminate H; split; reflexivity. }
  eapply (step_tok _ _ _ _ _ _ _ (B ":") (x ++ B ":" ++ T) (Tok (LSym Colon) 1) false); eauto.
  - intros [K|[]]; discriminate K.
  - intros l' line r1 HV Hh. rewrite (app_assoc x) in Hh.
    destruct (here_more _ _ _ _ _ _ _ Hh Hn) as (r' & -> & Hh' & Hsl).
    refine (handle_symbol (fun y => Out y ls _) _ _ _ _ _ _ _). unfold parse_symbol. cbn [tk s_in i_lex].
    rewrite (lex_ahead_is false l' ((x ++ B ":") ++ r')) by (left; exact HV). cbn [bind].
    rewrite <- app_assoc. change (B ":" ++ r') with (":"%char :: r').
    rewrite scan_until_is; [|rewrite forallb_forall in *; intros c Hc; apply Hsym; auto|reflexivity].
    cbn [stopped_at]. change (beq ":" ":") with true. cbn [andb]. rewrite firstn_app, firstn_all, Nat.sub_diag. cbn [firstn]. rewrite app_nil_r.
    assert (forallb is_symbol_char x = true) as -> by (rewrite forallb_forall in *; intros c Hc; apply Hsym; auto).
    eapply pc_bind; [eapply (lex_skip_is false false l' _ (length x + 1) HV)|]. intros l2 HX.
    rewrite <- app_assoc, skipn_app, skipn_all2 in HX by lia.
    replace (length x + 1 - length x) with 1 in HX by lia. change (skipn 1 (B ":" ++ r')) with r' in HX. cbn [app] in HX.
    eapply pc_bind; [apply pc_ssub|]. intros sy Hsy.
    apply pc_ok. split; [reflexivity|]. cbn [snd].
    assert (Hx' : sy = x).
    { rewrite <- Hsy. cbn [s_span s_set_lex s_set_in s_in in_set_lex i_span se]. rewrite app_length in Hsl.
      destruct (slice_prefix src _ _ _ _ Hsl ltac:(lia)) as (A & _). exact A. }
    rewrite Hx'. clear Hsy Hx'. change (length (B ":")) with 1 in *.
    unfold push, push_sp, s_set_events, s_set_span, s_set_lex, s_set_in, in_set_span, in_set_lex, s_span.
    cbn [s_in s_openers s_events s_verb s_attr s_cow s_attrs i_lex i_complete i_line i_ahead i_span ss se].
    replace (pos s + 1 + length x + 1) with (pos s + length (B ":" ++ x ++ B ":")) by (rewrite !app_length; change (length (B ":")) with 1; lia).
    eapply push_oneB with (b := b) (p := pos s) (e := IE (IAtom (ISymbol x)) (Sp (pos s) (pos s + length (B ":" ++ x ++ B ":")))) (d := [Symbol x]); [exact HF|exact HD|exact HC| | |reflexivity| | |].
    + reflexivity.
    + cbn. discriminate.
    + exact I.
    + apply (St_mk src _ _ _ _ _ _ _ _ _ _ _ _ Hh'). left. exact HX.
    + intros _. apply (ws_before_last src (pos s) (B ":" ++ x ++ B ":")); [discriminate|apply Hh'|rewrite !app_assoc; change (B ":") with [":"%char]; rewrite last_last; reflexivity].
Qed.

(** *** Footnote references *)
Lemma From_note b cow0 O E0 x T pre post ne : top O E0 pre -> FromB b (LV false) cow0 O E0 T pre post true ->
  forallb label_byte x = true ->
  From (LV false) cow0 O E0 (B "[^" ++ x ++ B "]" ++ T) pre (FootnoteReference x :: post) ne.
Proof.
  intros Htop HF Hx. apply From_wlog; [exact Htop|].
  intros s ls R D w M HS HD HC HL _.
  assert (Hlab : forall c, label_byte c = true -> negb (beq c "[" || beq c "]" || beq c NL) = true /\ c <> "}"%char /\ c <> NL).
  { clear. intros c. destruct c as [[][][][][][][][]]; intros H; try discriminate H; repeat split; discriminate. }
  assert (Hn : no_nl (B "^" ++ x ++ B "]")).
  { apply no_nl_app. split; [intros [K|[]]; discriminate K|]. apply no_nl_app. split; [|intros [K|[]]; discriminate K].
    intros K. rewrite forallb_forall in Hx. destruct (Hlab _ (Hx _ K)) as (_ & _ & A). congruence. }
  assert (Hx1 : forallb (fun c => negb (beq c "[" || beq c "]" || beq c NL)) x = true) by (rewrite forallb_forall in *; intros c Hc; apply Hlab; auto).
  assert (Hx2 : forall r, hd_is (fun c => beq c "}") (x ++ "]"%char :: r) = false).
  { intros r. destruct x as [|c x]; [reflexivity|]. cbn. apply andb_prop in Hx as [Hx _]. destruct (Hlab c Hx) as (_ & A & _). destruct (beq c "}") eqn:K; auto. apply Ascii.eqb_eq in K. contradiction. }
  eapply (step_tok _ _ _ _ _ _ _ (B "[") (B "^" ++ x ++ B "]" ++ T) (Tok (LOpen Bracket) 1) false); eauto.
  - intros [K|[]]; discriminate K.
  - intros l' line r1 HV Hh. replace (B "^" ++ x ++ B "]" ++ T) with ((B "^" ++ x ++ B "]") ++ T) in Hh by (rewrite <- !app_assoc; reflexivity).
    destruct (here_more _ _ _ _ _ _ _ Hh Hn) as (r' & -> & Hh' & Hsl).
    refine (handle_note (fun y => Out y ls _) _ _ _ _ _ _ _). unfold parse_footnote_reference. cbn [tk].
    unfold s_peek, in_peek. cbn [s_in i_lex].
    assert (Er : (B "^" ++ x ++ B "]") ++ r' = "^"%char :: x ++ "]"%char :: r') by (rewrite <- !app_assoc; reflexivity).
    rewrite Er in *.
    assert (Esc : scan false false ("^"%char :: x ++ "]"%char :: r') = (Some (Tok (LSym Caret) 1), false)).
    { rewrite scan_special by reflexivity. unfold special_token, maybe_close. rewrite Hx2. reflexivity. }
    destruct (lex_peek_is false l' _ _ _ (or_introl HV) Esc) as (l2 & E2 & H2 & _).
    rewrite E2. cbn [s_set_in in_set_lex s_in i_complete i_line i_ahead i_span s_openers s_events s_verb s_attr s_cow s_attrs].
    destruct (lex_special false l2 _ _ _ H2 Esc eq_refl) as (l3 & E3 & H3). cbn [tlen skipn] in H3.
    unfold in_eat, s_set_in, in_set_lex. cbn [s_in i_lex i_complete i_line i_ahead i_span s_openers s_events s_verb s_attr s_cow s_attrs]. rewrite E3. cbn [bind in_set_lex in_set_span i_lex i_complete i_line i_ahead i_span ss se tlen assert].
    rewrite (lex_ahead_is false l3 (x ++ "]"%char :: r')) by (left; exact H3). cbn [bind].
    rewrite scan_until_is by (auto; reflexivity). cbn [stopped_at]. change (beq "]" "]") with true. cbn [bind].
    eapply pc_bind; [eapply (lex_skip_is false false l3 _ (length x + 1) H3)|]. intros l4 HX.
    rewrite skipn_app, skipn_all2 in HX by lia.
    replace (length x + 1 - length x) with 1 in HX by lia. cbn [app skipn] in HX.
    eapply pc_bind; [apply pc_ssub|]. intros sy Hsy.
    apply pc_ok. split; [reflexivity|]. cbn [snd].
    assert (Hx' : sy = x).
    { rewrite <- Hsy. cbn [s_span s_set_lex s_set_in s_in in_set_lex i_span se].
      change (length (B "[")) with 1 in *.
      destruct (slice_prefix src _ _ _ _ Hsl ltac:(lia)) as (_ & A & _). change (length (B "^")) with 1 in A.
      destruct (slice_prefix src _ _ _ _ A ltac:(rewrite !app_length; change (length (B "^")) with 1; lia)) as (A' & _). exact A'. }
    rewrite Hx'. clear Hsy Hx'. change (length (B "[")) with 1 in *.
    unfold push, push_sp, s_set_events, s_set_span, s_set_lex, s_set_in, in_set_span, in_set_lex, s_span.
    cbn [s_in s_openers s_events s_verb s_attr s_cow s_attrs i_lex i_complete i_line i_ahead i_span ss se].
    replace (pos s + 1 + 1 + length x + 1) with (pos s + length (B "[" ++ B "^" ++ x ++ B "]"))
      by (rewrite !app_length; change (length (B "[")) with 1; change (length (B "^")) with 1; change (length (B "]")) with 1; lia).
    eapply push_oneB with (b := b) (p := pos s) (e := IE (IAtom (IFootnoteReference x)) (Sp (pos s) (pos s + length (B "[" ++ B "^" ++ x ++ B "]")))) (d := [FootnoteReference x]); [exact HF|exact HD|exact HC| | |reflexivity| | |].
    + reflexivity.
    + cbn. discriminate.
    + exact I.
    + apply (St_mk src _ _ _ _ _ _ _ _ _ _ _ _ Hh'). left. exact HX.
    + intros _. apply (ws_before_last src (pos s) (B "[" ++ B "^" ++ x ++ B "]")); [discriminate|apply Hh'|rewrite !app_assoc; change (B "]") with ["]"%char]; rewrite last_last; reflexivity].
Qed.
End Canon.
