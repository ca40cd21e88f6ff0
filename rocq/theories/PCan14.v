(** * PCan14: what a line of canonical text is taken for *)
From Verif Require Import Base Lex Attr Inline Block Doc Lib PSafe PIds SpecBlock PCan1 PCan2 PCan3 PCan12 PCan13.
From Verif Require Import SpecCanon.
Local Open Scope nat_scope.

(** A line in the source: indentation, content, line break; blank lines are not indented. *)
Definition full (k : nat) (l : bytes) : bytes := match l with [] => [NL] | _ => repeat SP k ++ l ++ [NL] end.

Lemma trim_pad f k x : f SP = true -> hd_is f x = false -> trim_start_m f (repeat SP k ++ x) = x.
Proof.
  intros Hf Hx. induction k as [|k IH]; cbn [repeat app trim_start_m]; [|rewrite Hf; exact IH].
  destruct x as [|c x]; [reflexivity|]. cbn in Hx. cbn. rewrite Hx. reflexivity.
Qed.
Lemma pad_len k (x : bytes) : length (repeat SP k ++ x) - length x = k.
Proof. rewrite app_length, repeat_length. lia. Qed.

Lemma ws_nl c : is_ws c = false -> ws_not_nl c = false.
Proof. unfold ws_not_nl. intros ->. reflexivity. Qed.
Lemma not_ws_nl c : is_ws c = false -> beq c NL = false.
Proof. destruct (beq c NL) eqn:E; [|reflexivity]. apply beq_eq in E as ->. discriminate. Qed.

(** Identification of an indented line. *)
Definition identify_at (k : nat) (first : ascii) (chars : bytes) : res (bkind * span) :=
  let line := first :: chars in
  let line_t := trim_end_m is_ws line in
  let l := length line in
  let lt := length line_t in
  let indent := k in
  let para := (KParagraph, Sp indent indent) in
      if beq first "#" then
        if hd_none_or is_ws (skipn (count_while (fun c => beq c "#") chars) chars) then
          let level := count_while (fun c => beq c "#") line in
          Ok (KHeading level, Sp indent (indent + level))
        else Ok para
      else if beq first ">" then
        if hd_none_or is_ws chars then Ok (KBlockquote, Sp indent (indent + 1)) else Ok para
      else if beq first "{" then
        let! v := attr_valid line in
        if Nat.eqb v lt then Ok (KAtom BAttributes, Sp indent (indent + l)) else Ok para
      else if beq first "|" then
        if Nat.leb 2 lt && ends_with line_t (B "|") && negb (ends_with line_t [BSL; "|"%char])
        then Ok (KTable false false, Sp indent indent) else Ok para
      else if beq first "[" then
        match position (fun c => beq c "]") chars with
        | None => Ok para
        | Some n =>
            if starts_c (skipn (n + 1) chars) ":" then
              let label := firstn n chars in
              let footnote := starts_c label "^" in
              Ok (KDefinition indent footnote (if footnote then skipn 1 label else label) false,
                  Sp 0 (indent + 3 + n))
            else Ok para
        end
      else if (beq first "-" || beq first "*") && is_thematic_break chars then
        Ok (KAtom BThematicBreak, Sp indent (indent + lt))
      else if beq first "-" || beq first "*" || beq first "+" then
        if hd_none_or (fun c => beq c SP) chars then
          let task := match chars with
                      | _ :: b :: x :: e :: rest =>
                          beq b "[" && (beq x "x" || beq x "X" || beq x SP) && beq e "]"
                          && hd_none_or is_ws rest
                      | _ => false
                      end in
          if task then Ok (KListItem indent (LTask first) false, Sp indent (indent + 5))
          else Ok (KListItem indent (LUnordered first) false, Sp indent (indent + 1))
        else Ok para
      else if beq first ":" && hd_none_or is_ws chars then
        Ok (KListItem indent LDescription false, Sp indent (indent + 1))
      else if beq first "`" || beq first ":" || beq first "~" then
        let flen := 1 + count_while (fun c => beq c first) chars in
        let spec := trim_start_m is_ws (skipn flen line_t) in
        let valid_spec := if beq first ":" then forallb is_name spec
                          else negb (existsb is_ws spec) && negb (existsb (fun c => beq c "`") spec) in
        if valid_spec && Nat.leb 3 flen then
          Ok (KFenced indent flen (if beq first ":" then FenceDiv else FenceCode first) spec false None,
              Sp indent (indent + l))
        else Ok para
      else
        let! o := maybe_ordered line in
        match o with
        | Some (num, style, len) => Ok (KListItem indent (LOrdered num style) false, Sp indent (indent + len))
        | None => Ok para
        end.
Lemma identify_pad k c r : is_ws c = false -> identify (repeat SP k ++ c :: r) = identify_at k c r.
Proof.
  intros H. unfold identify. rewrite (trim_pad ws_not_nl) by (cbn; auto using ws_nl). rewrite pad_len. cbv zeta.
  rewrite (not_ws_nl c H). reflexivity.
Qed.
Lemma identify_blank : identify [NL] = Ok (KAtom BBlankline, Sp 0 1).
Proof. reflexivity. Qed.

(** Trimming at the end. *)
Lemma trim_end_line l c : is_ws c = false -> trim_end_m is_ws (l ++ [c; NL]) = l ++ [c].
Proof.
  intros H. induction l as [|d l IH]; cbn [app trim_end_m]; [rewrite H; reflexivity|]. cbn [app] in IH. rewrite IH. destruct l; reflexivity.
Qed.
Lemma blank_full k l : is_blank_line (full k l) = match l with [] => true | _ => is_blank_line (l ++ [NL]) end.
Proof.
  destruct l as [|c l]; [reflexivity|]. unfold full, is_blank_line, trim_m. induction k as [|k IH]; [reflexivity|]. exact IH.
Qed.
Lemma trim_end_nil' s : trim_end_m is_ws s = [] -> forallb is_ws s = true.
Proof.
  induction s as [|c s IH]; [reflexivity|]. cbn. destruct (trim_end_m is_ws s); [|discriminate]. destruct (is_ws c); [|discriminate]. intros _. apply IH. reflexivity.
Qed.
Lemma nonblank_line c r : is_ws c = false -> is_blank_line (c :: r) = false.
Proof.
  intros H. unfold is_blank_line, trim_m. cbn [trim_start_m]. rewrite H. destruct (trim_end_m is_ws (c :: r)) eqn:E; [|reflexivity].
  apply trim_end_nil' in E. cbn in E. rewrite H in E. discriminate E.
Qed.

(** *** Paragraph lines *)
Lemma not_block c d : existsb (beq c) block_bytes = false -> List.In d block_bytes -> beq c d = false.
Proof.
  intros H K. destruct (beq c d) eqn:E; [|reflexivity]. exfalso. rewrite <- not_true_iff_false in H. apply H. apply existsb_exists. exists d. auto.
Qed.
Lemma num_alnum nb c : num_char nb c = true -> is_alnum c = true.
Proof. destruct nb; destruct c as [[][][][][][][][]]; intros H; try discriminate H; reflexivity. Qed.
Lemma guess_alnum c nb : guess_numbering c = Some nb -> is_alnum c = true.
Proof. destruct c as [[][][][][][][][]]; intros H; try discriminate H; reflexivity. Qed.
Lemma count_firstn_le {A} (f g : A -> bool) n l : (forall x, f x = true -> g x = true) -> count_while f (firstn n l) <= count_while g l.
Proof.
  intros H. revert n. induction l as [|x l IH]; intros [|n]; cbn; try lia. destruct (f x) eqn:E; [|lia]. rewrite (H _ E). specialize (IH n). lia.
Qed.
Lemma maybe_ordered_none c r : beq c "(" = false ->
  hd_is (fun c => beq c "." || beq c ")") (skipn (count_while is_alnum (c :: r)) (c :: r)) = false ->
  maybe_ordered ((c :: r) ++ [NL]) = Ok None.
Proof.
  intros Hc Hp. unfold maybe_ordered. cbn [app starts_c]. rewrite Hc.
  destruct (guess_numbering c) as [nb|] eqn:Eg; [|reflexivity]. cbv zeta.
  set (n := count_while (num_char nb) (firstn (num_max_len nb - 1) (r ++ [NL]))). replace (1 + n - 1) with n by lia.
  assert (Hn : n <= count_while is_alnum (r ++ [NL])) by (apply count_firstn_le, num_alnum).
  cbn [count_while] in Hp. rewrite (guess_alnum _ _ Eg) in Hp. cbn [skipn] in Hp.
  assert (K : forall post after, skipn n (r ++ [NL]) = post :: after -> beq post ")" = false /\ beq post "." = false).
  { clear - Hn Hp. revert Hn Hp. generalize n. induction r as [|d r IH]; intros m Hm Hp post after E.
    - cbn in Hm. assert (m = 0) as -> by lia. cbn in E. injection E as <- _. split; reflexivity.
    - cbn [count_while app] in Hm, Hp. destruct (is_alnum d) eqn:Ed.
      + destruct m as [|m].
        * cbn in E. injection E as <- _. revert Ed. clear. destruct d as [[][][][][][][][]]; intros H; try discriminate H; split; reflexivity.
        * cbn in E. apply (IH m) in E; auto. lia.
      + assert (m = 0) as -> by lia. cbn in E, Hp. injection E as <- _. apply orb_false_iff in Hp as [? ?]. auto. }
  destruct (skipn n (r ++ [NL])) as [|post after]; [reflexivity|]. destruct (K _ _ eq_refl) as [-> ->]. reflexivity.
Qed.
Lemma identify_para k l : line_ok l = true -> identify (full k l) = Ok (KParagraph, Sp k k).
Proof.
  unfold line_ok. destruct l as [|c l]; [discriminate|]. intros H. apply andb_prop in H as [H _]. apply andb_prop in H as [H H3]. apply andb_prop in H as [H1 H2].
  apply negb_true_iff in H1, H2, H3. unfold full. change ((c :: l) ++ [NL]) with (c :: l ++ [NL]). rewrite identify_pad by exact H1. unfold identify_at.
  pose proof (fun d => not_block c d H2) as N.
  rewrite (N "#"%char), (N ">"%char), (N "{"%char), (N "|"%char), (N "["%char), (N "-"%char), (N "*"%char), (N "+"%char), (N ":"%char), (N "`"%char), (N "~"%char) by (cbn; auto 20).
  cbn [orb andb]. change (c :: l ++ [NL]) with ((c :: l) ++ [NL]). rewrite maybe_ordered_none; auto. apply N. cbn. auto 20.
Qed.
Lemma line_ok_blank l : line_ok l = true -> is_blank_line (l ++ [NL]) = false.
Proof.
  unfold line_ok. destruct l as [|c l]; [discriminate|]. intros H. apply andb_prop in H as [H _]. apply andb_prop in H as [H _]. apply andb_prop in H as [H _].
  apply negb_true_iff in H. apply nonblank_line, H.
Qed.

(** *** Thematic breaks, fences, quotes *)
Lemma identify_rule k : identify (full k (B "***")) = Ok (KAtom BThematicBreak, Sp k (k + 3)).
Proof. unfold full. change (B "***" ++ [NL]) with ("*"%char :: B "**" ++ [NL]). cbn [B list_ascii_of_string]. rewrite identify_pad by reflexivity. reflexivity. Qed.

Lemma trim_end_snoc l : (forall c l', l = l' ++ [c] -> is_ws c = false) -> trim_end_m is_ws (l ++ [NL]) = l.
Proof.
  intros H. destruct (rev_case l) as [-> |(l' & c & ->)]; [reflexivity|]. rewrite <- app_assoc. apply trim_end_line. eapply H. reflexivity.
Qed.
Lemma identify_fence k lang : lang_ok lang = true ->
  identify (full k (B "```" ++ lang)) = Ok (KFenced k 3 (FenceCode "`") lang false None, Sp k (k + (4 + length lang))).
Proof.
  intros H. unfold lang_ok in H.
  assert (Hl : forall c, List.In c lang -> is_ws c = false /\ beq c "`" = false).
  { intros c Hc. rewrite forallb_forall in H. specialize (H c Hc). apply andb_prop in H as [H1 H2]. apply negb_true_iff in H1, H2. auto. }
  assert (Ef : full k (B "```" ++ lang) = repeat SP k ++ "`"%char :: "`"%char :: "`"%char :: lang ++ [NL]) by reflexivity.
  rewrite Ef.
  rewrite identify_pad by reflexivity. unfold identify_at.
  change (beq "`" "#") with false. change (beq "`" ">") with false. change (beq "`" "{") with false. change (beq "`" "|") with false.
  change (beq "`" "[") with false. change (beq "`" "-") with false. change (beq "`" "*") with false. change (beq "`" "+") with false.
  change (beq "`" ":") with false. change (beq "`" "`") with true. cbn [orb andb].
  assert (Ec : count_while (fun c => beq c "`") ("`"%char :: "`"%char :: lang ++ [NL]) = 2).
  { cbn. destruct lang as [|c lang]; [reflexivity|]. cbn. destruct (Hl c) as [_ ->]; [left; reflexivity|]. reflexivity. }
  rewrite Ec.
  assert (Et : trim_end_m is_ws ("`"%char :: "`"%char :: "`"%char :: lang ++ [NL]) = "`"%char :: "`"%char :: "`"%char :: lang).
  { change ("`"%char :: "`"%char :: "`"%char :: lang ++ [NL]) with (("`"%char :: "`"%char :: "`"%char :: lang) ++ [NL]). apply trim_end_snoc.
    intros c l' E. assert (K : List.In c ("`"%char :: "`"%char :: "`"%char :: lang)) by (rewrite E; apply in_or_app; right; left; reflexivity).
    destruct K as [<-|[<-|[<-|K]]]; try reflexivity. apply Hl, K. }
  rewrite Et. cbn [skipn Nat.add].
  assert (Es : trim_start_m is_ws lang = lang). { destruct lang as [|c lang]; [reflexivity|]. cbn. destruct (Hl c) as [-> _]; [left; reflexivity|]. reflexivity. }
  rewrite Es.
  assert (existsb is_ws lang = false) as ->. { apply not_true_iff_false. intros K. apply existsb_exists in K as (c & K1 & K2). destruct (Hl c K1). congruence. }
  assert (existsb (fun c => beq c "`") lang = false) as ->. { apply not_true_iff_false. intros K. apply existsb_exists in K as (c & K1 & K2). destruct (Hl c K1). congruence. }
  cbn [negb andb Nat.leb]. cbn [length]. rewrite app_length. cbn [length]. do 3 f_equal. lia.
Qed.
Lemma quote_line_full k l : full k (quote_line l) = repeat SP k ++ ">"%char :: (match l with [] => [NL] | _ => SP :: l ++ [NL] end).
Proof. destruct l; reflexivity. Qed.
Lemma identify_quote k l : identify (full k (quote_line l)) = Ok (KBlockquote, Sp k (k + 1)).
Proof. rewrite quote_line_full, identify_pad by reflexivity. destruct l; reflexivity. Qed.

(** *** List markers *)
Lemma dec_fuel_len k : forall f n acc, (n < 10 ^ N.of_nat (S k))%N -> length (dec_fuel f n acc) <= S k + length acc.
Proof.
  induction k as [|k IH]; intros f n acc H; (destruct f as [|f]; [cbn; lia|]); cbn [dec_fuel].
  - change (10 ^ N.of_nat 1)%N with 10%N in H. rewrite (N.div_small n 10 H). cbn. lia.
  - destruct (N.eqb (n / 10) 0); [cbn; lia|]. etransitivity; [apply IH|cbn; lia].
    rewrite Nat2N.inj_succ, N.pow_succ_r' in H. apply N.div_lt_upper_bound; [lia|exact H].
Qed.
Lemma dec_fuel_digits f : forall n acc, forallb is_digit acc = true -> forallb is_digit (dec_fuel f n acc) = true.
Proof.
  induction f as [|f IH]; intros n acc H; cbn [dec_fuel]; [exact H|].
  assert (Hd : is_digit (ascii_of_N (48 + n mod 10)) = true).
  { pose proof (N.mod_lt n 10 ltac:(lia)) as M. revert M. generalize (n mod 10)%N. intros d M.
    assert (K : (d = 0 \/ d = 1 \/ d = 2 \/ d = 3 \/ d = 4 \/ d = 5 \/ d = 6 \/ d = 7 \/ d = 8 \/ d = 9)%N) by lia.
    destruct K as [->|[->|[->|[->|[->|[->|[->|[->|[->| ->]]]]]]]]]; reflexivity. }
  destruct (N.eqb (n / 10) 0); [|apply IH]; cbn [forallb]; rewrite Hd; exact H.
Qed.
Lemma dec_digits n : forallb is_digit (dec n) = true.
Proof. apply dec_fuel_digits. reflexivity. Qed.
Lemma dec_len n : (n < 10000000000000000000)%N -> length (dec n) <= 19.
Proof. intros H. unfold dec. etransitivity; [apply (dec_fuel_len 18); exact H|cbn; lia]. Qed.
Lemma parse_dec_is s : forall acc, pc (eq (dec_value s acc)) (parse_dec s acc).
Proof.
  induction s as [|c s IH]; intros acc; cbn [parse_dec dec_value]; [apply pc_ok; reflexivity|].
  destruct (is_digit c); [|apply pc_panic]. unfold u64. destruct (_ <? _)%N; [|apply pc_panic]. cbn [bind].
  rewrite (N.mul_comm acc 10) at 1. apply IH.
Qed.
Lemma count_firstn_stop {A} (f : A -> bool) a x b n : forallb f a = true -> f x = false -> length a <= n -> count_while f (firstn n (a ++ x :: b)) = length a.
Proof.
  intros Ha Hx. revert n. induction a as [|y a IH]; intros n Hn.
  - destruct n; cbn; [reflexivity|]. rewrite Hx. reflexivity.
  - destruct n as [|n]; [cbn in Hn; lia|]. cbn in *. apply andb_prop in Ha as [-> Ha]. f_equal. apply IH; auto. lia.
Qed.
Definition number_pre (st : ostyle) : bytes := match st with OParenParen => B "(" | _ => [] end.
Definition number_post (st : ostyle) : ascii := match st with OPeriod => "." | _ => ")" end.
Lemma number_text_eq n st : number_text n st = number_pre st ++ dec n ++ [number_post st].
Proof. destruct st; reflexivity. Qed.

Lemma butlast_snoc {A} (l : list A) x : butlast (l ++ [x]) = l.
Proof. apply butlast_app. Qed.
Lemma maybe_ordered_number n st r : (n < 10000000000000000000)%N ->
  pc (eq (Some (LN Decimal n, st, length (number_text n st)))) (maybe_ordered (number_text n st ++ SP :: r)).
Proof.
  intros Hn. pose proof (dec_len n Hn) as Hlen. pose proof (dec_digits n) as Hd. pose proof (dec_value_dec n) as Hv. pose proof (dec_nonempty n) as Hne.
  rewrite number_text_eq. revert Hlen Hd Hv Hne. generalize (dec n). intros ds Hlen Hd Hv Hne.
  destruct ds as [|d ds]; [congruence|]. cbn [forallb] in Hd. apply andb_prop in Hd as [Hd1 Hd2]. cbn [length] in Hlen.
  assert (Hpar : beq d "(" = false) by (revert Hd1; clear; destruct d as [[][][][][][][][]]; intros H; try discriminate H; reflexivity).
  assert (Hpost : is_digit (number_post st) = false) by (destruct st; reflexivity).
  unfold maybe_ordered.
  assert (E0 : (let start_paren := starts_c ((number_pre st ++ (d :: ds) ++ [number_post st]) ++ SP :: r) "(" in
               if start_paren then skipn 1 ((number_pre st ++ (d :: ds) ++ [number_post st]) ++ SP :: r) else (number_pre st ++ (d :: ds) ++ [number_post st]) ++ SP :: r)
             = d :: ds ++ number_post st :: SP :: r).
  { destruct st; cbn; rewrite ?Hpar; rewrite <- app_assoc; reflexivity. }
  cbv zeta in E0. rewrite E0. unfold guess_numbering. rewrite Hd1.
  assert (Ec : count_while (num_char Decimal) (firstn (num_max_len Decimal - 1) (ds ++ number_post st :: SP :: r)) = length ds).
  { apply count_firstn_stop; auto. cbn. lia. }
  rewrite Ec. replace (1 + length ds - 1) with (length ds) by lia. rewrite skipn_app, skipn_all, Nat.sub_diag. cbn [app skipn].
  assert (Es : (if starts_c ((number_pre st ++ d :: ds ++ [number_post st]) ++ SP :: r) "("
                then if beq (number_post st) ")" then Some OParenParen else None
                else if beq (number_post st) ")" then Some OParen else if beq (number_post st) "." then Some OPeriod else None) = Some st).
  { destruct st; cbn; rewrite ?Hpar; reflexivity. }
  cbn [app] in Es. rewrite Es. cbn [hd_none_or]. change (is_ws SP) with true. cbn iota.
  assert (El : 1 + length ds + ((if starts_c ((number_pre st ++ d :: ds ++ [number_post st]) ++ SP :: r) "(" then 1 else 0) + 1)
               = length (number_pre st ++ d :: ds ++ [number_post st])).
  { destruct st; cbn; rewrite ?Hpar, app_length; cbn; lia. }
  cbn [app] in El. rewrite El. rewrite firstn_app, firstn_all, Nat.sub_diag, app_nil_r.
  assert (En : style_number st (number_pre st ++ d :: ds ++ [number_post st]) = d :: ds).
  { unfold style_number. rewrite (app_comm_cons ds [number_post st] d), app_assoc, butlast_snoc. destruct st; reflexivity. }
  rewrite En. cbn [parse_number]. eapply pc_bind; [apply parse_dec_is|]. intros v <-. apply pc_ok. rewrite Hv. reflexivity.
Qed.

(** The first line of an item after the marker. *)
Definition item_line (l : bytes) : Prop := exists c r, l = c :: r /\ is_ws c = false /\ beq c "[" = false /\ forall n, thematic_loop (l ++ [NL]) n = false.

Definition marks_ok (m : marks) (i : N) : Prop := match m with MNumber s _ => (s + i < 10000000000000000000)%N | _ => True end.
Definition mark_ty (m : marks) (i : N) : list_type :=
  match m with
  | MBullet b => LUnordered (bullet_char b)
  | MTask b => LTask (bullet_char b)
  | MNumber n st => LOrdered (LN Decimal (n + i)) st
  end.
Lemma identify_mark k m i ck l : marks_ok m i -> item_line l ->
  pc (eq (KListItem k (mark_ty m i) false, Sp k (k + length (mark_text m i ck)))) (identify (full k (mark_text m i ck ++ SP :: l))).
Proof.
  intros Hm (c & r & -> & H1 & H2 & H3).
  assert (Ef : full k (mark_text m i ck ++ SP :: c :: r) = repeat SP k ++ mark_text m i ck ++ SP :: (c :: r) ++ [NL]).
  { unfold full. destruct (mark_text m i ck ++ SP :: c :: r) eqn:E; [destruct (mark_text m i ck); discriminate E|]. rewrite <- E, <- app_assoc. reflexivity. }
  rewrite Ef. destruct m as [b|b|n st]; cbn [mark_text].
  - cbn [app]. rewrite identify_pad by (destruct b; reflexivity). unfold identify_at.
    assert (Eth : is_thematic_break (SP :: c :: r ++ [NL]) = false) by (apply (H3 1)).
    rewrite Eth. destruct b; cbn -[Nat.add]; rewrite H2; cbn; destruct (r ++ [NL]) as [|x [|e rest]]; apply pc_ok; reflexivity.
  - destruct ck.
    + cbn [app]. rewrite identify_pad by (destruct b; reflexivity). destruct b; apply pc_ok; reflexivity.
    + cbn [app]. rewrite identify_pad by (destruct b; reflexivity). destruct b; apply pc_ok; reflexivity.
  - pose proof (maybe_ordered_number (n + i) st ((c :: r) ++ [NL]) Hm) as K. cbn [mark_ty].
    assert (Hh : exists d ds, number_text (n + i) st = d :: ds /\ is_ws d = false /\ (is_digit d = true \/ d = "("%char)).
    { rewrite number_text_eq. pose proof (dec_digits (n + i)) as Hd. pose proof (dec_nonempty (n + i)) as Hne. destruct st; cbn [number_pre app].
      1,2: destruct (dec (n + i)) as [|d ds]; [congruence|]; exists d; eexists; split; [reflexivity|]; cbn in Hd; apply andb_prop in Hd as [Hd _];
           split; [revert Hd; clear; destruct d as [[][][][][][][][]]; intros H; try discriminate H; reflexivity|left; exact Hd].
      eexists _, _. split; [reflexivity|]. split; [reflexivity|]. right. reflexivity. }
    destruct Hh as (d & ds & Et & Hd1 & Hd2). rewrite Et in K |- *. cbn [app] in K |- *. rewrite identify_pad by exact Hd1. unfold identify_at.
    assert (N : forall x, List.In x (["#"; ">"; "{"; "|"; "["; "-"; "*"; "+"; ":"; "`"; "~"]%char) -> beq d x = false).
    { intros x Hx. destruct (beq d x) eqn:E; [|reflexivity]. apply beq_eq in E as ->. exfalso. clear - Hd2 Hx. cbn in Hx.
      decompose [or] Hx; subst; try contradiction; destruct Hd2; discriminate. }
    rewrite (N "#"%char), (N ">"%char), (N "{"%char), (N "|"%char), (N "["%char), (N "-"%char), (N "*"%char), (N "+"%char), (N ":"%char), (N "`"%char), (N "~"%char) by (cbn; auto 20).
    cbn [orb andb]. eapply pc_bind; [exact K|]. intros o <-. apply pc_ok. reflexivity.
Qed.

(** A line with content is not blank. *)
Lemma identify_nonblank k c r : is_ws c = false -> pc (fun x => is_blank_kind (fst x) = false) (identify (repeat SP k ++ c :: r)).
Proof.
  intros H. rewrite identify_pad by exact H. unfold identify_at.
  repeat (match goal with
  | |- pc _ (Ok _) => apply pc_ok; reflexivity
  | |- pc _ (if ?b then _ else _) => destruct b
  | |- pc _ (match ?o with Some _ => _ | None => _ end) => destruct o
  | |- pc _ (bind ?r ?f) => apply pc_bind_eq; intros ? _
  | |- pc _ (let _ := _ in _) => cbv zeta
  | |- pc _ (match ?x with (_, _) => _ end) => destruct x
  end).
Qed.

(** *** Lines of code *)
Definition tick_fence (k : bkind) : bool := match k with KFenced _ _ (FenceCode c) _ _ _ => beq c "`" | _ => false end.
Lemma identify_no_fence k c r : is_ws c = false -> starts_with (c :: r) (B "```") = false ->
  pc (fun x => tick_fence (fst x) = false) (identify (repeat SP k ++ c :: r)).
Proof.
  intros H Hs. rewrite identify_pad by exact H. unfold identify_at.
  repeat (match goal with
  | |- pc _ (Ok _) => apply pc_ok; cbn [fst tick_fence]; first [reflexivity | idtac]
  | |- pc _ (if ?b then _ else _) => let E := fresh "E" in destruct b eqn:E
  | |- pc _ (match ?o with Some _ => _ | None => _ end) => destruct o
  | |- pc _ (bind ?r ?f) => apply pc_bind_eq; intros ? _
  | |- pc _ (let _ := _ in _) => cbv zeta
  | |- pc _ (match ?x with (_, _) => _ end) => destruct x
  end).
  destruct (beq c ":"); [reflexivity|]. destruct (beq c "`") eqn:Ec; [|reflexivity]. exfalso. apply beq_eq in Ec as ->.
  match goal with K : _ && Nat.leb 3 _ = true |- _ => clear - K Hs; apply andb_prop in K as [_ E] end. destruct r as [|a r]; [discriminate E|]. cbn in E, Hs. destruct (beq a "`") eqn:Ea; [|discriminate E].
  apply beq_eq in Ea as ->. destruct r as [|a r]; [discriminate E|]. cbn in E, Hs. destruct (beq a "`") eqn:Ea; [|discriminate E].
  apply beq_eq in Ea as ->. destruct r; discriminate Hs.
Qed.
