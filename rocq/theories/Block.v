(** * Block: model of src/block.rs, and of list numbering in src/lib.rs

    A [Vec] is a list in the same order, except the stacks [open] and [open_lists], whose head is the
    top.  Line slices [&mut lines[a..b]] are passed by value: every line is used by exactly one block
    at each level, so no mutation is observed elsewhere. *)
From Verif Require Import Base Lex Attr.
Local Open Scope nat_scope.

(** src/lib.rs:1930-1936 [Alignment] *)
Inductive align := AlUnspecified | AlLeft | AlCenter | AlRight.

(** src/lib.rs:2026-2038 [OrderedListNumbering] *)
Inductive numbering := Decimal | AlphaLower | AlphaUpper | RomanLower | RomanUpper.

(** src/lib.rs:2041-2049 [OrderedListStyle] *)
Inductive ostyle := OPeriod | OParen | OParenParen.

Definition numbering_eqb (a b : numbering) : bool :=
  match a, b with
  | Decimal, Decimal | AlphaLower, AlphaLower | AlphaUpper, AlphaUpper
  | RomanLower, RomanLower | RomanUpper, RomanUpper => true
  | _, _ => false
  end.
Definition ostyle_eqb (a b : ostyle) : bool :=
  match a, b with
  | OPeriod, OPeriod | OParen, OParen | OParenParen, OParenParen => true
  | _, _ => false
  end.

Definition u64_max1 : N := 18446744073709551616.  (* 2^64 *)
(** Overflow check of [u64] arithmetic. *)
Definition u64 (n : N) (w : string) : res N := if N.ltb n u64_max1 then Ok n else Panic w.

(** src/lib.rs:2054: [n.parse::<u64>().unwrap()] on a string of digits. *)
Fixpoint parse_dec (n : bytes) (acc : N) : res N :=
  match n with
  | [] => Ok acc
  | c :: n' =>
      if is_digit c
      then let! acc' := u64 (acc * 10 + (code c - 48))%N "lib.rs:2054" in parse_dec n' acc'
      else Panic "lib.rs:2054"
  end.

(** src/lib.rs:2055-2074: little-endian base-26 sum over the reversed digits; [w] is the weight. *)
Fixpoint parse_alpha (d0 : N) (rn : bytes) (w sum : N) : res N :=
  match rn with
  | [] => Ok sum
  | c :: rn' =>
      let! w' := u64 (w * 26)%N "lib.rs:2064" in
      let! _ := assert (N.leb d0 (code c)) "lib.rs:2072" in
      let! sum' := u64 (sum + w * (code c - d0 + 1))%N "lib.rs:2073" in
      parse_alpha d0 rn' w' sum'
  end.

(** src/lib.rs:2076-2087 [value] *)
Definition roman_value (c : ascii) : res N :=
  if beq c "i" || beq c "I" then Ok 1%N
  else if beq c "v" || beq c "V" then Ok 5%N
  else if beq c "x" || beq c "X" then Ok 10%N
  else if beq c "l" || beq c "L" then Ok 50%N
  else if beq c "c" || beq c "C" then Ok 100%N
  else if beq c "d" || beq c "D" then Ok 500%N
  else if beq c "m" || beq c "M" then Ok 1000%N
  else Panic "lib.rs:2085".

(** src/lib.rs:2088-2099: loop over the reversed numeral. *)
Fixpoint parse_roman (rn : bytes) (prev sum : N) : res N :=
  match rn with
  | [] => Ok sum
  | c :: rn' =>
      let! v := roman_value c in
      let! sum' :=
        (if N.ltb v prev
         then let! _ := assert (N.leb v sum) "lib.rs:2093" in Ok (sum - v)%N
         else u64 (sum + v)%N "lib.rs:2095") in
      parse_roman rn' v sum'
  end.

(** src/lib.rs:2052-2102 [OrderedListNumbering::parse_number] *)
Definition parse_number (nb : numbering) (n : bytes) : res N :=
  match nb with
  | Decimal => match n with [] => Panic "lib.rs:2054" | _ => parse_dec n 0 end
  | AlphaLower => parse_alpha 97 (rev n) 1 0
  | AlphaUpper => parse_alpha 65 (rev n) 1 0
  | RomanLower | RomanUpper => parse_roman (rev n) 0 0
  end.

(** src/lib.rs:2106-2108 [OrderedListStyle::number]; the marker is ASCII. *)
Definition style_number (st : ostyle) (marker : bytes) : bytes :=
  let m := butlast marker in
  match st with OParenParen => skipn 1 m | _ => m end.

(** src/block.rs:112-116 [ListNumber] *)
Record list_number := LN { ln_num : numbering; ln_val : N }.

(** src/block.rs:104-110 [ListType] *)
Inductive list_type :=
| LUnordered (c : ascii) | LOrdered (n : list_number) (s : ostyle) | LTask (c : ascii) | LDescription.

Definition list_type_eqb (a b : list_type) : bool :=
  match a, b with
  | LUnordered c, LUnordered d => beq c d
  | LTask c, LTask d => beq c d
  | LDescription, LDescription => true
  | LOrdered n s, LOrdered m t =>
      numbering_eqb (ln_num n) (ln_num m) && N.eqb (ln_val n) (ln_val m) && ostyle_eqb s t
  | _, _ => false
  end.

(** src/block.rs:120-143 [ListNumber::ambiguity]: note that the letter is always read as
    [AlphaLower] (line 139). *)
Definition ambiguity (n : list_number) : res (option list_number) :=
  match ln_num n with
  | RomanLower | RomanUpper =>
      let v := ln_val n in
      let d := if N.eqb v 1 then Some (B "i")
               else if N.eqb v 5 then Some (B "v")
               else if N.eqb v 10 then Some (B "x")
               else if N.eqb v 50 then Some (B "l")
               else if N.eqb v 100 then Some (B "c")
               else if N.eqb v 500 then Some (B "d")
               else if N.eqb v 1000 then Some (B "m")
               else None in
      match d with
      | None => Ok None
      | Some d =>
          let! v' := parse_number AlphaLower d in
          Ok (Some (LN (if numbering_eqb (ln_num n) RomanLower then AlphaLower else AlphaUpper) v'))
      end
  | _ => Ok None
  end.

(** src/block.rs:151-177 [ListType::continues] *)
Definition lt_continues (a b : list_type) : res (option (list_type * list_type)) :=
  if list_type_eqb a b then Ok (Some (a, b))
  else match a, b with
  | LOrdered n0 s0, LOrdered n1 s1 =>
      if numbering_eqb (ln_num n0) (ln_num n1) && ostyle_eqb s0 s1 then Ok (Some (a, b))
      else if ostyle_eqb s0 s1 then
        let! a0 := ambiguity n0 in
        match a0 with
        | Some na0 =>
            if numbering_eqb (ln_num na0) (ln_num n1) then
              let! v := u64 (ln_val na0 + 1)%N "block.rs:160" in
              Ok (if N.eqb v (ln_val n1) then Some (LOrdered na0 s0, b) else None)
            else Ok None
        | None =>
            let! a1 := ambiguity n1 in
            match a1 with
            | Some na1 =>
                if numbering_eqb (ln_num n0) (ln_num na1) then
                  let! v := u64 (ln_val n0 + 1)%N "block.rs:166" in
                  Ok (if N.eqb v (ln_val na1) then Some (a, LOrdered na1 s1) else None)
                else Ok None
            | None => Ok None
            end
        end
      else Ok None
  | _, _ => Ok None
  end.

(** src/block.rs:97-102 [ListItemKind] *)
Inductive item_kind := ITask (checked : bool) | IDescription | IList.

(** src/block.rs:56-63 [Atom] *)
Inductive batom := BBlankline | BAttributes | BThematicBreak.

(** src/block.rs:66-82 [Leaf] *)
Inductive leaf :=
| FParagraph
| FHeading (level : nat) (has_section : bool) (pos : N)
| FDescriptionTerm
| FTableCell (a : align)
| FCaption
| FLinkDefinition (label : bytes)
| FCodeBlock (language : bytes).

(** src/block.rs:85-95 [Container] *)
Inductive bcont :=
| BDocument | BBlockquote | BDiv (class : bytes) | BList (ty : list_type) (tight : bool)
| BListItem (k : item_kind) | BFootnote (label : bytes) | BTable | BTableRow (head : bool)
| BSection (pos : N).

(** src/block.rs:34-38 [Node] *)
Inductive node := NCont (c : bcont) | NLeaf (l : leaf).

(** src/block.rs:25-32 [EventKind] *)
Inductive bkind_ev := BEnter (n : node) | BInline | BExit (n : node) | BAtom (a : batom) | BStale.

(** src/block.rs:19-23 [Event] *)
Record bev := BE { bk : bkind_ev; bsp : span }.

(** src/block.rs:922-926 [FenceKind] *)
Inductive fence_kind := FenceDiv | FenceCode (c : ascii).
Definition fence_kind_eqb (a b : fence_kind) : bool :=
  match a, b with
  | FenceDiv, FenceDiv => true
  | FenceCode c, FenceCode d => beq c d
  | _, _ => false
  end.

(** src/block.rs:928-960 [Kind] *)
Inductive bkind :=
| KAtom (a : batom)
| KParagraph
| KHeading (level : nat)
| KFenced (indent flen : nat) (k : fence_kind) (spec : bytes) (closing : bool)
          (nested : option (ascii * nat))
| KDefinition (indent : nat) (footnote : bool) (label : bytes) (last_blank : bool)
| KBlockquote
| KListItem (indent : nat) (ty : list_type) (last_blank : bool)
| KTable (caption blank : bool).

Definition ws_not_nl (c : ascii) : bool := is_ws c && negb (beq c NL).

(** src/block.rs:1116-1126 [is_thematic_break]; [n] counts the markers. *)
Fixpoint thematic_loop (s : bytes) (n : nat) : bool :=
  match s with
  | [] => Nat.leb 3 n
  | c :: s' => if beq c "-" || beq c "*" then thematic_loop s' (S n)
               else if is_ws c then thematic_loop s' n else false
  end.
Definition is_thematic_break (chars : bytes) : bool := thematic_loop chars 1.

Definition is_roman_lower (c : ascii) : bool :=
  beq c "i" || beq c "v" || beq c "x" || beq c "l" || beq c "c" || beq c "d" || beq c "m".
Definition is_roman_upper (c : ascii) : bool :=
  beq c "I" || beq c "V" || beq c "X" || beq c "L" || beq c "C" || beq c "D" || beq c "M".

(** src/block.rs:1145-1158: numbering guessed from the first character. *)
Definition guess_numbering (first : ascii) : option numbering :=
  if is_digit first then Some Decimal
  else if is_roman_lower first then Some RomanLower
  else if is_roman_upper first then Some RomanUpper
  else if is_lower first then Some AlphaLower
  else if is_upper first then Some AlphaUpper
  else None.
(** src/block.rs:1160-1164 *)
Definition num_max_len (n : numbering) : nat :=
  match n with AlphaLower | AlphaUpper => 1 | Decimal => 19 | RomanLower | RomanUpper => 13 end.
(** src/block.rs:1170-1176 *)
Definition num_char (n : numbering) (c : ascii) : bool :=
  match n with
  | Decimal => is_digit c
  | AlphaLower => is_lower c
  | AlphaUpper => is_upper c
  | RomanLower => is_roman_lower c
  | RomanUpper => is_roman_upper c
  end.

(** src/block.rs:1128-1208 [maybe_ordered_list_item].  Everything before the character after the
    number is ASCII, so characters are bytes. *)
Definition maybe_ordered (line : bytes) : res (option (list_number * ostyle * nat)) :=
  let start_paren := starts_c line "(" in
  match (if start_paren then skipn 1 line else line) with
  | [] => Ok None
  | first :: chars =>
      match guess_numbering first with
      | None => Ok None
      | Some nb =>
          let len_num := 1 + count_while (num_char nb) (firstn (num_max_len nb - 1) chars) in
          match skipn (len_num - 1) chars with
          | [] => Ok None
          | post :: after =>
              let style := if start_paren
                           then (if beq post ")" then Some OParenParen else None)
                           else if beq post ")" then Some OParen
                           else if beq post "." then Some OPeriod
                           else None in
              match style with
              | None => Ok None
              | Some style =>
                  if hd_none_or is_ws after then
                    let len := len_num + ((if start_paren then 1 else 0) + 1) in
                    let! v := parse_number nb (style_number style (firstn len line)) in
                    Ok (Some (LN nb v, style, len))
                  else Ok None
              end
          end
      end
  end.

(** src/block.rs:968-1114 [IdentifiedBlock::new] *)
Definition identify (line0 : bytes) : res (bkind * span) :=
  let line := trim_start_m ws_not_nl line0 in
  let indent := length line0 - length line in
  let line_t := trim_end_m is_ws line in
  let l := length line in
  let lt := length line_t in
  let para := (KParagraph, Sp indent indent) in
  match line with
  | [] => Ok (KAtom BBlankline, Sp indent indent)
  | first :: chars =>
      if beq first NL then Ok (KAtom BBlankline, Sp indent (indent + 1))
      else if beq first "#" then
        if hd_none_or is_ws (skipn (count_while (fun c => beq c "#") chars) chars) then
          let level := count_while (fun c => beq c "#") line in
          Ok (KHeading level, Sp indent (indent + level))
        else Ok para
      else if beq first ">" then
        if hd_none_or is_ws chars then Ok (KBlockquote, Sp indent (indent + 1)) else Ok para
      else if beq first "{" then
        let! v := attr_valid line in
        if Nat.eqb v lt then Ok (KAtom BAttributes, Sp indent (indent + l)) else Ok para
      else if beq first "|" then
        if Nat.leb 2 lt && ends_with line_t (B "|") && negb (ends_with line_t [BSL; "|"%char])
        then Ok (KTable false false, Sp indent indent) else Ok para
      else if beq first "[" then
        match position (fun c => beq c "]") chars with
        | None => Ok para
        | Some n =>
            if starts_c (skipn (n + 1) chars) ":" then
              let label := firstn n chars in
              let footnote := starts_c label "^" in
              Ok (KDefinition indent footnote (if footnote then skipn 1 label else label) false,
                  Sp 0 (indent + 3 + n))
            else Ok para
        end
      else if (beq first "-" || beq first "*") && is_thematic_break chars then
        Ok (KAtom BThematicBreak, Sp indent (indent + lt))
      else if beq first "-" || beq first "*" || beq first "+" then
        if hd_none_or (fun c => beq c SP) chars then
          let task := match chars with
                      | _ :: b :: x :: e :: rest =>
                          beq b "[" && (beq x "x" || beq x "X" || beq x SP) && beq e "]"
                          && hd_none_or is_ws rest
                      | _ => false
                      end in
          if task then Ok (KListItem indent (LTask first) false, Sp indent (indent + 5))
          else Ok (KListItem indent (LUnordered first) false, Sp indent (indent + 1))
        else Ok para
      else if beq first ":" && hd_none_or is_ws chars then
        Ok (KListItem indent LDescription false, Sp indent (indent + 1))
      else if beq first "`" || beq first ":" || beq first "~" then
        let flen := 1 + count_while (fun c => beq c first) chars in
        let spec := trim_start_m is_ws (skipn flen line_t) in
        let valid_spec := if beq first ":" then forallb is_name spec
                          else negb (existsb is_ws spec) && negb (existsb (fun c => beq c "`") spec) in
        if valid_spec && Nat.leb 3 flen then
          Ok (KFenced indent flen (if beq first ":" then FenceDiv else FenceCode first) spec false None,
              Sp indent (indent + l))
        else Ok para
      else
        let! o := maybe_ordered line in
        match o with
        | Some (num, style, len) => Ok (KListItem indent (LOrdered num style) false, Sp indent (indent + len))
        | None => Ok para
        end
  end.

Definition is_blank_line (line : bytes) : bool :=
  match trim_m is_ws line with [] => true | _ => false end.
Definition is_para_kind (k : bkind) : bool := match k with KParagraph => true | _ => false end.
Definition is_blank_kind (k : bkind) : bool := match k with KAtom BBlankline => true | _ => false end.

(** src/block.rs:1213-1307 [Kind::continues]: whether [line] continues the block, and the mutated
    kind. *)
Definition continues (k : bkind) (line : bytes) : res (bool * bkind) :=
  match k with
  | KAtom _ => Ok (false, k)
  | KFenced _ _ _ _ true _ => Ok (false, k)
  | KBlockquote =>
      let! (next, _) := identify line in
      Ok (match next with KBlockquote | KParagraph => true | _ => false end, k)
  | KHeading level =>
      let! (next, _) := identify line in
      Ok (match next with KParagraph => true | KHeading l => Nat.eqb l level | _ => false end, k)
  | KParagraph | KTable true _ => Ok (negb (is_blank_line line), k)
  | KListItem indent ty last_blank =>
      let whitespace := length line - length (trim_start_m is_ws line) in
      let! (next, _) := identify line in
      let para := negb last_blank && is_para_kind next in
      let lb := is_blank_kind next in
      Ok (lb || Nat.ltb indent whitespace || para, KListItem indent ty lb)
  | KDefinition indent true label last_blank =>
      let! (next, _) := identify line in
      let whitespace := length line - length (trim_start_m is_ws line) in
      let cont_para := negb last_blank && is_para_kind next in
      let lb := is_blank_kind next in
      Ok (Nat.ltb indent whitespace || lb || cont_para, KDefinition indent true label lb)
  | KDefinition _ false _ _ => Ok (starts_c line SP && negb (is_blank_line line), k)
  | KFenced indent flen fk spec false nested =>
      let! (next, _) := identify line in
      Ok (true,
          match next with
          | KFenced _ l k' spec' _ _ =>
              match nested with
              | Some (c, nl) =>
                  if fence_kind_eqb (FenceCode c) k' && Nat.leb nl l && bytes_eqb spec' []
                  then KFenced indent flen fk spec false None else k
              | None =>
                  if fence_kind_eqb k' fk
                  then KFenced indent flen fk spec (Nat.leb flen l && bytes_eqb spec' []) None
                  else match fk, k' with
                       | FenceDiv, FenceCode c => KFenced indent flen fk spec false (Some (c, l))
                       | _, _ => k
                       end
              end
          | _ => k
          end)
  | KTable false blank =>
      let line_t := trim_m is_ws line in
      match line_t with
      | [] => Ok (true, KTable false true)
      | _ => if starts_with line_t (B "^ ") then Ok (true, KTable true blank)
             else Ok (negb blank && (starts_c line_t "|" && ends_with line_t (B "|")
                                     && negb (ends_with line_t [BSL; "|"%char])), k)
      end
  end.

(** src/block.rs:912: [1 + lines.take_while(|l| kind.continues(l)).count()] without the 1. *)
Fixpoint take_cont (src : bytes) (k : bkind) (lines : list span) : res (nat * bkind) :=
  match lines with
  | [] => Ok (0, k)
  | sp :: ls =>
      let! l := ssub src sp "block.rs:293" in
      let! (b, k') := continues k l in
      if b then let! (n, k'') := take_cont src k' ls in Ok (S n, k'') else Ok (0, k')
  end.

(** src/block.rs:909-919 [MeteredBlock::new] on a non-empty list of lines. *)
Definition metered (src : bytes) (first : span) (rest : list span) : res (bkind * span * nat) :=
  let! l := ssub src first "block.rs:293" in
  let! (k, sp) := identify l in
  let! (n, k') := take_cont src k rest in
  Ok (k', sp, 1 + n).

(** src/block.rs:1311-1327 [lines]: ranges of the lines, newline included; [start] is the offset of
    the line that contains [rest]'s first byte, [pos] the offset of [rest]. *)
Fixpoint lines_from (rest : bytes) (start pos : nat) : list span :=
  match rest with
  | [] => if Nat.ltb start pos then [Sp start pos] else []
  | c :: rest' => if beq c NL then Sp start (S pos) :: lines_from rest' (S pos) (S pos)
                  else lines_from rest' start (S pos)
  end.
Definition lines (src : bytes) : list span := lines_from src 0 0.

(** src/block.rs:180-193 [OpenList] *)
Record open_list := OL { ol_start : list_type; ol_prev : list_type; ol_depth : nat; ol_event : nat }.

(** src/block.rs:196-213 [TreeParser]; [src] is passed separately, [alignments] is local to
    [parse_table], which clears it on entry. *)
Record tstate := T {
  t_pblank : bool;
  t_ploose : bool;
  t_attr : option nat;
  t_lists : list open_list;
  t_secs : list nat;
  t_open : list nat;
  t_events : list bev
}.

(** src/block.rs:217-229 [TreeParser::new] *)
Definition t_new : tstate := T false false None [] [] [] [].

Definition t_set_events (s : tstate) (e : list bev) : tstate :=
  T (t_pblank s) (t_ploose s) (t_attr s) (t_lists s) (t_secs s) (t_open s) e.
Definition t_set_open (s : tstate) (o : list nat) : tstate :=
  T (t_pblank s) (t_ploose s) (t_attr s) (t_lists s) (t_secs s) o (t_events s).
Definition t_set_lists (s : tstate) (l : list open_list) : tstate :=
  T (t_pblank s) (t_ploose s) (t_attr s) l (t_secs s) (t_open s) (t_events s).
Definition t_set_secs (s : tstate) (l : list nat) : tstate :=
  T (t_pblank s) (t_ploose s) (t_attr s) (t_lists s) l (t_open s) (t_events s).
Definition t_set_blank (s : tstate) (b : bool) : tstate :=
  T b (t_ploose s) (t_attr s) (t_lists s) (t_secs s) (t_open s) (t_events s).
Definition t_set_loose (s : tstate) (b : bool) : tstate :=
  T (t_pblank s) b (t_attr s) (t_lists s) (t_secs s) (t_open s) (t_events s).
Definition t_set_attr (s : tstate) (a : option nat) : tstate :=
  T (t_pblank s) (t_ploose s) a (t_lists s) (t_secs s) (t_open s) (t_events s).

Definition t_push (s : tstate) (k : bkind_ev) (sp : span) : tstate :=
  t_set_events s (t_events s ++ [BE k sp]).

(** src/block.rs:258-263 [inline] *)
Definition t_inline (s : tstate) (sp : span) : tstate := t_push s BInline sp.

(** src/block.rs:265-273 [enter]; the index of the new event is [length (t_events s)]. *)
Definition t_enter (s : tstate) (n : node) (sp : span) : tstate :=
  t_set_open (t_push s (BEnter n) sp) (length (t_events s) :: t_open s).

(** Pop [open] and read the entered node (src/block.rs:277-279, 548-550). *)
Definition t_pop_open (s : tstate) (w : string) : res (node * tstate) :=
  match t_open s with
  | [] => Panic w
  | i :: o =>
      let! e := get_at (t_events s) i w in
      match bk e with
      | BEnter n => Ok (n, t_set_open s o)
      | _ => Panic w
      end
  end.

(** src/block.rs:275-285 [exit] *)
Definition t_exit (s : tstate) (sp : span) : res tstate :=
  let! (n, s') := t_pop_open s "block.rs:277" in Ok (t_push s' (BExit n) sp).

(** src/block.rs:867-881 [close_list] *)
Definition close_list (s : tstate) (l : open_list) (pos : nat) : res tstate :=
  let! e := get_at (t_events s) (ol_event l) "block.rs:869" in
  match bk e with
  | BEnter (NCont (BList _ tight)) =>
      let tight' := if t_ploose s then true else tight in
      let! evs := set_at (t_events s) (ol_event l)
                         (BE (BEnter (NCont (BList (ol_start l) tight'))) (bsp e)) "block.rs:869" in
      t_exit (t_set_events s evs) (Sp pos pos)
  | _ => Panic "block.rs:877"
  end.

(** src/block.rs:883-897 [trim_start], [trim_end], [trim] on ranges.  Trimming everything leaves an
    empty range at the end ([trim_start]) resp. at the start ([trim_end]). *)
Definition sp_trim_start (src : bytes) (sp : span) : res span :=
  let! s := ssub src sp "block.rs:884" in
  Ok (Sp (se sp - length (trim_start_m is_ws s)) (se sp)).
Definition sp_trim_end (src : bytes) (sp : span) : res span :=
  let! s := ssub src sp "block.rs:890" in
  Ok (Sp (ss sp) (ss sp + length (trim_end_m is_ws s))).
Definition sp_trim (src : bytes) (sp : span) : res span :=
  let! s := sp_trim_start src sp in sp_trim_end src s.

(** Monadic map. *)
Fixpoint mapr {A C} (f : A -> res C) (l : list A) : res (list C) :=
  match l with
  | [] => Ok []
  | x :: l' => let! y := f x in let! ys := mapr f l' in Ok (y :: ys)
  end.
(** Replace the last element using [f]. *)
Definition map_last {A} (f : A -> res A) (l : list A) : res (list A) :=
  match last_opt l with
  | None => Ok l
  | Some x => let! y := f x in Ok (butlast l ++ [y])
  end.

(** src/block.rs:343-354: strip a repeated heading marker from a continuation line. *)
Definition heading_cont (src : bytes) (level : nat) (line : span) : res span :=
  let! l := bsub src line "block.rs:344" in
  let l1 := skipn (count_while is_ws l) l in
  let hash := count_while (fun c => beq c "#") l1 in
  let l2 := skipn hash l1 in
  let post_ws := count_while is_ws l2 in
  if Nat.ltb 0 post_ws then
    let! _ := assert (Nat.eqb level hash) "block.rs:351" in
    Ok (Sp (ss line + (sp_len line - length (skipn post_ws l2))) (se line))
  else Ok line.

(** src/block.rs:496-502: remove up to [indent] bytes of indentation from a code block line. *)
Definition unindent (src : bytes) (indent : nat) (line : span) : res span :=
  let! l := bsub src line "block.rs:497" in
  Ok (Sp (ss line + Nat.min indent (count_while ws_not_nl l)) (se line)).

(** src/block.rs:495-533, 572-575: the inline ranges of a leaf block. *)
Definition leaf_lines (src : bytes) (lf : leaf) (k : bkind) (ls : list span) : res (list span) :=
  match k with
  | KFenced indent _ _ spec _ _ =>
      let! ls1 := mapr (unindent src indent) ls in
      if starts_c spec "=" then map_last (sp_trim_end src) ls1 else Ok ls1
  | _ =>
      let! ls1 := mapr (sp_trim_start src) ls in
      let ls2 := match ls1 with
                 | l :: ls' => if sp_empty l then ls' else ls1
                 | [] => ls1
                 end in
      let! ls3 := (match lf with
                   | FLinkDefinition _ => mapr (sp_trim_end src) ls2
                   | _ => Ok ls2
                   end) in
      map_last (sp_trim_end src) ls3
  end.

(** [x as u32] *)
Definition to_u32 (n : nat) : N := N.modulo (N.of_nat n) 4294967296.
(** [x.try_into::<u16>().unwrap()] *)
Definition to_u16 (n : nat) (w : string) : res nat :=
  if N.ltb (N.of_nat n) 65536 then Ok n else Panic w.

(** src/block.rs:547-561: close [n] sections, the [i]-th Exit inserted at [attr_start + i]. *)
Fixpoint close_secs (n i start : nat) (s : tstate) : res tstate :=
  match n with
  | O => Ok s
  | S n' =>
      let! (nd, s1) := t_pop_open s "block.rs:548" in
      let! e := (match t_attr s with
                 | None => Ok start
                 | Some a => let! ev := get_at (t_events s) a "block.rs:553" in Ok (ss (bsp ev))
                 end) in
      let at_ := match t_attr s with None => length (t_events s) | Some a => a + i end in
      let! evs := insert_at (t_events s) at_ (BE (BExit nd) (Sp e e)) "block.rs:554" in
      close_secs n' (S i) start (t_set_events s1 evs)
  end.

(** src/block.rs:535-569: open and close sections before a top-level heading. *)
Definition open_section (s : tstate) (level start : nat) : res tstate :=
  let first_close := match rposition (fun l => Nat.ltb l level) (t_secs s) with
                     | None => 0 | Some i => i + 1 end in
  let! s1 := close_secs (length (t_secs s) - first_close) 0 start s in
  let s2 := t_set_secs s1 (firstn first_close (t_secs s1) ++ [level]) in
  Ok (t_enter s2 (NCont (BSection (to_u32 start))) (Sp start start)).

(** Emit an Inline event for every range of [ls]. *)
Definition t_inlines (s : tstate) (ls : list span) : tstate := fold_left t_inline ls s.

(** src/block.rs:487-577 [parse_leaf] *)
Definition parse_leaf (src : bytes) (s : tstate) (lf : leaf) (k : bkind) (sp_start sp_end : span)
           (ls : list span) : res tstate :=
  let! ls' := leaf_lines src lf k ls in
  let! s1 := (match k, lf with
              | KHeading level, FHeading _ true _ => open_section s level (ss sp_start)
              | _, _ => Ok s
              end) in
  let s2 := t_enter s1 (NLeaf lf) sp_start in
  t_exit (t_inlines s2 (filter (fun l => negb (sp_empty l)) ls')) sp_end.

(** src/block.rs:766-775: is this table cell a separator cell? *)
Definition separator_cell (cell : bytes) : bool :=
  match cell with
  | [] => false
  | [c] => beq c "-"
  | [c; d] => (beq c ":" && beq d "-") || (beq c "-" && beq d "-") || (beq c "-" && beq d ":")
  | c :: r => (beq c "-" || beq c ":")
              && match last_opt r with Some d => beq d "-" || beq d ":" | None => false end
              && forallb (fun c => beq c "-") (butlast r)
  end.

(** src/block.rs:755-799: the cells of one table row.  Returns the state, the final position, whether
    every cell is a separator cell, and the open verbatim fence length. *)
Fixpoint row_cells (fuel : nat) (src : bytes) (aligns : list align) (lx : lexer) (pos cell_start : nat)
         (sep : bool) (verb : option nat) (col : nat) (s : tstate)
  : res (tstate * nat * bool * option nat) :=
  match fuel with
  | O => Fuel
  | S f =>
      let! (t, lx1) := lex_next lx in
      match t with
      | None => Ok (s, pos, sep, verb)
      | Some (Tok k len) =>
          match verb with
          | Some l =>
              match k with
              | LSeq Backtick =>
                  if Nat.eqb len l
                  then row_cells f src aligns (lex_set_verb lx1 false) (pos + len) cell_start sep None col s
                  else row_cells f src aligns lx1 (pos + len) cell_start sep verb col s
              | _ => row_cells f src aligns lx1 (pos + len) cell_start sep verb col s
              end
          | None =>
              match k with
              | LSym Pipe =>
                  let! sp := sp_trim src (Sp cell_start pos) in
                  let! cell := ssub src sp "block.rs:765" in
                  let sep' := sep && separator_cell cell in
                  let al := match nth_error aligns col with Some a => a | None => AlUnspecified end in
                  let s1 := t_enter s (NLeaf (FTableCell al)) (Sp cell_start cell_start) in
                  let! s2 := t_exit (t_inline s1 sp) (Sp pos (pos + 1)) in
                  row_cells f src aligns lx1 (pos + len) (pos + len) sep' verb (col + 1) s2
              | LSeq Backtick =>
                  row_cells f src aligns (lex_set_verb lx1 true) (pos + len) cell_start sep (Some len) col s
              | _ => row_cells f src aligns lx1 (pos + len) cell_start sep verb col s
              end
          end
      end
  end.

(** src/block.rs:807-817: alignment given by a separator cell. *)
Definition cell_align (src : bytes) (sp : span) : res align :=
  let! cell := ssub src sp "block.rs:808" in
  let! c := get_at cell 0 "block.rs:809" in
  let! n := usub (length cell) 1 "block.rs:810" in
  let! d := get_at cell n "block.rs:810" in
  Ok (match beq c ":", beq d ":" with
      | false, false => AlUnspecified
      | false, true => AlRight
      | true, false => AlLeft
      | true, true => AlCenter
      end).

Definition is_binline (e : bev) : bool := match bk e with BInline => true | _ => false end.

(** src/block.rs:822-844: give the cell events after the head row's start their alignment; the
    alignment is used for both Enter and Exit of a cell, [second] tells which one is next. *)
Fixpoint realign (evs : list bev) (aligns : list align) (second : bool) : list bev :=
  match evs with
  | [] => []
  | e :: evs' =>
      let a := match aligns with a :: _ => a | [] => AlUnspecified end in
      let rest := if second then tl aligns else aligns in
      match bk e with
      | BEnter (NLeaf (FTableCell _)) =>
          BE (BEnter (NLeaf (FTableCell a))) (bsp e) :: realign evs' rest (negb second)
      | BExit (NLeaf (FTableCell _)) =>
          BE (BExit (NLeaf (FTableCell a))) (bsp e) :: realign evs' rest (negb second)
      | _ => e :: realign evs' aligns second
      end
  end.

(** src/block.rs:821-857: turn the previous row into a head row. *)
Definition make_head (evs : list bev) (aligns : list align) (h_enter h_exit : nat) : res (list bev) :=
  let evs1 := firstn (h_enter + 1) evs ++ realign (skipn (h_enter + 1) evs) aligns false in
  let! e := get_at evs1 h_enter "block.rs:845" in
  let! evs2 := (match bk e with
                | BEnter (NCont (BTableRow _)) =>
                    set_at evs1 h_enter (BE (BEnter (NCont (BTableRow true))) (bsp e)) "block.rs:845"
                | _ => Panic "block.rs:849"
                end) in
  let! x := get_at evs2 h_exit "block.rs:851" in
  match bk x with
  | BExit (NCont (BTableRow _)) =>
      set_at evs2 h_exit (BE (BExit (NCont (BTableRow true))) (bsp x)) "block.rs:851"
  | _ => Panic "block.rs:855"
  end.

(** src/block.rs:738-862: loop over the rows; [last] is [last_row_event]. *)
Fixpoint table_rows (src : bytes) (rows : list span) (aligns : list align) (last : option (nat * nat))
         (s : tstate) : res tstate :=
  match rows with
  | [] => Ok s
  | r :: rows' =>
      let! row := sp_trim src r in
      if sp_empty row then Ok s
      else
        let row_enter := length (t_events s) in
        let s1 := t_enter s (NCont (BTableRow false)) (Sp (ss row) (ss row + 1)) in
        let rem := Sp (ss row + 1) (se row) in
        let! b := bsub src rem "block.rs:749" in
        let! (s2, pos, sep, verb) :=
          row_cells (S (S (length b))) src aligns (lex_new b) (ss rem) (ss rem) true None 0 s1 in
        if sep && match verb with None => true | Some _ => false end then
          let! aligns' := mapr (fun e => cell_align src (bsp e))
                               (filter is_binline (skipn (row_enter + 1) (t_events s2))) in
          let s3 := t_set_open s2 (tl (t_open s2)) in
          let evs := firstn row_enter (t_events s3) in
          match last with
          | None => table_rows src rows' aligns' last (t_set_events s3 evs)
          | Some (he, hx) =>
              let! evs' := make_head evs aligns' he hx in
              table_rows src rows' aligns' last (t_set_events s3 evs')
          end
        else
          let row_exit := length (t_events s2) in
          let! s3 := t_exit s2 (Sp pos pos) in
          table_rows src rows' aligns (Some (row_enter, row_exit)) s3
  end.

(** Index of the first line that starts a caption (src/block.rs:719-726). *)
Fixpoint caption_pos (src : bytes) (ls : list span) : res (option nat) :=
  match ls with
  | [] => Ok None
  | sp :: ls' =>
      let! l := ssub src sp "block.rs:722" in
      if starts_c (trim_start_m is_ws l) "^" then Ok (Some 0)
      else let! r := caption_pos src ls' in Ok (option_map S r)
  end.

(** src/block.rs:710-865 [parse_table] *)
Definition parse_table (src : bytes) (s : tstate) (ls : list span) (sp_start sp_end : span) : res tstate :=
  let s1 := t_enter s (NCont BTable) sp_start in
  let! cp := caption_pos src ls in
  let! (s2, n) :=
    (match cp with
     | None => Ok (s1, length ls)
     | Some n =>
         let s1 := t_enter s1 (NLeaf FCaption) sp_start in
         match skipn n ls with
         | [] => Panic "block.rs:728"
         | c :: cs =>
             let! c1 := sp_trim_start src c in
             let! cl := map_last (sp_trim_end src) (Sp (ss c1 + 2) (se c1) :: cs) in
             let! s1' := t_exit (t_inlines s1 cl) sp_end in
             Ok (s1', n)
         end
     end) in
  let! s3 := table_rows src (firstn n ls) [] None s2 in
  t_exit s3 sp_end.

(** src/block.rs:589-614: remove indentation or the '>' prefix from a continuation line of a
    container.  [trim_matches] of a blank line yields an empty slice at its start. *)
Definition cont_line (src : bytes) (k : bkind) (outer_len : nat) (sp : span) : res span :=
  let! l := ssub src sp "block.rs:590" in
  let t := trim_m is_ws l in
  let whitespace := match t with [] => 0 | _ => length l - length (trim_start_m is_ws l) end in
  let! skip :=
    (match k with
     | KBlockquote =>
         Ok (if bytes_eqb t (B ">") then whitespace + 1
             else if starts_c t ">" && hd_is is_ws (skipn 1 t) then whitespace + 2
             else 0)
     | KListItem _ _ _ | KDefinition _ _ _ _ => Ok (Nat.min whitespace outer_len)
     | KFenced indent _ _ _ _ _ => Ok (Nat.min whitespace indent)
     | _ => Panic "block.rs:607"
     end) in
  let len := count_while (fun c => negb (beq c NL)) l in
  Ok (Sp (ss sp + Nat.min skip len) (se sp)).

Definition is_exit_para (e : bev) : bool :=
  match bk e with BExit (NLeaf FParagraph) => true | _ => false end.
Definition is_bblank (e : bev) : bool :=
  match bk e with BAtom BBlankline => true | _ => false end.

(** Update [open] at index [i] from the bottom. *)
Definition set_bottom (o : list nat) (i x : nat) (w : string) : res (list nat) :=
  let! n := usub (length o) (i + 1) w in set_at o n x w.

(** src/block.rs:652-695: turn the first paragraph of a description item into the term.  The loop
    that copies [enter_term..first_detail] one to the left is written as a concatenation. *)
Definition move_term (s : tstate) (c : bcont) (empty_term enter_detail open_detail : nat) : res tstate :=
  let enter_term := enter_detail + 1 in
  let evs := t_events s in
  match nth_error evs enter_term with
  | Some (BE (BEnter (NLeaf FParagraph)) _) =>
      let! inner := unwrap (position is_exit_para (skipn (enter_term + 1) evs)) "block.rs:662" in
      let exit_term := enter_term + 1 + inner in
      let! x := get_at evs exit_term "block.rs:665" in
      let! e0 := get_at evs empty_term "block.rs:672" in
      let! e1 := get_at evs (empty_term + 1) "block.rs:673" in
      let evs := upd evs exit_term (BE (BExit (NLeaf FDescriptionTerm)) (bsp x)) in
      let evs := upd evs empty_term (BE BStale (bsp e0)) in
      let evs := upd evs (empty_term + 1) (BE BStale (bsp e1)) in
      let evs := upd evs enter_term (BE (BEnter (NLeaf FDescriptionTerm)) (bsp e0)) in
      let first_detail :=
        match position (fun e => negb (is_bblank e)) (skipn (exit_term + 1) evs) with
        | None => length evs
        | Some i => exit_term + 1 + i
        end in
      let! detail_pos :=
        (match nth_error evs first_detail with
         | Some e => Ok (ss (bsp e))
         | None => let! l := unwrap (last_opt evs) "block.rs:684" in Ok (se (bsp l))
         end) in
      let evs' := firstn enter_detail evs
                  ++ firstn (first_detail - enter_term) (skipn enter_term evs)
                  ++ BE (BEnter (NCont c)) (Sp detail_pos detail_pos) :: skipn first_detail evs in
      let! o := set_bottom (t_open s) open_detail (first_detail - 1) "block.rs:692" in
      Ok (t_set_open (t_set_events s evs') o)
  | _ => Ok s
  end.

(** src/block.rs:616-634: open a new list unless the item continues the innermost open one. *)
Definition maybe_open_list (s : tstate) (k : bkind) (start : nat) : res tstate :=
  match k with
  | KListItem _ ty _ =>
      if match t_lists s with [] => true | l :: _ => Nat.ltb (ol_depth l) (length (t_open s)) end then
        let ev := length (t_events s) in
        let s1 := t_enter s (NCont (BList ty true)) (Sp start start) in
        let! d := to_u16 (length (t_open s1)) "block.rs:630" in
        Ok (t_set_lists s1 (OL ty ty d ev :: t_lists s1))
      else Ok s
  | _ => Ok s
  end.

(** src/block.rs:697-705: close a list left open by the children of a container. *)
Definition close_inner_list (s : tstate) (pos : nat) : res tstate :=
  match t_lists s with
  | l :: ls =>
      let! _ := assert (Nat.leb (ol_depth l) (length (t_open s))) "block.rs:698" in
      if Nat.eqb (length (t_open s)) (ol_depth l) then
        close_list (t_set_lists (t_set_loose (t_set_blank s false) false) ls) l pos
      else Ok s
  | [] => Ok s
  end.

(** src/block.rs:579-708 [parse_container]; [rec] parses the children. *)
Definition parse_container (rec : tstate -> list span -> res tstate) (src : bytes) (s : tstate)
           (c : bcont) (k : bkind) (sp_start sp_end : span) (outer_len : nat) (ls : list span)
  : res tstate :=
  let! ls' := (match ls with
               | [] => Ok []
               | l :: ls => let! ls' := mapr (cont_line src k outer_len) ls in Ok (l :: ls')
               end) in
  let! s1 := maybe_open_list s k (ss sp_start) in
  match c with
  | BListItem IDescription =>
      let dt := length (t_events s1) in
      let s2 := t_enter s1 (NLeaf FDescriptionTerm) sp_start in
      let! te := sp_trim_end src sp_start in
      let! s3 := t_exit s2 (Sp (se te) (se te)) in
      let! l0 := get_at ls' 0 "block.rs:640" in
      let enter_detail := length (t_events s3) in
      let open_detail := length (t_open s3) in
      let s4 := t_enter s3 (NCont c) (Sp (ss l0) (ss l0)) in
      let! s5 := rec s4 ls' in
      let! s6 := move_term s5 c dt enter_detail open_detail in
      let! s7 := close_inner_list s6 (ss sp_end) in
      t_exit s7 sp_end
  | _ =>
      let s4 := t_enter s1 (NCont c) sp_start in
      let! s5 := rec s4 ls' in
      let! s7 := close_inner_list s5 (ss sp_end) in
      t_exit s7 sp_end
  end.

(** src/block.rs:370-398: close the innermost list if the new block does not continue it. *)
Definition update_lists (s : tstate) (k : bkind) (start : nat) : res tstate :=
  match t_lists s with
  | [] => Ok s
  | l :: ls =>
      let! _ := assert (Nat.leb (ol_depth l) (length (t_open s))) "block.rs:378" in
      if Nat.eqb (length (t_open s)) (ol_depth l) then
        let! r := (match k with
                   | KListItem _ ty_new _ => lt_continues (ol_prev l) ty_new
                   | _ => Ok None
                   end) in
        match r with
        | Some (prev_res, new_res) =>
            let start' := if list_type_eqb (ol_start l) (ol_prev l) then prev_res else ol_start l in
            Ok (t_set_lists s (OL start' new_res (ol_depth l) (ol_event l) :: ls))
        | None => close_list (t_set_lists s ls) l start
        end
      else Ok s
  end.

(** src/block.rs:400-422: blank line and looseness bookkeeping. *)
Definition update_loose (s : tstate) (k : bkind) : res tstate :=
  match k with
  | KAtom BBlankline => Ok (t_set_blank s true)
  | _ =>
      let s1 := t_set_loose s false in
      let! s2 :=
        (if t_pblank s1 then
           match t_lists s1 with
           | [] => Ok s1
           | l :: _ =>
               if Nat.leb (length (t_open s1)) (ol_depth l)
                  || match k with KListItem _ _ _ => false | _ => true end then
                 let! e := get_at (t_events s1) (ol_event l) "block.rs:411" in
                 match bk e with
                 | BEnter (NCont (BList ty true)) =>
                     Ok (t_set_loose
                           (t_set_events s1 (upd (t_events s1) (ol_event l)
                                                 (BE (BEnter (NCont (BList ty false))) (bsp e))))
                           true)
                 | _ => Ok s1
                 end
               else Ok s1
           end
         else Ok s1) in
      Ok (t_set_blank s2 false)
  end.

(** src/block.rs:298-319: drop trailing blank lines of a table without caption. *)
Definition table_trailing (src : bytes) (k : bkind) (ls : list span) : res (list span) :=
  match k with
  | KTable false true =>
      let! bl := mapr (fun sp => ssub src sp "block.rs:311") ls in
      Ok (firstn (length ls - count_while is_blank_line (rev bl)) ls)
  | _ => Ok ls
  end.

(** src/block.rs:288-485 [parse_block] on a non-empty list of lines; returns the number of lines
    used. [rec] parses a list of children lines with [top_level = false]. *)
Definition parse_block (rec : tstate -> list span -> res tstate) (src : bytes) (s : tstate)
           (line0 : span) (rest : list span) (top : bool) : res (nat * tstate) :=
  let! (k, sp0, lc) := metered src line0 rest in
  let ls := firstn lc (line0 :: rest) in
  let sp_start := Sp (ss sp0 + ss line0) (se sp0 + ss line0) in
  let! ls := table_trailing src k ls in
  let lc := length ls in
  let! end_line := unwrap (last_opt ls) "block.rs:321" in
  let sp_end := match k with
                | KFenced _ _ _ _ true _ => end_line
                | _ => Sp (se end_line) (se end_line)
                end in
  let! outer_len := usub (se sp_start) (ss line0) "block.rs:331" in
  let l0 := Sp (ss line0 + outer_len) (se line0) in
  let tls := tl ls in
  let! ls :=
    (match k with
     | KBlockquote =>
         if Nat.ltb (ss l0) (se l0) then
           let! c := get_at src (ss l0) "block.rs:338" in
           Ok ((if beq c TAB || beq c SP then Sp (ss l0 + 1) (se l0) else l0) :: tls)
         else Ok (l0 :: tls)
     | KHeading level => let! tls' := mapr (heading_cont src level) tls in Ok (l0 :: tls')
     | _ => Ok (l0 :: tls)
     end) in
  let! ls :=
    (match k with
     | KFenced _ _ _ _ closing _ =>
         let! n := usub (length ls) (if closing then 1 else 0) "block.rs:364" in
         if Nat.leb 1 n then Ok (skipn 1 (firstn n ls)) else Panic "block.rs:365"
     | _ => Ok ls
     end) in
  let! s1 := update_lists s k (ss sp_start) in
  let! s2 := update_loose s1 k in
  let! s3 :=
    (match k with
     | KAtom a => Ok (t_push s2 (BAtom a) sp_start)
     | KParagraph => parse_leaf src s2 FParagraph k sp_start sp_end ls
     | KHeading level =>
         let! level' := to_u16 level "block.rs:428" in
         parse_leaf src s2 (FHeading level' top (to_u32 (ss sp_start))) k sp_start sp_end ls
     | KFenced _ _ (FenceCode _) spec _ _ => parse_leaf src s2 (FCodeBlock spec) k sp_start sp_end ls
     | KFenced _ _ FenceDiv spec _ _ =>
         parse_container rec src s2 (BDiv spec) k sp_start sp_end outer_len ls
     | KDefinition _ false label _ => parse_leaf src s2 (FLinkDefinition label) k sp_start sp_end ls
     | KDefinition _ true label _ =>
         parse_container rec src s2 (BFootnote label) k sp_start sp_end outer_len ls
     | KBlockquote => parse_container rec src s2 BBlockquote k sp_start sp_end outer_len ls
     | KListItem _ ty _ =>
         let! ik := (match ty with
                     | LTask _ => let! c := get_at src (ss sp_start + 3) "block.rs:455" in
                                  Ok (ITask (negb (beq c SP)))
                     | LDescription => Ok IDescription
                     | _ => Ok IList
                     end) in
         parse_container rec src s2 (BListItem ik) k sp_start sp_end outer_len ls
     | KTable _ _ => parse_table src s2 ls sp_start sp_end
     end) in
  let s4 := match k with
            | KAtom BAttributes =>
                t_set_attr s3 (match t_attr s3 with
                               | Some a => Some a
                               | None => Some (length (t_events s3) - 1)
                               end)
            | _ => t_set_attr s3 None
            end in
  Ok (lc, s4).

(** src/block.rs:235-243 (top level) and src/block.rs:647-650 (children): parse blocks until the lines
    are used up.  The fuel bounds both nesting and the number of blocks. *)
Fixpoint parse_blocks (fuel : nat) (src : bytes) (top : bool) (s : tstate) (ls : list span)
  : res tstate :=
  match ls with
  | [] => Ok s
  | l :: rest =>
      match fuel with
      | O => Fuel
      | S f =>
          let! (lc, s') := parse_block (parse_blocks f src false) src s l rest top in
          parse_blocks f src top s' (skipn lc ls)
      end
  end.

(** src/block.rs:244-246: close the lists still open at the end. *)
Fixpoint close_lists (n : nat) (pos : nat) (s : tstate) : res tstate :=
  match n with
  | O => Ok s
  | S n' => match t_lists s with
            | [] => Ok s
            | l :: ls => let! s' := close_list (t_set_lists s ls) l pos in close_lists n' pos s'
            end
  end.
(** src/block.rs:248-250: close the sections still open at the end. *)
Fixpoint exit_n (n : nat) (pos : nat) (s : tstate) : res tstate :=
  match n with
  | O => Ok s
  | S n' => let! s' := t_exit s (Sp pos pos) in exit_n n' pos s'
  end.

Definition block_fuel (src : bytes) : nat := S (length src + length src).

(** src/block.rs:41-43 [parse] and src/block.rs:232-256 [TreeParser::parse] *)
Definition block_parse (src : bytes) : res (list bev) :=
  let s0 := t_enter t_new (NCont BDocument) (Sp 0 0) in
  let! s1 := parse_blocks (block_fuel src) src true s0 (lines src) in
  let! s2 := close_lists (length (t_lists s1)) (length src) s1 in
  let! s3 := exit_n (length (t_secs s2)) (length src) (t_set_secs s2 []) in
  let! s4 := t_exit s3 (Sp (length src) (length src)) in
  let! _ := assert (match t_open s4 with [] => true | _ => false end) "block.rs:253" in
  Ok (t_events s4).
