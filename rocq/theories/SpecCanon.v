(** * SpecCanon: documents as syntax trees

    A small abstract syntax for documents, the Djot text that a careful author would write for a
    tree, and the events a reader of that text expects.  Nothing here refers to the parser. *)
From Verif Require Import Base Block Doc.
Local Open Scope nat_scope.

(** ** Inline content *)

(** The containers written with braces, [{_.._}], [{*..*}], ..., and two of them without, [_.._] and [*..*]. *)
Inductive wrap := WEmphasis | WStrong | WMark | WInsert | WDelete | WSuperscript | WSubscript
                | WUnderscore | WAsterisk.

Inductive inl :=
| TText (t : bytes)                          (* ordinary text *)
| TSoft                                      (* a line break in the source *)
| THard                                      (* backslash, line break *)
| TNbsp                                      (* backslash, space *)
| TEsc (c : ascii)                           (* backslash, punctuation *)
| TDots (n : nat)                            (* n periods *)
| TDash (n : nat)                            (* n hyphens *)
| TWrap (w : wrap) (l : list inl)
| TCode (t : bytes)                          (* `t` *)
| TSym (name : bytes)                        (* :name: *)
| TNote (label : bytes)                      (* [^label] *)
| TAuto (url : bytes)                        (* <url> or <address> *)
| TLink (l : list inl) (dest : bytes)        (* [..](dest) *)
| TImage (l : list inl) (dest : bytes).      (* ![..](dest) *)

Definition wrap_char (w : wrap) : ascii :=
  match w with
  | WEmphasis => "_" | WStrong => "*" | WMark => "=" | WInsert => "+" | WDelete => "-"
  | WSuperscript => "^" | WSubscript => "~" | WUnderscore => "_" | WAsterisk => "*"
  end.
Definition bare (w : wrap) : bool := match w with WUnderscore | WAsterisk => true | _ => false end.
Definition wrap_open (w : wrap) : bytes := if bare w then [wrap_char w] else ["{"%char; wrap_char w].
Definition wrap_close (w : wrap) : bytes := if bare w then [wrap_char w] else [wrap_char w; "}"%char].
Definition wrap_cont (w : wrap) : container :=
  match w with
  | WEmphasis => Emphasis | WStrong => Strong | WMark => Mark | WInsert => Insert | WDelete => Delete
  | WSuperscript => Superscript | WSubscript => Subscript | WUnderscore => Emphasis | WAsterisk => Strong
  end.

(** The source text of inline content. *)
Fixpoint inl_src (x : inl) : bytes :=
  match x with
  | TText t => t
  | TSoft => [NL]
  | THard => [BSL; NL]
  | TNbsp => [BSL; SP]
  | TEsc c => [BSL; c]
  | TDots n => repeat "."%char n
  | TDash n => repeat "-"%char n
  | TWrap w l => wrap_open w ++ flat_map inl_src l ++ wrap_close w
  | TCode t => B "`" ++ t ++ B "`"
  | TSym n => B ":" ++ n ++ B ":"
  | TNote l => B "[^" ++ l ++ B "]"
  | TAuto u => B "<" ++ u ++ B ">"
  | TLink l d => B "[" ++ flat_map inl_src l ++ B "](" ++ d ++ B ")"
  | TImage l d => B "![" ++ flat_map inl_src l ++ B "](" ++ d ++ B ")"
  end.
Definition inls_src (l : list inl) : bytes := flat_map inl_src l.

(** Text is reported in the longest possible pieces: adjacent pieces are one event. *)
Fixpoint join (l : list event) : list event :=
  match l with
  | Str a :: l' => match join l' with
                   | Str b :: l'' => Str (a ++ b) :: l''
                   | l'' => Str a :: l''
                   end
  | e :: l' => e :: join l'
  | [] => []
  end.

(** Em and en dashes for a run of hyphens. *)
Definition dash_events (n : nat) : list event :=
  if Nat.eqb n 1 then [Str (B "-")]
  else if Nat.eqb (n mod 3) 0 then repeat EmDash (n / 3)
  else if Nat.eqb (n mod 2) 0 then repeat EnDash (n / 2)
  else if Nat.eqb (n mod 3) 2 then repeat EmDash ((n - 2) / 3) ++ [EnDash]
  else repeat EmDash ((n - 4) / 3) ++ [EnDash; EnDash].
(** Ellipses and the periods left over. *)
Definition dot_events (n : nat) : list event :=
  repeat Ellipsis (n / 3) ++ (match n mod 3 with 0 => [] | k => [Str (repeat "."%char k)] end).

(** An address has an at sign. *)
Definition auto_type (u : bytes) : link_type := if existsb (fun c => beq c "@") u then LEmail else LAutoLink.
(** The events of inline content, before [join]. *)
Fixpoint inl_evs (x : inl) : list event :=
  match x with
  | TText t => [Str t]
  | TSoft => [Softbreak]
  | THard => [Escape; Hardbreak]
  | TNbsp => [Escape; NonBreakingSpace]
  | TEsc c => [Escape; Str [c]]
  | TDots n => dot_events n
  | TDash n => dash_events n
  | TWrap w l => Start (wrap_cont w) [] :: flat_map inl_evs l ++ [End_ (wrap_cont w)]
  | TCode t => [Start Verbatim []; Str t; End_ Verbatim]
  | TSym n => [Symbol n]
  | TNote l => [FootnoteReference l]
  | TAuto u => [Start (Link u (auto_type u)) []; Str u; End_ (Link u (auto_type u))]
  | TLink l d => Start (Link d (LSpan LInline)) [] :: flat_map inl_evs l ++ [End_ (Link d (LSpan LInline))]
  | TImage l d => Start (Image d LInline) [] :: flat_map inl_evs l ++ [End_ (Image d LInline)]
  end.
Definition inls_evs (l : list inl) : list event := join (flat_map inl_evs l).

(** Bytes of ordinary text: no byte that can start inline syntax, and no '$' (mathematics). *)
Definition syntax_bytes : bytes :=
  [BSL; "["; "]"; "{"; "}"; "*"; "^"; "="; "+"; "~"; "_"; "'"; DQ; "-"; "!"; "<"; ":"; "`"; "."; "$"; NL]%char.
Definition text_byte (c : ascii) : bool := negb (existsb (beq c) syntax_bytes).
(** Bytes of link destinations. *)
Definition dest_byte (c : ascii) : bool :=
  (text_byte c || existsb (beq c) (B ".:-=+!$")) && negb (is_ws c) && negb (existsb (beq c) (B "()|")).
(** Bytes of footnote labels. *)
Definition label_byte (c : ascii) : bool := text_byte c && negb (beq c "}").
(** Bytes of autolinks. *)
Definition auto_byte (c : ascii) : bool := negb (beq c "<" || beq c ">" || is_ws c).
Definition symbol_byte (c : ascii) : bool := is_alnum c || existsb (beq c) (B "-+_").

Definition nonempty {A} (l : list A) : bool := match l with [] => false | _ => true end.

(** Neighbours whose texts would run into each other. *)
Definition clash (x y : inl) : bool :=
  match x, y with
  | TCode _, TCode _ | TCode _, TWrap WMark _ | TDots _, TDots _ | TDash _, TDash _ => true
  | TCode _, TEsc _ | TCode _, TNbsp | TCode _, THard => true   (* a defect, see [C38_escape_refuted] *)
  | _, _ => false
  end.
Fixpoint no_clash (l : list inl) : bool :=
  match l with
  | x :: (y :: _) as l' => negb (clash x y) && no_clash l'
  | _ => true
  end.

(** Is there a container written like [w], bare, in it? *)
Definition same_bare (w v : wrap) : bool :=
  match w, v with WUnderscore, WUnderscore | WAsterisk, WAsterisk => true | _, _ => false end.
Fixpoint uses (w : wrap) (x : inl) : bool :=
  match x with
  | TWrap v l => same_bare w v || existsb (uses w) l
  | TLink l _ | TImage l _ => existsb (uses w) l
  | _ => false
  end.
(** The last piece is text that does not end in white space, or one of some other pieces. *)
Fixpoint ends_word (l : list inl) : bool :=
  match l with
  | [] => false
  | [x] => match x with TText (c :: t) => negb (is_ws (last t c)) | TWrap _ _ | TCode _ | TSym _ | TNote _ | TAuto _ | TLink _ _ | TImage _ _ => true | _ => false end
  | _ :: l' => ends_word l'
  end.
(** Without braces, the content does not begin with white space, ends in such a piece, and has no container written in the
    same way. *)
Definition bare_ok (w : wrap) (l : list inl) : bool :=
  if bare w then hd_is (fun c => negb (is_ws c)) (flat_map inl_src l) && ends_word l && negb (existsb (uses w) l)
  else true.
Fixpoint inl_ok (x : inl) : bool :=
  match x with
  | TText t => nonempty t && forallb text_byte t
  | TSoft | THard | TNbsp => true
  | TEsc c => is_punct c && negb (beq c "$")
  | TDots n | TDash n => Nat.leb 1 n
  | TWrap w l => nonempty l && no_clash l && forallb inl_ok l && bare_ok w l
  | TCode t => nonempty t && forallb (fun c => negb (beq c "`") && negb (beq c NL)) t
  | TSym n => nonempty n && forallb symbol_byte n
  | TNote l => forallb label_byte l
  | TAuto u => forallb auto_byte u && existsb (fun c => beq c ":" || beq c "@") u
  | TLink l d | TImage l d => no_clash l && forallb inl_ok l && forallb dest_byte d
  end.
Definition inls_ok (l : list inl) : bool := no_clash l && forallb inl_ok l.

(** ** Lines *)

(** Split at line breaks. *)
Fixpoint split_lines (s : bytes) : list bytes :=
  match s with
  | [] => [[]]
  | c :: s' => if beq c NL then [] :: split_lines s'
               else match split_lines s' with
                    | l :: ls => (c :: l) :: ls
                    | [] => [[c]]
                    end
  end.
Definition unlines (ls : list bytes) : bytes := flat_map (fun l => l ++ [NL]) ls.

(** A paragraph line starts with a byte that starts no block, is not an ordered list marker, and
    does not end in white space. *)
Definition block_bytes : bytes := B "#>{|[-*+:`~(".
Definition line_ok (l : bytes) : bool :=
  match l with
  | [] => false
  | c :: _ => negb (is_ws c) && negb (existsb (beq c) block_bytes)
              && negb (hd_is (fun c => beq c "." || beq c ")") (skipn (count_while is_alnum l) l))
              && negb (is_ws (last l c))
  end.

(** ** Blocks *)

(** List markers: bullets, task boxes, decimal numbers from a start number on. *)
Inductive marks := MBullet (b : bullet) | MTask (b : bullet) | MNumber (start : N) (st : ostyle).

Inductive blk :=
| DPara (l : list inl)
| DRule                                                       (* thematic break *)
| DCode (lang : bytes) (ls : list bytes)                      (* fenced code; raw text if lang is =format *)
| DQuote (bs : list blk)
| DList (m : marks) (loose : bool) (items : list (bool * list blk)).
   (* the boolean of an item is its task state; it is ignored in other lists *)

Definition bullet_char (b : bullet) : ascii :=
  match b with BuDash => "-" | BuStar => "*" | BuPlus => "+" end.
Definition number_text (n : N) (st : ostyle) : bytes :=
  match st with
  | OPeriod => dec n ++ B "." | OParen => dec n ++ B ")" | OParenParen => B "(" ++ dec n ++ B ")"
  end.
(** The marker of item number [i]. *)
Definition mark_text (m : marks) (i : N) (checked : bool) : bytes :=
  match m with
  | MBullet b => [bullet_char b]
  | MTask b => bullet_char b :: (if checked then B " [x]" else B " [ ]")
  | MNumber n st => number_text (n + i) st
  end.

Definition quote_line (l : bytes) : bytes := match l with [] => B ">" | _ => B "> " ++ l end.
Definition indent_line (n : nat) (l : bytes) : bytes := match l with [] => [] | _ => repeat SP n ++ l end.
(** Put a marker before the first line and indent the others accordingly. *)
Definition hang (m : bytes) (ls : list bytes) : list bytes :=
  match ls with
  | [] => []
  | l :: ls' => (m ++ SP :: l) :: map (indent_line (S (length m))) ls'
  end.

(** Concatenate with a separator. *)
Fixpoint sep_with {A} (s : list A) (l : list (list A)) : list A :=
  match l with
  | [] => []
  | [x] => x
  | x :: l' => x ++ s ++ sep_with s l'
  end.

(** The lines of a block; blocks in sequence are separated by a blank line. *)
Fixpoint blk_lines (b : blk) : list bytes :=
  match b with
  | DPara l => split_lines (inls_src l)
  | DRule => [B "***"]
  | DCode lang ls => (B "```" ++ lang) :: ls ++ [B "```"]
  | DQuote bs => map quote_line (sep_with [[]] (map blk_lines bs))
  | DList m loose items =>
      let item := fix item (i : N) (its : list (bool * list blk)) : list (list bytes) :=
        match its with
        | [] => []
        | (c, bs) :: its' => hang (mark_text m i c) (sep_with [[]] (map blk_lines bs)) :: item (i + 1)%N its'
        end in
      sep_with (if loose then [[]] else []) (item 0%N items)
  end.
Definition blks_lines (bs : list blk) : list bytes := sep_with [[]] (map blk_lines bs).
(** The source text of a document. *)
Definition doc_src (bs : list blk) : bytes := unlines (blks_lines bs).

Definition is_list (b : blk) : bool := match b with DList _ _ _ => true | _ => false end.

Definition list_cont (m : marks) (tight : bool) : container :=
  match m with
  | MBullet b => ListC (LkUnordered b) tight
  | MTask b => ListC (LkTask b) tight
  | MNumber n st => ListC (LkOrdered Decimal st n) tight
  end.
Definition item_cont (m : marks) (checked : bool) : container :=
  match m with MTask _ => TaskListItem checked | _ => ListItem end.

(** Fenced text is code, or raw text of a format.  Each line is reported with its line break, except that raw text
    does not end with one. *)
Definition code_cont (lang : bytes) : container :=
  match lang with c :: f => if beq c "=" then RawBlock f else CodeBlock lang | [] => CodeBlock lang end.
Fixpoint raw_texts (ls : list bytes) : list bytes :=
  match ls with [] => [] | [l] => [l] | l :: ls' => (l ++ [NL]) :: raw_texts ls' end.
Definition code_texts (lang : bytes) (ls : list bytes) : list bytes :=
  if starts_c lang "=" then raw_texts ls else map (fun l => l ++ [NL]) ls.

(** The events of a block followed ([tail]) or not by a blank line.  A blank line after a list
    belongs to its last item. *)
Fixpoint blk_evs (b : blk) (tail : bool) : list event :=
  let seq := fix seq (bs : list blk) (tail : bool) : list event :=
    match bs with
    | [] => []
    | [b] => blk_evs b tail
    | b :: bs' => blk_evs b true ++ seq bs' tail
    end in
  let blank := if tail then [Blankline] else [] in
  match b with
  | DPara l => Start Paragraph [] :: inls_evs l ++ End_ Paragraph :: blank
  | DRule => ThematicBreak [] :: blank
  | DCode lang ls =>
      Start (code_cont lang) [] :: map Str (code_texts lang ls) ++ End_ (code_cont lang) :: blank
  | DQuote bs => Start Blockquote [] :: seq bs false ++ End_ Blockquote :: blank
  | DList m loose items =>
      let c := list_cont m (negb loose) in
      let its := fix its (items : list (bool * list blk)) : list event :=
        match items with
        | [] => []
        | (ck, bs) :: items' =>
            Start (item_cont m ck) [] :: seq bs (match items' with [] => tail | _ => loose end)
              ++ End_ (item_cont m ck) :: its items'
        end in
      Start c [] :: its items ++ [End_ c]
  end.
Fixpoint blks_evs (bs : list blk) (tail : bool) : list event :=
  match bs with
  | [] => []
  | [b] => blk_evs b tail
  | b :: bs' => blk_evs b true ++ blks_evs bs' tail
  end.
Definition doc_evs (bs : list blk) : list event :=
  Start Document [] :: blks_evs bs false ++ [End_ Document].

(** A line of code is blank or has a byte that is not white space; it does not start with a fence. *)
Definition code_line (l : bytes) : bool :=
  forallb (fun c => negb (beq c NL)) l && (negb (nonempty l) || existsb (fun c => negb (is_ws c)) l)
  && negb (starts_with (trim_start_m is_ws l) (B "```")).
Definition lang_ok (l : bytes) : bool :=
  forallb (fun c => negb (is_ws c) && negb (beq c "`")) l.
(** Raw text does not end with white space. *)
Definition raw_end (lang : bytes) (ls : list bytes) : bool :=
  match ls with [] => true | _ => negb (starts_c lang "=") || negb (is_ws (last (last ls []) SP)) end.

(** No two lists in a row (they would be one list). *)
Fixpoint no_adjacent_lists (bs : list blk) : bool :=
  match bs with
  | a :: (b :: _) as bs' => negb (is_list a && is_list b) && no_adjacent_lists bs'
  | _ => true
  end.
(** Does the block start with a thematic break?  After a bullet, it would absorb the bullet. *)
Fixpoint starts_rule (b : blk) : bool :=
  match b with
  | DRule => true
  | DList _ _ ((_, b :: _) :: _) => starts_rule b
  | _ => false
  end.
Definition first_ok (bs : list blk) : bool := match bs with b :: _ => negb (starts_rule b) | [] => false end.

Definition last_list (bs : list blk) : bool := match bs with [] => false | b :: bs' => is_list (last bs' b) end.
Definition numbers_ok (m : marks) (n : nat) : bool :=
  match m with MNumber s _ => N.leb (s + N.of_nat n) 10000000000000000000 | _ => true end.

(** Item bodies of a tight list: a single block, possibly followed by a tight list; no blank lines
    in quotes. *)
Fixpoint tight_blk (b : blk) : bool :=
  match b with
  | DQuote [b'] => tight_blk b'
  | DQuote [b'; DList _ l _] => tight_blk b'
  | DQuote _ => false
  | _ => true
  end.
Definition tight_body (bs : list blk) : bool :=
  match bs with
  | [b] => tight_blk b
  | [b; DList _ _ _] => tight_blk b
  | _ => false
  end.

(** Well-formed trees.  A list is written tight if no blank line separates its items or the blocks
    in them (except before a nested list), and loose if it has at least two items, separated by
    blank lines, the first of which does not end in a list. *)
Fixpoint blk_ok (b : blk) : bool :=
  match b with
  | DPara l => inls_ok l && forallb line_ok (split_lines (inls_src l))
  | DRule => true
  | DCode lang ls => lang_ok lang && (forallb code_line ls && raw_end lang ls)
  | DQuote bs => nonempty bs && no_adjacent_lists bs && forallb blk_ok bs
  | DList m loose items =>
      numbers_ok m (length items)
      && forallb (fun it => first_ok (snd it) && no_adjacent_lists (snd it) && forallb blk_ok (snd it)) items
      && (if loose
          then Nat.leb 2 (length items) && match items with (_, bs) :: _ => negb (last_list bs) | [] => false end
          else Nat.leb 1 (length items) && forallb (fun it => tight_body (snd it)) items)
  end.
Definition doc_ok (bs : list blk) : bool := no_adjacent_lists bs && forallb blk_ok bs.
