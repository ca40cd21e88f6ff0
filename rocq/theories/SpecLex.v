(** * SpecLex: specification of token texts *)
From Verif Require Import Base Lex.
Local Open Scope nat_scope.

Definition open_text (d : delim) : bytes :=
  match d with
  | Brace => B "{" | BraceAsterisk => B "{*" | BraceCaret => B "{^" | BraceEqual => B "{="
  | BraceHyphen => B "{-" | BracePlus => B "{+" | BraceTilde => B "{~" | BraceUnderscore => B "{_"
  | Bracket => B "[" | BraceQuote1 => B "{'" | BraceQuote2 => ["{"%char; DQ] | Paren => B "("
  end.
Definition close_text (d : delim) : bytes :=
  match d with
  | Brace => B "}" | BraceAsterisk => B "*}" | BraceCaret => B "^}" | BraceEqual => B "=}"
  | BraceHyphen => B "-}" | BracePlus => B "+}" | BraceTilde => B "~}" | BraceUnderscore => B "_}"
  | Bracket => B "]" | BraceQuote1 => B "'}" | BraceQuote2 => [DQ; "}"%char] | Paren => B ")"
  end.
Definition sym_text (s : sym) : bytes :=
  match s with
  | Asterisk => B "*" | Caret => B "^" | ExclaimBracket => B "![" | Lt => B "<" | Pipe => B "|"
  | Quote1 => B "'" | Quote2 => [DQ] | Tilde => B "~" | Underscore => B "_" | Colon => B ":"
  end.
Definition seq_char (q : seq) : ascii :=
  match q with Backtick => "`"%char | Hyphen => "-"%char | Period => "."%char end.

(** The bytes that make a two-byte opener of a brace. *)
Definition after_brace : bytes := ["*"; "^"; "="; "-"; "+"; "~"; "_"; "'"; DQ]%char.

(** The text of a token of each kind.  A lone brace is one that does not start a longer opener. *)
Definition kind_text (k : lkind) (t after : bytes) : Prop :=
  match k with
  | LText => True
  | LNewline => t = [NL]
  | LNbsp => t = [SP]
  | LHardbreak => exists b, t = b ++ [NL] /\ forallb is_blank b = true
  | LEscape => t = [BSL] /\ hd_is (fun c => is_ws c || is_punct c) after = true
  | LOpen d => t = open_text d /\ (d = Brace -> hd_is (fun c => existsb (beq c) after_brace) after = false)
  | LClose d => t = close_text d
  | LSym s => t = sym_text s
  | LSeq q => t <> [] /\ forallb (fun c => beq c (seq_char q)) t = true
  end.
(** [tiles s ps]: the pieces, each given with its length, tile [s] from left to right without gap,
    overlap or empty piece. *)
Inductive tiles : bytes -> list (lkind * bytes) -> Prop :=
| tl_nil : tiles [] []
| tl_cons k t s ps : t <> [] -> tiles s ps -> tiles (t ++ s) ((k, t) :: ps).

(** Drive the lexer to its end; before token number [i] the client sets verbatim mode to [mode i]
    (the inline parser switches it at backtick runs). *)
Inductive lex_run (mode : nat -> bool) : nat -> lexer -> list (lkind * nat) -> Prop :=
| lr_end i l l' : lex_next (lex_set_verb l (mode i)) = Ok (None, l') -> lex_run mode i l []
| lr_tok i l l' k n r : lex_next (lex_set_verb l (mode i)) = Ok (Some (Tok k n), l') ->
    lex_run mode (S i) l' r -> lex_run mode i l ((k, n) :: r).

(** Cut [s] into pieces of the given lengths. *)
Fixpoint cut (s : bytes) (ns : list (lkind * nat)) : list (lkind * bytes) :=
  match ns with
  | [] => []
  | (k, n) :: ns' => (k, firstn n s) :: cut (skipn n s) ns'
  end.
