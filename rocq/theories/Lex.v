(** * Lex: model of src/lex.rs *)
From Verif Require Import Base.
Local Open Scope nat_scope.

(** src/lex.rs:25-39 [Delimiter] *)
Inductive delim :=
| Brace | BraceAsterisk | BraceCaret | BraceEqual | BraceHyphen | BracePlus | BraceTilde
| BraceUnderscore | Bracket | BraceQuote1 | BraceQuote2 | Paren.

(** src/lex.rs:41-53 [Symbol] *)
Inductive sym :=
| Asterisk | Caret | ExclaimBracket | Lt | Pipe | Quote1 | Quote2 | Tilde | Underscore | Colon.

(** src/lex.rs:55-60 [Sequence] *)
Inductive seq := Backtick | Hyphen | Period.

(** src/lex.rs:12-23 [Kind] *)
Inductive lkind :=
| LText | LNewline | LNbsp | LHardbreak | LEscape
| LOpen (d : delim) | LClose (d : delim) | LSym (s : sym) | LSeq (q : seq).

(** src/lex.rs:6-10 [Token] *)
Record token := Tok { tk : lkind; tlen : nat }.

(** src/lex.rs:72-83 [Lexer] *)
Record lexer := Lx {
  lx_src : bytes;
  lx_pos : nat;
  lx_esc : bool;
  lx_next : option token;
  lx_verb : bool
}.

(** src/lex.rs:86-94 [Lexer::new] *)
Definition lex_new (src : bytes) : lexer := Lx src 0 false None false.

(** src/lex.rs:291-318 [is_special] *)
Definition is_special (c : ascii) : bool :=
  beq c BSL || beq c "[" || beq c "]" || beq c "(" || beq c ")" || beq c "{" || beq c "}"
  || beq c "*" || beq c "^" || beq c "=" || beq c "+" || beq c "~" || beq c "_" || beq c "'"
  || beq c DQ || beq c "-" || beq c "!" || beq c "<" || beq c "|" || beq c ":" || beq c "`"
  || beq c "." || beq c NL.

Definition is_blank (c : ascii) : bool := beq c SP || beq c TAB.

(** src/lex.rs:233-237: [while peek == '-' && peek_n(1) != '}'] *)
Fixpoint hyphen_run (r : bytes) : nat :=
  match r with
  | c :: r' => if beq c "-" && negb (hd_is (fun c => beq c "}") r') then S (hyphen_run r') else 0
  | [] => 0
  end.

(** src/lex.rs:199-218: the delimiter opened by '{' followed by [c]. *)
Definition open_brace (c : ascii) : option delim :=
  if beq c "*" then Some BraceAsterisk
  else if beq c "^" then Some BraceCaret
  else if beq c "=" then Some BraceEqual
  else if beq c "-" then Some BraceHyphen
  else if beq c "+" then Some BracePlus
  else if beq c "~" then Some BraceTilde
  else if beq c "_" then Some BraceUnderscore
  else if beq c "'" then Some BraceQuote1
  else if beq c DQ then Some BraceQuote2
  else None.

(** src/lex.rs:273-280 [maybe_eat_close_brace]; [r] is the input after the eaten byte. *)
Definition maybe_close (k : lkind) (d : delim) (r : bytes) : token :=
  if hd_is (fun c => beq c "}") r then Tok (LClose d) 2 else Tok k 1.

(** src/lex.rs:180-258: the token starting with the special byte [c] followed by [r].
    The boolean is the new value of [escape]. *)
Definition special_token (verb : bool) (c : ascii) (r : bytes) : token * bool :=
  if beq c NL then (Tok LNewline 1, false)
  else if beq c BSL then
    if hd_is (fun c => is_ws c || is_punct c) r then (Tok LEscape 1, negb verb)
    else (Tok LText 1, false)
  else if beq c "[" then (Tok (LOpen Bracket) 1, false)
  else if beq c "]" then (Tok (LClose Bracket) 1, false)
  else if beq c "(" then (Tok (LOpen Paren) 1, false)
  else if beq c ")" then (Tok (LClose Paren) 1, false)
  else if beq c "{" then
    match r with
    | c' :: _ => match open_brace c' with
                 | Some d => (Tok (LOpen d) 2, false)
                 | None => (Tok (LOpen Brace) 1, false)
                 end
    | [] => (Tok (LOpen Brace) 1, false)
    end
  else if beq c "}" then (Tok (LClose Brace) 1, false)
  else if beq c "*" then (maybe_close (LSym Asterisk) BraceAsterisk r, false)
  else if beq c "^" then (maybe_close (LSym Caret) BraceCaret r, false)
  else if beq c "=" then (maybe_close LText BraceEqual r, false)
  else if beq c "+" then (maybe_close LText BracePlus r, false)
  else if beq c "~" then (maybe_close (LSym Tilde) BraceTilde r, false)
  else if beq c "_" then (maybe_close (LSym Underscore) BraceUnderscore r, false)
  else if beq c "'" then (maybe_close (LSym Quote1) BraceQuote1 r, false)
  else if beq c DQ then (maybe_close (LSym Quote2) BraceQuote2 r, false)
  else if beq c "-" then
    if hd_is (fun c => beq c "}") r then (Tok (LClose BraceHyphen) 2, false)
    else (Tok (LSeq Hyphen) (S (hyphen_run r)), false)
  else if beq c "!" then
    if hd_is (fun c => beq c "[") r then (Tok (LSym ExclaimBracket) 2, false)
    else (Tok LText 1, false)
  else if beq c "<" then (Tok (LSym Lt) 1, false)
  else if beq c "|" then (Tok (LSym Pipe) 1, false)
  else if beq c ":" then (Tok (LSym Colon) 1, false)
  else if beq c "`" then (Tok (LSeq Backtick) (S (count_while (fun c => beq c "`") r)), false)
  else if beq c "." then (Tok (LSeq Period) (S (count_while (fun c => beq c ".") r)), false)
  else (Tok LText 1, false).

(** src/lex.rs:159-174: the token after a backslash. *)
Definition escaped_token (c : ascii) (r : bytes) : token :=
  if beq c NL then Tok LHardbreak 1
  else if is_blank c && hd_is (fun c => beq c NL) (skipn (count_while is_blank r) r)
       then Tok LHardbreak (2 + count_while is_blank r)
  else if beq c SP then Tok LNbsp 1
  else Tok LText 1.

(** src/lex.rs:156-266 [Lexer::token] as a function of the remaining input [r].
    Returns the token and the new [escape] flag; the caller advances [pos] by the token's length. *)
Definition scan (verb esc : bool) (r : bytes) : option token * bool :=
  match r with
  | [] => (None, false)
  | c :: r' =>
      if esc then (Some (escaped_token c r'), false)
      else let n := count_while (fun c => negb (is_special c)) r in
           if Nat.ltb 0 n then (Some (Tok LText n), false)
           else let (t, e) := special_token verb c r' in (Some t, e)
  end.

(** src/lex.rs:156-266 [Lexer::token] (does not touch [next]). *)
Definition lex_token (l : lexer) : option token * lexer :=
  let (t, e) := scan (lx_verb l) (lx_esc l) (skipn (lx_pos l) (lx_src l)) in
  let n := match t with Some t => tlen t | None => 0 end in
  (t, Lx (lx_src l) (lx_pos l + n) e (lx_next l) (lx_verb l)).

Definition lex_set_next (l : lexer) (t : option token) : lexer :=
  Lx (lx_src l) (lx_pos l) (lx_esc l) t (lx_verb l).
Definition lex_set_verb (l : lexer) (v : bool) : lexer :=
  Lx (lx_src l) (lx_pos l) (lx_esc l) (lx_next l) v.

(** src/lex.rs:118-122: loop that concatenates text tokens. *)
Fixpoint text_run (fuel : nat) (l : lexer) (len : nat) : res (token * lexer) :=
  match fuel with
  | O => Fuel
  | S f =>
      let (t, l') := lex_token l in
      match t with
      | Some (Tok LText n) => text_run f l' (len + n)
      | _ => Ok (Tok LText len, lex_set_next l' t)
      end
  end.

(** src/lex.rs:113-126 [next_token] *)
Definition next_token (l : lexer) : res (option token * lexer) :=
  let (t, l') := lex_token l in
  match t with
  | Some (Tok LText len) =>
      let! (t', l'') := text_run (S (length (lx_src l))) l' len in
      Ok (Some t', l'')
  | _ => Ok (t, l')
  end.

(** src/lex.rs:283-289 [Iterator::next] *)
Definition lex_next (l : lexer) : res (option token * lexer) :=
  match lx_next l with
  | Some t => Ok (Some t, lex_set_next l None)
  | None => next_token l
  end.

(** src/lex.rs:98-103 [peek] *)
Definition lex_peek (l : lexer) : option token * lexer :=
  match lx_next l with
  | Some t => (Some t, l)
  | None => let (t, l') := lex_token l in (t, lex_set_next l' t)
  end.

(** src/lex.rs:105-107 [ahead]: the input not yet handed out by [next]. *)
Definition lex_ahead (l : lexer) : res bytes :=
  let n := match lx_next l with Some t => tlen t | None => 0 end in
  let! p := usub (lx_pos l) n "lex.rs:106" in
  if Nat.leb p (length (lx_src l)) then Ok (skipn p (lx_src l)) else Panic "lex.rs:106".

(** src/lex.rs:109-111 [skip_ahead] *)
Definition lex_skip_ahead (l : lexer) (n : nat) : res lexer :=
  if Nat.leb (lx_pos l + n) (length (lx_src l))
  then Ok (lex_new (skipn (lx_pos l + n) (lx_src l))) else Panic "lex.rs:110".
