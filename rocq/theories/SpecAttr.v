(** * SpecAttr: the attribute syntax and its meaning, independently of the parser

    A grammar (what is an attribute set, and which list of elements does it denote), the
    specification of queries on attribute lists, and the removal of escapes in values.  Nothing here
    refers to the parser's state machine. *)
From Verif Require Import Base Attr.
Local Open Scope nat_scope.

(** ** Well-formed UTF-8 (Unicode standard, table 3-7) *)
Definition rng (lo hi : N) (c : ascii) : Prop := (lo <= code c <= hi)%N.
Inductive utf8 : bytes -> Prop :=
| u_nil : utf8 []
| u_1 c s : rng 0 127 c -> utf8 s -> utf8 (c :: s)
| u_2 c d s : rng 194 223 c -> rng 128 191 d -> utf8 s -> utf8 (c :: d :: s)
| u_3a c d e s : rng 224 224 c -> rng 160 191 d -> rng 128 191 e -> utf8 s -> utf8 (c :: d :: e :: s)
| u_3b c d e s : rng 225 236 c \/ rng 238 239 c -> rng 128 191 d -> rng 128 191 e -> utf8 s ->
                 utf8 (c :: d :: e :: s)
| u_3c c d e s : rng 237 237 c -> rng 128 159 d -> rng 128 191 e -> utf8 s -> utf8 (c :: d :: e :: s)
| u_4a c d e f s : rng 240 240 c -> rng 144 191 d -> rng 128 191 e -> rng 128 191 f -> utf8 s ->
                   utf8 (c :: d :: e :: f :: s)
| u_4b c d e f s : rng 241 243 c -> rng 128 191 d -> rng 128 191 e -> rng 128 191 f -> utf8 s ->
                   utf8 (c :: d :: e :: f :: s)
| u_4c c d e f s : rng 244 244 c -> rng 128 143 d -> rng 128 191 e -> rng 128 191 f -> utf8 s ->
                   utf8 (c :: d :: e :: f :: s).

(** ** The grammar *)

(** A name: one or more of letters, digits, ':', '_', '-'. *)
Definition name_char (c : ascii) : Prop :=
  is_alnum c = true \/ c = ":"%char \/ c = "_"%char \/ c = "-"%char.
Definition gname (s : bytes) : Prop := s <> [] /\ Forall name_char s.

(** One line of quoted text: a backslash takes the next byte literally. *)
Inductive qtext : bytes -> Prop :=
| qt_nil : qtext []
| qt_char c s : c <> DQ -> c <> NL -> c <> BSL -> qtext s -> qtext (c :: s)
| qt_esc c s : c <> NL -> qtext s -> qtext (BSL :: c :: s).

(** A continuation line of a quoted value: anything but a quote or a newline. *)
Definition qline (s : bytes) : Prop := ~ In DQ s /\ ~ In NL s.

(** Lines joined by newlines; non-empty parts joined by single spaces. *)
Fixpoint join_nl (ls : list bytes) : bytes :=
  match ls with
  | [] => []
  | [l] => l
  | l :: ls' => l ++ NL :: join_nl ls'
  end.
Fixpoint join_sp (ls : list bytes) : bytes :=
  match ls with
  | [] => []
  | l :: ls' => match l, join_sp ls' with
                | [], r => r
                | _, [] => l
                | _, r => l ++ SP :: r
                end
  end.

(** [gquoted q v]: the text [q] between the quotes denotes the (raw) value [v]. *)
Inductive gquoted : bytes -> bytes -> Prop :=
| gq_line q : qtext q -> gquoted q q
| gq_lines q ls : qtext q -> ls <> [] -> Forall qline ls ->
                  gquoted (q ++ NL :: join_nl ls) (join_sp (q :: ls))
| gq_esc_lines q ls : qtext q -> ls <> [] -> Forall qline ls ->
                      gquoted (q ++ BSL :: NL :: join_nl ls) (join_sp ls).

(** Comment text, and its value: runs of newlines count as one. *)
Definition gcomment (s : bytes) : Prop := ~ In "%"%char s /\ ~ In "}"%char s.
Fixpoint collapse (s : bytes) : bytes :=
  match s with
  | [] => []
  | c :: s' => if beq c NL && starts_c s' NL then collapse s' else c :: collapse s'
  end.

(** After an unquoted element: whitespace or the closing brace. *)
Definition gsep (s : bytes) : Prop :=
  match s with c :: _ => is_ws c = true \/ c = "}"%char | [] => False end.

(** [gitems s a]: [s], the text after the opening brace up to and including the closing one,
    denotes the elements [a]. *)
Inductive gitems : bytes -> attrs -> Prop :=
| gi_close : gitems ["}"%char] []
| gi_ws c s a : is_ws c = true -> gitems s a -> gitems (c :: s) a
| gi_class n s a : gname n -> gsep s -> gitems s a ->
                   gitems ("."%char :: n ++ s) ((KClass, n) :: a)
| gi_id n s a : gname n -> gsep s -> gitems s a ->
                gitems ("#"%char :: n ++ s) ((KId, n) :: a)
| gi_pair k v s a : gname k -> gname v -> gsep s -> gitems s a ->
                    gitems (k ++ "="%char :: v ++ s) ((KPair k, v) :: a)
| gi_quoted k q v s a : gname k -> gquoted q v -> gitems s a ->
                        gitems (k ++ "="%char :: DQ :: q ++ DQ :: s) ((KPair k, v) :: a)
| gi_comment c s a : gcomment c -> gitems s a ->
                     gitems ("%"%char :: c ++ "%"%char :: s) ((KComment, collapse c) :: a)
| gi_comment_close c : gcomment c ->
                       gitems ("%"%char :: c ++ ["}"%char]) [(KComment, collapse c)].

(** One or more attribute sets. *)
Inductive gsets : bytes -> attrs -> Prop :=
| gs_one s a : gitems s a -> gsets ("{"%char :: s) a
| gs_more s a s' a' : gitems s a -> gsets s' a' -> gsets ("{"%char :: s ++ s') (a ++ a').

(** [s] can be completed to attribute syntax. *)
Definition viable (s : bytes) : Prop := exists t a, gsets (s ++ t) a.

(** [t] is [s] without trailing ASCII whitespace. *)
Definition stripped (s t : bytes) : Prop :=
  exists w, s = t ++ w /\ Forall (fun c => is_ws c = true) w
            /\ match rev t with c :: _ => is_ws c = false | [] => True end.

(** ** Queries *)
Definition elem_key (e : attr_elem) : option bytes :=
  match fst e with
  | KClass => Some (B "class")
  | KId => Some (B "id")
  | KPair k => Some k
  | KComment => None
  end.
(** The values given to a key, in order. *)
Definition values_of (a : attrs) (key : bytes) : list bytes :=
  map snd (filter (fun e => match elem_key e with
                            | Some k => if list_eq_dec ascii_dec k key then true else false
                            | None => false
                            end) a).
(** The keys, in order of first appearance. *)
Fixpoint keys_of (a : attrs) : list bytes :=
  match a with
  | [] => []
  | e :: a' => match elem_key e with
               | Some k => k :: filter (fun k' => if list_eq_dec ascii_dec k k' then false else true)
                                       (keys_of a')
               | None => keys_of a'
               end
  end.
(** The combined value of a key that occurs: for "class" all values joined, otherwise the last. *)
Definition combined (key : bytes) (vs : list bytes) : bytes :=
  if list_eq_dec ascii_dec key (B "class") then join_sp vs else last vs [].

(** ** Display of values: a backslash before ASCII punctuation is removed. *)
Fixpoint unescape (s : bytes) : bytes :=
  match s with
  | [] => []
  | c :: s' =>
      match s' with
      | d :: s'' => if beq c BSL && is_punct d then d :: unescape s'' else c :: unescape s'
      | [] => [c]
      end
  end.

(** Number of trailing backslashes. *)
Fixpoint trailing_bsl (v : bytes) : nat :=
  match v with
  | [] => 0
  | c :: v' => if forallb (beq BSL) (c :: v') then length (c :: v') else trailing_bsl v'
  end.

(** ** Feeding text in pieces *)
(** Exactly one attribute set. *)
Definition gset (s : bytes) (a : attrs) : Prop := exists t, s = "{"%char :: t /\ gitems t a.

(** Feed a recogniser one piece after the other until it decides; the answer is the number of bytes
    of the whole text (0 = rejected). *)
Definition shift (n : nat) (r : option nat) : option nat :=
  match r with Some (S m) => Some (n + S m) | _ => r end.
Fixpoint feed (st : astate) (chunks : list bytes) : res (option nat * astate) :=
  match chunks with
  | [] => Ok (None, st)
  | c :: cs => let! (r, st') := validator_parse st c in
               match r with
               | Some n => Ok (Some n, st')
               | None => let! (r', st'') := feed st' cs in Ok (shift (length c) r', st'')
               end
  end.

(** Feed a parser one piece after the other; an error in any piece is the panic of
    [expect("should be valid")] (src/inline.rs:509-521). *)
Fixpoint parse_chunks (chunks : list bytes) (p : aparser) : res aparser :=
  match chunks with
  | [] => Ok p
  | c :: cs => let! (r, p') := aparser_parse p c in
               match r with
               | AOk _ => parse_chunks cs p'
               | AErr _ => Panic "inline.rs:519"
               end
  end.
