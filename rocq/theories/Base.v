(** * Base: bytes, ASCII classes, slices, list update, error monad

    Models the parts of the Rust standard library that jotdown uses.  A Rust [&str] or [&[u8]] is a
    list of bytes; a byte is an [ascii] (8 booleans, so exactly 256 values). *)

From Coq Require Export String Ascii NArith Bool Arith Lia List.
Export ListNotations.
Local Open Scope nat_scope.

Definition byte := ascii.
Definition bytes := list ascii.

(** String literals as byte lists. *)
Definition B (s : string) : bytes := list_ascii_of_string s.

(** Byte equality ([==] on [u8]). *)
Definition beq (a b : ascii) : bool := Ascii.eqb a b.

Definition NL : ascii := "010"%char.    (* b'\n' *)
Definition SP : ascii := "032"%char.    (* b' '  *)
Definition TAB : ascii := "009"%char.   (* b'\t' *)
Definition FF : ascii := "012"%char.    (* b'\x0C' *)
Definition CR : ascii := "013"%char.    (* b'\r' *)
Definition DQ : ascii := "034"%char.    (* double quote *)
Definition BSL : ascii := "092"%char.   (* backslash *)

Definition code (c : ascii) : N := N_of_ascii c.
Definition in_range (lo hi : N) (c : ascii) : bool := (N.leb lo (code c) && N.leb (code c) hi)%bool.

(** [u8::is_ascii_whitespace]: space, tab, LF, FF, CR (not VT). *)
Definition is_ws (c : ascii) : bool :=
  beq c SP || beq c TAB || beq c NL || beq c FF || beq c CR.
(** [u8::is_ascii_punctuation]: 0x21-0x2F, 0x3A-0x40, 0x5B-0x60, 0x7B-0x7E. *)
Definition is_punct (c : ascii) : bool :=
  in_range 33 47 c || in_range 58 64 c || in_range 91 96 c || in_range 123 126 c.
(** [is_ascii_digit], [is_ascii_lowercase], [is_ascii_uppercase], [is_ascii_alphanumeric]. *)
Definition is_digit (c : ascii) : bool := in_range 48 57 c.
Definition is_lower (c : ascii) : bool := in_range 97 122 c.
Definition is_upper (c : ascii) : bool := in_range 65 90 c.
Definition is_alnum (c : ascii) : bool := is_digit c || is_lower c || is_upper c.
(** A UTF-8 continuation byte, 0b10xxxxxx. *)
Definition is_cont (c : ascii) : bool := in_range 128 191 c.

(** ** Results with explicit panics

    [Panic] stands for a Rust panic at the named place, [Fuel] for a loop that has not finished
    within the fuel given to the model. *)
Inductive res (A : Type) : Type :=
| Ok (a : A)
| Panic (where_ : string)
| Fuel.
Arguments Ok {A} _.
Arguments Panic {A} _.
Arguments Fuel {A}.

Definition bind {A C} (r : res A) (f : A -> res C) : res C :=
  match r with Ok a => f a | Panic w => Panic w | Fuel => Fuel end.

Notation "'let!' x ':=' e 'in' k" := (bind e (fun x => k))
  (at level 200, x pattern, right associativity).

(** [assert b w]: [assert!]/[debug_assert!] or an index/underflow check. *)
Definition assert (b : bool) (w : string) : res unit := if b then Ok tt else Panic w.

(** [Option::unwrap]/[expect]. *)
Definition unwrap {A} (o : option A) (w : string) : res A :=
  match o with Some a => Ok a | None => Panic w end.

(** [a - b] on [usize]; underflow panics (debug) or is a bug (release). *)
Definition usub (a b : nat) (w : string) : res nat := if Nat.leb b a then Ok (a - b) else Panic w.

(** ** Lists *)

(** Number of leading elements satisfying [f] ([take_while(f).count()]). *)
Fixpoint count_while {A} (f : A -> bool) (l : list A) : nat :=
  match l with
  | [] => 0
  | x :: l' => if f x then S (count_while f l') else 0
  end.

(** [v[i] = x] on a vector (no effect out of range; callers check the range). *)
Fixpoint upd {A} (l : list A) (i : nat) (x : A) : list A :=
  match l, i with
  | [], _ => []
  | _ :: l', O => x :: l'
  | y :: l', S i' => y :: upd l' i' x
  end.

(** [v[i] = x] with the bounds check. *)
Definition set_at {A} (l : list A) (i : nat) (x : A) (w : string) : res (list A) :=
  if Nat.ltb i (length l) then Ok (upd l i x) else Panic w.

(** [v[i]] with the bounds check. *)
Definition get_at {A} (l : list A) (i : nat) (w : string) : res A := unwrap (nth_error l i) w.

(** [v.insert(i, x)], panics if [i > len]. *)
Definition insert_at {A} (l : list A) (i : nat) (x : A) (w : string) : res (list A) :=
  if Nat.leb i (length l) then Ok (firstn i l ++ x :: skipn i l) else Panic w.

Definition last_opt {A} (l : list A) : option A := nth_error l (length l - 1).
Definition butlast {A} (l : list A) : list A := firstn (length l - 1) l.

(** Index of the first / last element satisfying [f] ([position] / [rposition]). *)
Fixpoint position {A} (f : A -> bool) (l : list A) : option nat :=
  match l with
  | [] => None
  | x :: l' => if f x then Some 0 else option_map S (position f l')
  end.
Fixpoint rposition {A} (f : A -> bool) (l : list A) : option nat :=
  match l with
  | [] => None
  | x :: l' => match rposition f l' with
               | Some i => Some (S i)
               | None => if f x then Some 0 else None
               end
  end.

Fixpoint bytes_eqb (a b : bytes) : bool :=
  match a, b with
  | [], [] => true
  | x :: a', y :: b' => beq x y && bytes_eqb a' b'
  | _, _ => false
  end.

(** [starts_with] for strings and for a single character class. *)
Fixpoint starts_with (s p : bytes) : bool :=
  match p, s with
  | [], _ => true
  | x :: p', y :: s' => beq x y && starts_with s' p'
  | _ :: _, [] => false
  end.
Definition ends_with (s p : bytes) : bool := starts_with (rev s) (rev p).
Definition starts_c (s : bytes) (c : ascii) : bool :=
  match s with x :: _ => beq x c | [] => false end.
(** [opt.is_none_or(f)] applied to the first byte of [s]. *)
Definition hd_none_or (f : ascii -> bool) (s : bytes) : bool :=
  match s with x :: _ => f x | [] => true end.
Definition hd_is (f : ascii -> bool) (s : bytes) : bool :=
  match s with x :: _ => f x | [] => false end.

(** [trim_start_matches(f)], [trim_end_matches(f)], [trim_matches(f)]. *)
Fixpoint trim_start_m (f : ascii -> bool) (s : bytes) : bytes :=
  match s with
  | [] => []
  | x :: s' => if f x then trim_start_m f s' else s
  end.
Fixpoint trim_end_m (f : ascii -> bool) (s : bytes) : bytes :=
  match s with
  | [] => []
  | x :: s' => match trim_end_m f s' with
               | [] => if f x then [] else [x]
               | t => x :: t
               end
  end.
Definition trim_m (f : ascii -> bool) (s : bytes) : bytes := trim_end_m f (trim_start_m f s).

(** ** Ranges ([std::ops::Range<usize>]) and slices *)
Record span := Sp { ss : nat; se : nat }.

(** [Range::is_empty], [Range::len]. *)
Definition sp_empty (s : span) : bool := negb (Nat.ltb (ss s) (se s)).
Definition sp_len (s : span) : nat := se s - ss s.

(** The bytes of [src] in a range, without checks. *)
Definition slice (src : bytes) (s : span) : bytes := firstn (se s - ss s) (skipn (ss s) src).

(** [str::is_char_boundary]. *)
Definition boundary (src : bytes) (i : nat) : bool :=
  match nth_error src i with
  | Some c => negb (is_cont c)
  | None => Nat.eqb i (length src)
  end.

(** [&src.as_bytes()[a..b]]: panics unless [a <= b <= len]. *)
Definition bsub (src : bytes) (s : span) (w : string) : res bytes :=
  if Nat.leb (ss s) (se s) && Nat.leb (se s) (length src) then Ok (slice src s) else Panic w.

(** [&src[a..b]] on [&str]: additionally panics unless both ends are character boundaries. *)
Definition ssub (src : bytes) (s : span) (w : string) : res bytes :=
  if Nat.leb (ss s) (se s) && Nat.leb (se s) (length src)
     && boundary src (ss s) && boundary src (se s)
  then Ok (slice src s) else Panic w.

(** Decimal rendering of a number ([{}] on an unsigned integer). *)
Fixpoint dec_fuel (fuel : nat) (n : N) (acc : bytes) : bytes :=
  match fuel with
  | O => acc
  | S f => let d := ascii_of_N (48 + N.modulo n 10) in
           let q := N.div n 10 in
           if N.eqb q 0 then d :: acc else dec_fuel f q (d :: acc)
  end.
Definition dec (n : N) : bytes := dec_fuel (S (N.to_nat (N.log2 n))) n [].
