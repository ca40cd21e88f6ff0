(** * SpecBlock: specifications for the block layer, independent of the model's helpers *)
From Coq Require Import ZArith.
From Verif Require Import Base Block.
Local Open Scope nat_scope.

(** ** List numbers *)
(** Decimal value of a digit string. *)
Fixpoint dec_value (ds : bytes) (acc : N) : N :=
  match ds with
  | [] => acc
  | c :: ds' => dec_value ds' (10 * acc + (code c - 48))%N
  end.

Definition roman_digit (c : ascii) : Z :=
  match c with
  | "i"%char | "I"%char => 1 | "v"%char | "V"%char => 5 | "x"%char | "X"%char => 10
  | "l"%char | "L"%char => 50 | "c"%char | "C"%char => 100 | "d"%char | "D"%char => 500
  | "m"%char | "M"%char => 1000 | _ => 0
  end%Z.
(** A symbol before one of greater value is subtracted, any other is added. *)
Fixpoint roman_value_of (s : bytes) : Z :=
  match s with
  | [] => 0
  | c :: s' =>
      (match s' with
       | d :: _ => if (roman_digit c <? roman_digit d)%Z then - roman_digit c else roman_digit c
       | [] => roman_digit c
       end + roman_value_of s')%Z
  end.

(** [number_denotes nb ds v]: the marker text [ds] denotes [v] in the numbering [nb]. *)
Definition number_denotes (nb : numbering) (ds : bytes) (v : N) : Prop :=
  match nb with
  | Decimal => ds <> [] /\ Forall (fun c => is_digit c = true) ds /\ v = dec_value ds 0
  | AlphaLower => exists c, ds = [c] /\ is_lower c = true /\ code c = (96 + v)%N
  | AlphaUpper => exists c, ds = [c] /\ is_upper c = true /\ code c = (64 + v)%N
  | RomanLower => ds <> [] /\ Forall (fun c => is_roman_lower c = true) ds /\ Z.of_N v = roman_value_of ds
  | RomanUpper => ds <> [] /\ Forall (fun c => is_roman_upper c = true) ds /\ Z.of_N v = roman_value_of ds
  end.

(** The text of an ordered list marker. *)
Definition marker_text (st : ostyle) (ds : bytes) : bytes :=
  match st with
  | OPeriod => ds ++ B "."
  | OParen => ds ++ B ")"
  | OParenParen => B "(" ++ ds ++ B ")"
  end.

(** ** Which marker continues a list *)
(** A single Roman digit read as a letter of the alphabet. *)
Inductive as_letter : list_number -> list_number -> Prop :=
| al_lower d v : roman_digit d = Z.of_N v -> is_roman_lower d = true -> as_letter (LN RomanLower v) (LN AlphaLower (code d - 96))
| al_upper d v : roman_digit d = Z.of_N v -> is_roman_upper d = true -> as_letter (LN RomanUpper v) (LN AlphaUpper (code d - 64)).
(** [list_continues a b x y]: an item of type [b] continues a list whose previous item has type [a]; the
    types are then taken to be [x] and [y]. *)
Inductive list_continues : list_type -> list_type -> list_type -> list_type -> Prop :=
| co_same a : list_continues a a a a
| co_ordered nb v w st : list_continues (LOrdered (LN nb v) st) (LOrdered (LN nb w) st) (LOrdered (LN nb v) st) (LOrdered (LN nb w) st)
| co_first n nb v st : as_letter n (LN nb v) ->
    list_continues (LOrdered n st) (LOrdered (LN nb (v + 1)) st) (LOrdered (LN nb v) st) (LOrdered (LN nb (v + 1)) st)
| co_second n nb v st : as_letter n (LN nb (v + 1)) ->
    list_continues (LOrdered (LN nb v) st) (LOrdered n st) (LOrdered (LN nb v) st) (LOrdered (LN nb (v + 1)) st).

(** ** Block markers *)
Definition blanks_only (s : bytes) : Prop := Forall (fun c => is_ws c = true) s.
Definition indentation (s : bytes) : Prop := Forall (fun c => is_ws c = true /\ c <> NL) s.
(** The digits [ds] are read as [n]: its value, or that of a letter if [ds] has the value of a single
    Roman digit. *)
Definition read_as (ds : bytes) (n : list_number) : Prop :=
  exists n0, number_denotes (ln_num n0) ds (ln_val n0) /\ (n = n0 \/ as_letter n0 n).
(** The marker of a list item. *)
Definition item_text (ty : list_type) (t : bytes) : Prop :=
  match ty with
  | LUnordered c => t = [c]
  | LOrdered n st => exists ds, t = marker_text st ds /\ read_as ds n
  | LTask c => exists x, t = [c; SP; "["%char; x; "]"%char] /\ (x = SP \/ x = "x"%char \/ x = "X"%char)
  | LDescription => t = B ":"
  end.
(** At offset [p] of [src] stands the marker of an item of type [ty]. *)
Definition item_at (src : bytes) (p : nat) (ty : list_type) : Prop :=
  exists t r, skipn p src = t ++ r /\ item_text ty t.
(** A fence of [n] times [c] with the word [w]. *)
Definition fence_text (c : ascii) (n : nat) (w t : bytes) : Prop :=
  exists a b, t = repeat c n ++ a ++ w ++ b /\ blanks_only a /\ blanks_only b.
(** A line that closes a block opened by a fence of [n] times [c]. *)
Definition closing_fence (c : ascii) (n : nat) (t : bytes) : Prop :=
  exists a m b, t = a ++ repeat c m ++ b /\ n <= m /\ indentation a /\ blanks_only b.
(** The label of a definition. *)
Definition label_text (l t : bytes) : Prop :=
  exists a, t = a ++ B "[" ++ l ++ B "]:" /\ indentation a /\ ~ List.In "]"%char l.
(** A thematic break: at least three asterisks or hyphens, and blanks. *)
Definition break_text (t : bytes) : Prop :=
  Forall (fun c => c = "*"%char \/ c = "-"%char \/ is_ws c = true) t /\
  3 <= length (filter (fun c => negb (is_ws c)) t).

(** ** Separator rows of tables *)
(** The mark that gives a column its alignment: hyphens, with a colon on the side or sides the text is
    drawn to. *)
Definition align_mark (a : align) (m : bytes) : Prop :=
  exists n, m = (match a with AlLeft | AlCenter => B ":" | _ => [] end) ++ repeat "-"%char (S n)
                ++ (match a with AlRight | AlCenter => B ":" | _ => [] end).
(** The text after the first bar of a row that gives the columns the alignments [als]. *)
Inductive sep_cells : list align -> bytes -> Prop :=
| sc_nil : sep_cells [] []
| sc_cons a m u v als t : align_mark a m -> forallb is_ws u = true -> forallb is_ws v = true -> sep_cells als t ->
    sep_cells (a :: als) (u ++ m ++ v ++ B "|" ++ t).
Definition sep_row (als : list align) (t : bytes) : Prop := exists r, t = B "|" ++ r /\ sep_cells als r.
