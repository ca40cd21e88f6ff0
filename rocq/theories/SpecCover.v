(** * SpecCover: no text is lost (C42) *)
From Verif Require Import Base Attr Block Doc SpecBlock SpecAttr SpecSrc.
Local Open Scope nat_scope.

(** The byte at [i] is in the range of some event. *)
Definition covered (evs : list (event * span)) (i : nat) : Prop :=
  exists e sp, List.In (e, sp) evs /\ ss sp <= i /\ i < se sp.

(** What stands at positions that no event covers:
    - white space; *)
Definition white (src : bytes) (i : nat) : Prop := exists c, nth_error src i = Some c /\ is_ws c = true.
(** - the margin of a line: repeated markers of block quotes and headings, and the marker of a table
      caption, with only such characters and white space before it on its line; *)
Definition margin_char (c : ascii) : bool := is_ws c || beq c ">" || beq c "#" || beq c "^".
Definition line_start (src : bytes) (k : nat) : Prop := k = 0 \/ (0 < k /\ nth_error src (k - 1) = Some NL).
Definition margin (src : bytes) (i : nat) : Prop :=
  exists k, k <= i /\ line_start src k /\ forall j, k <= j -> j <= i -> exists c, nth_error src j = Some c /\ margin_char c = true.
(** - a separator row of a table, whose effect is on the alignment of the columns; *)
Definition in_separator (src : bytes) (i : nat) : Prop :=
  exists s als, ss s <= i /\ i < se s /\ se s <= length src /\ sep_row als (slice src s).
(** - (a defect of jotdown) the rest of a table row after one of its bars, if it has a run of backticks
      that no later run of the same length closes; *)
Fixpoint tick_runs (cur : nat) (t : bytes) : list nat :=
  match t with
  | [] => if Nat.eqb cur 0 then [] else [cur]
  | c :: r => if beq c "`" then tick_runs (S cur) r else (if Nat.eqb cur 0 then [] else [cur]) ++ tick_runs 0 r
  end.
Definition unclosed (t : bytes) : Prop :=
  exists a n b, t = a ++ repeat "`"%char n ++ b /\ 0 < n /\ hd_is (fun c => beq c "`") b = false /\ ~ List.In n (tick_runs 0 b).
Definition in_unclosed_row (src : bytes) (i : nat) : Prop :=
  exists p s, p < ss s /\ ss s <= i /\ i < se s /\ se s <= length src /\
    nth_error src p = Some "|"%char /\ nth_error src (ss s - 1) = Some "|"%char /\ ~ List.In NL (slice src (Sp p (se s))) /\
    unclosed (slice src s).
(** - the braces of sets of attributes, in the text of a paragraph, that specify nothing. *)
Definition in_braces (src : bytes) (i : nat) : Prop :=
  (nth_error src i = Some "{"%char \/ nth_error src i = Some "}"%char) /\
  exists sp, ss sp <= i /\ i < se sp /\ set_on src sp [] /\ braced (slice src sp).
Definition passed_block (src : bytes) (i : nat) : Prop := white src i \/ margin src i \/ in_separator src i \/ in_unclosed_row src i.
Definition passed (src : bytes) (i : nat) : Prop := passed_block src i \/ in_braces src i.
