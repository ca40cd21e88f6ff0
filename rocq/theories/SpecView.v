(** * SpecView: which part of a source line belongs to the content of the enclosing blocks (C29) *)
From Verif Require Import Base Attr Block Doc.
Local Open Scope nat_scope.

(** A view tells, for each line of the source, where the content of the enclosing blocks begins in it. *)
Definition view := span -> nat.
(** Outside of all containers: at the beginning of the line. *)
Definition from_start : view := ss.
(** Blanks, other than the line break, at the beginning of a text. *)
Definition spaces (t : bytes) : nat := count_while (fun c => is_ws c && negb (beq c NL)) t.
(** The rest of line [L] in view [v]. *)
Definition rest_of (src : bytes) (v : view) (L : span) : bytes := slice src (Sp (v L) (se L)).
(** The line that holds the byte before [q]. *)
Definition line_of (src : bytes) (q : nat) : span :=
  match find (fun L => Nat.ltb (ss L) q && Nat.leb q (se L)) (lines src) with Some L => L | None => Sp 0 0 end.

(** How a container marks its lines: not at all, by a leading [>], by indentation below the marker on its first
    line, by indentation up to that of its opening fence. *)
Inductive box := BxNone | BxQuote | BxItem | BxDiv.
(** How much a container takes off the beginning [t] of one of its lines; [k] is the indentation it allows.
    Lines that hold only blanks are left alone. *)
Definition taken (b : box) (k : nat) (t : bytes) : nat :=
  if forallb is_ws t then 0 else
  let w := spaces t in
  match b with
  | BxNone => 0
  | BxQuote =>
      match skipn w t with
      | c :: r => if beq c ">" then if forallb is_ws r then w + 1 else if hd_is is_ws r then w + 2 else 0 else 0
      | [] => 0
      end
  | _ => Nat.min w k
  end.
(** The view inside a container whose marker ends at [q], from the view [v] outside of it.  On the marker's line the content
    begins after the marker (and, for a quote, one space or tab).  A div leaves its first line alone (a defect: its
    indentation should be taken off as on the other lines). *)
Definition narrow (src : bytes) (b : box) (q : nat) (v : view) : view :=
  let L0 := line_of src q in
  match b with
  | BxNone => v
  | BxQuote => fun L => if Nat.ltb (ss L) q then (match slice src (Sp q (se L)) with c :: _ => if beq c TAB || beq c SP then q + 1 else q | [] => q end)
                        else v L + taken BxQuote 0 (rest_of src v L)
  | BxItem => fun L => if Nat.ltb (ss L) q then q else v L + taken BxItem (q - v L0) (rest_of src v L)
  | BxDiv => fun L => if Nat.leb (ss L) q then v L else v L + taken BxDiv (spaces (rest_of src v L0)) (rest_of src v L)
  end.
Definition box_of (c : container) : box :=
  match c with
  | Blockquote => BxQuote
  | ListItem | TaskListItem _ | DescriptionDetails | Footnote _ => BxItem
  | Div _ => BxDiv
  | _ => BxNone
  end.
(** The containers open after the events [A], innermost first, with the ends of their markers; the marker of description
    details is the one before their term. *)
Fixpoint open_boxes (A : list (event * span)) (term : nat) (st : list (container * nat)) : list (container * nat) :=
  match A with
  | [] => st
  | (Start c _, sp) :: r =>
      open_boxes r (match c with DescriptionTerm => se sp | _ => term end)
        ((c, match c with DescriptionDetails => term | _ => se sp end) :: st)
  | (End_ _, _) :: r => open_boxes r term (tl st)
  | _ :: r => open_boxes r term st
  end.
(** The view after the events [A]. *)
Definition view_at (src : bytes) (A : list (event * span)) : view :=
  fold_right (fun x v => narrow src (box_of (fst x)) (snd x) v) from_start (open_boxes A 0 []).

(** The lines of [src] between [p] and [q]. *)
Definition lines_between (src : bytes) (p q : nat) : list span :=
  filter (fun L => Nat.leb p (ss L) && Nat.leb (se L) q) (lines src).
(** A line of code in a block whose fence is indented by [k]: up to [k] blanks are taken off. *)
Definition dedent (src : bytes) (v : view) (k : nat) (L : span) : span :=
  Sp (v L + Nat.min k (spaces (rest_of src v L))) (se L).
(** Blanks at the end of the last line left out. *)
Fixpoint trim_last (src : bytes) (ls : list span) : list span :=
  match ls with
  | [] => []
  | [l] => [Sp (ss l) (ss l + length (trim_end_m is_ws (slice src l)))]
  | l :: r => l :: trim_last src r
  end.
(** The ranges of the lines of a code block (or raw block) whose opening fence ends at [q] and that ends at [e]. *)
Definition code_content (src : bytes) (v : view) (raw : bool) (q e : nat) : list span :=
  let k := spaces (rest_of src v (line_of src q)) in
  let ls := map (dedent src v k) (lines_between src q e) in
  filter (fun l => Nat.ltb (ss l) (se l)) (if raw then trim_last src ls else ls).
