(** * SpecTable: what the columns of a table, its head rows and its cells' alignments must be *)
From Verif Require Import Base Attr Block Doc SpecBlock.
Local Open Scope nat_scope.

(** A separator row that gives the columns the alignments [als] stands in the source at [s], not
    before [lo]. *)
Definition separator (src : bytes) (lo : nat) (s : span) (als : list align) : Prop :=
  lo <= ss s /\ ss s <= se s /\ se s <= length src /\ sep_row als (slice src s).

(** Reading the events of a document with their ranges:
    - [Outside]: outside tables;
    - [Opened lo]: in a table, before its first row (its caption may come first);
    - [Between als lo]: in a table, after a row or separator row that ended at [lo]; [als] are the
      alignments of the columns;
    - [InRow als rest]: in a row whose columns have the alignments [als]; [rest] those of the cells to
      come.

    A table that starts with a separator row takes its alignments from it, otherwise it starts with
    none.  A row is a head row exactly if a separator row follows it ([r_head]), whose alignments hold
    for the head row itself and for the rows after it; a cell beyond the columns of the separator row
    has no alignment. *)
Inductive state := Outside | Opened (lo : nat) | Between (als : list align) (lo : nat) | InRow (als rest : list align).
Definition is_table_event (e : event) : bool :=
  match e with
  | Start Table _ | End_ Table | Start (TableRow _) _ | End_ (TableRow _) | Start (TableCell _ _) _ => true
  | _ => false
  end.
Inductive columns (src : bytes) : state -> list (event * span) -> Prop :=
| c_done : columns src Outside []
| c_table a sp r : columns src (Opened (se sp)) r -> columns src Outside ((Start Table a, sp) :: r)
| c_plain lo r : columns src (Between [] lo) r -> columns src (Opened lo) r
| c_first lo s als r : separator src lo s als -> columns src (Between als (se s)) r -> columns src (Opened lo) r
| c_body als lo a sp r : lo <= ss sp -> columns src (InRow als als) r -> columns src (Between als lo) ((Start (TableRow false) a, sp) :: r)
| c_head als lo als' a sp r : lo <= ss sp -> columns src (InRow als' als') r -> columns src (Between als lo) ((Start (TableRow true) a, sp) :: r)
| c_cell als al rest h a sp r : columns src (InRow als rest) r -> columns src (InRow als (al :: rest)) ((Start (TableCell al h) a, sp) :: r)
| c_beyond als h a sp r : columns src (InRow als []) r -> columns src (InRow als []) ((Start (TableCell AlUnspecified h) a, sp) :: r)
| c_body_end als rest sp r : columns src (Between als (se sp)) r -> columns src (InRow als rest) ((End_ (TableRow false), sp) :: r)
| c_head_end als rest sp s r : separator src (se sp) s als -> columns src (Between als (se s)) r ->
    columns src (InRow als rest) ((End_ (TableRow true), sp) :: r)
| c_table_end als lo sp r : lo <= ss sp -> columns src Outside r -> columns src (Between als lo) ((End_ Table, sp) :: r)
| c_other st e sp r : is_table_event e = false -> columns src st r -> columns src st ((e, sp) :: r).
