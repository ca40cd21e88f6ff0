(** * SpecOpen: which lines begin which blocks (C45) *)
From Verif Require Import Base Attr Block SpecAttr SpecBlock.
Local Open Scope nat_scope.

(** It begins with a character that is no blank. *)
Definition inked (r : bytes) : Prop := exists c r', r = c :: r' /\ is_ws c = false.
(** The end of the line, or whitespace. *)
Definition gapped (r : bytes) : Prop := r = [] \/ exists c r', r = c :: r' /\ is_ws c = true.
Definition bullet_at (c : ascii) : Prop := c = "-"%char \/ c = "*"%char \/ c = "+"%char.
(** The check box of a task. *)
Definition checkbox (b : bytes) : Prop := exists y, b = [SP; "["%char; y; "]"%char] /\ (y = SP \/ y = "x"%char \/ y = "X"%char).
(** The greatest number of characters of a list number. *)
Definition digits_max (nb : numbering) : nat := match nb with Decimal => 19 | RomanLower | RomanUpper => 13 | AlphaLower | AlphaUpper => 1 end.
(** A table row: it ends with a bar that is not escaped. *)
Definition row_text (t : bytes) : Prop := exists m b, t = B "|" ++ m ++ B "|" ++ b /\ blanks_only b /\ forall m', m <> m' ++ [BSL].

(** The lines that begin a block other than a paragraph, from the first character that is no blank on to the end of the
    line (its line break included). *)
Inductive opener : bytes -> Prop :=
| op_quote r : gapped r -> opener (B ">" ++ r)
| op_heading n r : gapped r -> opener (repeat "#"%char (S n) ++ r)
| op_break c r : c = "*"%char \/ c = "-"%char -> break_text (c :: r) -> opener (c :: r)
| op_bullet c r : bullet_at c -> r = [] \/ (exists r', r = SP :: r') -> opener (c :: r)
| op_term r : gapped r -> opener (B ":" ++ r)
| op_number nb ds v st r : number_denotes nb ds v -> length ds <= digits_max nb -> gapped r -> opener (marker_text st ds ++ r)
| op_code c n w t : c = "`"%char \/ c = "~"%char -> 3 <= n -> fence_text c n w t -> Forall (fun c => is_ws c = false /\ c <> "`"%char) w -> opener t
| op_div n w t : 3 <= n -> fence_text ":"%char n w t -> Forall (fun c => is_name c = true) w -> opener t
| op_def l r : ~ List.In "]"%char l -> opener (B "[" ++ l ++ B "]:" ++ r)
| op_row t : row_text t -> opener t
| op_attrs t a b : gset t a -> (forall j a', j < length t -> ~ gset (firstn j t) a') -> blanks_only b -> opener (t ++ b).

(** What follows the marker [t] of a list item, up to the end of the line: whitespace or nothing.  The line is not a
    thematic break, and an item of a plain bullet list does not begin with a check box. *)
Definition item_rest (t r : bytes) : Prop :=
  gapped r /\ ~ break_text (t ++ r) /\
  forall c, bullet_at c -> t = [c] -> (r = [] \/ exists r', r = SP :: r') /\ ~ (exists b r', r = b ++ r' /\ checkbox b /\ gapped r').
