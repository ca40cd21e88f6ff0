(** * SpecSink: what a writer that may fail receives (C46), independently of the renderer *)
From Verif Require Import Base.
Local Open Scope nat_scope.

Section Spec.
Context {W E : Type}.
(** One call of the writer: the writer afterwards and, if the call failed, the error. *)
Variable put : W -> bytes -> W * option E.

(** All the pieces are accepted, one after the other. *)
Inductive accepts : W -> list bytes -> W -> Prop :=
| acc_none w : accepts w [] w
| acc_piece w t w1 cs w2 : put w t = (w1, None) -> accepts w1 cs w2 -> accepts w (t :: cs) w2.
(** The writer is given the text in pieces, in order: all of them, or up to the first that it does not accept;
    after that one nothing. *)
Definition receives (o : bytes) (w w' : W) (r : option E) : Prop :=
  match r with
  | None => exists cs, concat cs = o /\ accepts w cs w'
  | Some e => exists before t after w1, concat (before ++ t :: after) = o /\ accepts w before w1 /\ put w1 t = (w', Some e)
  end.
(** A writer that keeps ([log]) what it accepts and, of a piece that it does not accept, some beginning. *)
Definition keeps (log : W -> bytes) : Prop :=
  forall w t w' r, put w t = (w', r) -> exists p q, t = p ++ q /\ log w' = log w ++ p /\ (r = None -> q = []).
End Spec.

(** A writer that only says whether it failed ([std::fmt::Write]). *)
Definition flagged {W} (put : W -> bytes -> W * bool) (w : W) (t : bytes) : W * option unit :=
  let (w', ok) := put w t in (w', if ok then None else Some tt).
