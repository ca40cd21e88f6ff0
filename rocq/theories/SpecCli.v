(** * SpecCli: devices and the HTML that the command should write (C47) *)
From Verif Require Import Base Attr Block Inline Doc Html SpecDoc Cli.
Local Open Scope nat_scope.

(** What was written to the device can be looked at: what was taken, and nothing else. *)
Definition device {T E} (out : T -> bytes -> T * option (nat * E)) (log : T -> bytes) : Prop :=
  forall t p t' r, out t p = (t', r) -> log t' = log t ++ match r with None => p | Some (n, _) => firstn n p end.
Definition reliable {T E} (out : T -> bytes -> T * option (nat * E)) : Prop := forall t p, snd (out t p) = None.
(** The HTML of the text with the renderer that the options ask for. *)
Definition html_for (a : app) (src o : bytes) : Prop :=
  exists evs s, parse src = Ok evs /\
  render_events (if a_minified a then r_minified else r_new (Some (a_indent_string a, a_start_indent a))) evs = Ok (s, o).
