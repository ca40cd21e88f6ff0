(** * Cli: the command (src/main.rs)

    The outside is a parameter: what reading a file or the standard input gives, what creating a file gives, and a
    device that bytes are written to.  The parsing of the arguments (clap) is not modelled, nor is the line buffer that
    the standard library keeps behind [stdout()]: it belongs to the device. *)
From Verif Require Import Base Lex Attr Block Inline Doc Html Sink.
Local Open Scope nat_scope.

(** src/main.rs:1-13 [App] *)
Record app := App { a_input : option bytes; a_output : option bytes; a_minified : bool; a_start_indent : nat; a_indent_string : bytes }.
(** src/main.rs:30-37: the renderer *)
Definition renderer (a : app) : rstate :=
  if a_minified a then r_minified else r_new (Some (a_indent_string a, a_start_indent a)).

Section Cli.
Context {T E : Type}.
(** [write_all] on the device: all the bytes are taken ([None]), or only the first [n], and an error. *)
Variable out : T -> bytes -> T * option (nat * E).
Variable other : E.

(** A file: src/main.rs:40, [std::fs::File] as a writer *)
Definition file_write (t : T) (p : bytes) : T * option E := let (t', r) := out t p in (t', option_map snd r).

(** [std::io::BufWriter] (src/main.rs:41) with the given capacity: the device and what is not yet written to it.  Modelled
    after the standard library's [write_all] and [flush_buf]; a failed flush keeps what was not taken. *)
Definition buf_flush (w : T * bytes) : (T * bytes) * option E :=
  match out (fst w) (snd w) with
  | (t, None) => ((t, []), None)
  | (t, Some (n, e)) => ((t, skipn n (snd w)), Some e)
  end.
Definition buf_write (cap : nat) (w : T * bytes) (p : bytes) : (T * bytes) * option E :=
  let spare := cap - length (snd w) in
  if Nat.ltb (length p) spare then ((fst w, snd w ++ p), None)
  else
    let (w, r) := if Nat.ltb spare (length p) then buf_flush w else (w, None) in
    match r with
    | Some e => (w, Some e)
    | None => if Nat.leb cap (length p) then let (t, r) := file_write (fst w) p in ((t, snd w), r)
              else ((fst w, snd w ++ p), None)
    end.
(** Dropping it writes the rest and ignores an error. *)
Definition buf_drop (w : T * bytes) : T := fst (fst (buf_flush w)).

(** The outside before the command runs. *)
Record env := Env {
  e_read : bytes -> bytes + E;      (* [std::fs::read_to_string] *)
  e_stdin : bytes + E;              (* [stdin().read_to_string] *)
  e_create : bytes -> T + E;        (* [std::fs::File::create] *)
  e_stdout : T
}.
(** src/main.rs:20-27 *)
Definition content (a : app) (v : env) : bytes + E :=
  match a_input a with Some path => e_read v path | None => e_stdin v end.
Definition failure {A} (r : A + E) : option E := match r with inl _ => None | inr e => Some e end.
(** src/main.rs:15-45 [run]: the file that was created, if any, the standard output, and the error, if any.  The events are
    computed before they are written, the code computes them one at a time: this differs only if there is a panic. *)
Definition cli_run (cap : nat) (a : app) (v : env) : res (option T * T * option E) :=
  match content a v with
  | inr e => Ok (None, e_stdout v, Some e)
  | inl src =>
      match a_output a with
      | Some path =>
          match e_create v path with
          | inr e => Ok (None, e_stdout v, Some e)
          | inl f =>
              let! evs := parse src in
              let! (f', r) := write_events file_write other (renderer a) evs f in
              Ok (Some f', e_stdout v, failure r)
          end
      | None =>
          let! evs := parse src in
          let! (w, r) := write_events (buf_write cap) other (renderer a) evs (e_stdout v, []) in
          Ok (None, buf_drop w, failure r)
      end
  end.
(** src/main.rs:47-55 [main]: the exit status (the error is printed to the standard error). *)
Definition exit_status (r : option E) : nat := match r with None => 0 | Some _ => 1 end.
End Cli.
(** The buffer of [BufWriter::new] *)
Definition buf_capacity : nat := 8192.
