(** * SpecSrc: how inline events are spelled in the source (C39) *)
From Verif Require Import Base Attr Block Inline Doc SpecAttr.
Local Open Scope nat_scope.

(** Text in braces (an attribute set); a run of backticks. *)
Definition braced (t : bytes) : Prop := exists m, t = B "{" ++ m ++ B "}".
(** The same before whitespace (attribute sets on lines of their own, up to the end of the last line). *)
Definition sets_text (t : bytes) : Prop := exists x b, t = x ++ b /\ braced x /\ Forall (fun c => is_ws c = true) b.
Definition ticks (t : bytes) : Prop := t <> [] /\ Forall (fun c => c = "`"%char) t.
Definition symbol_char (c : ascii) : Prop := is_alnum c = true \/ c = "-"%char \/ c = "+"%char \/ c = "_"%char.

(** [lines_text src a b t]: [t] is the source from [a] to [b] without some beginnings of lines (the markers and
    indentation of enclosing blocks). *)
Inductive lines_text (src : bytes) : nat -> nat -> bytes -> Prop :=
| lt_last a b : a <= b -> lines_text src a b (slice src (Sp a b))
| lt_line a m m' b t : a <= m -> 0 < m -> nth_error src (m - 1) = Some NL -> m <= m' -> lines_text src m' b t ->
    lines_text src a b (slice src (Sp a m) ++ t).

(** The attributes [a] are written at the range [sp]. *)
Definition set_on (src : bytes) (sp : span) (a : attrs) : Prop :=
  ss sp <= se sp /\ se sp <= length src /\ exists t, gsets t a /\ lines_text src (ss sp) (se sp) t.
(** Attributes written in the source, one set after another. *)
Inductive written (src : bytes) : attrs -> Prop :=
| wr_nil : written src []
| wr_set sp a b : set_on src sp a -> written src b -> written src (a ++ b).

(** The text at the range of a start event.  A link or span can open with [\[^] if the text after it is not a
    footnote reference; a word with attributes is an (invisible) span. *)
Definition opens_with (c : container) (t : bytes) : Prop :=
  match c with
  | Strong => t = B "*" \/ t = B "{*"
  | Emphasis => t = B "_" \/ t = B "{_"
  | Superscript => t = B "^" \/ t = B "{^"
  | Subscript => t = B "~" \/ t = B "{~"
  | Mark => t = B "{="
  | Insert => t = B "{+"
  | Delete => t = B "{-"
  | Verbatim => ticks t
  | Math false => exists r, t = B "$" ++ r /\ ticks r
  | Math true => exists r, t = B "$$" ++ r /\ ticks r
  | RawInline _ => exists d r, t = d ++ r /\ (d = [] \/ d = B "$" \/ d = B "$$") /\ ticks r
  | Link _ (LSpan _) => t = B "[" \/ t = B "[^"
  | Link _ _ => t = B "<"
  | Image _ _ => t = B "!["
  | Span_ => t = [] \/ t = B "[" \/ t = B "[^"
  | _ => True
  end.
(** Some attribute set in the source directly follows another: if the second is not closed, the parser resumes in the
    middle of its lines, and forgets where the current line began. *)
Definition two_sets (src : bytes) : Prop := exists a b, src = a ++ B "}{" ++ b.
(** A character of an automatic link. *)
Definition url_char (c : ascii) : Prop := is_ws c = false /\ c <> "<"%char /\ c <> ">"%char.
(** The closing delimiter. *)
Definition closer (src : bytes) (c : container) (x : bytes) : Prop :=
  match c with
  | Strong => x = B "*" \/ x = B "*}"
  | Emphasis => x = B "_" \/ x = B "_}"
  | Superscript => x = B "^" \/ x = B "^}"
  | Subscript => x = B "~" \/ x = B "~}"
  | Mark => x = B "=}"
  | Insert => x = B "+}"
  | Delete => x = B "-}"
  | Verbatim | Math _ => x = [] \/ ticks x
  | RawInline f => (exists y, ticks y /\ x = y ++ B "{=" ++ f ++ B "}") /\ f <> [] /\ Forall (fun c => is_ws c = false /\ c <> "{"%char /\ c <> "}"%char) f
  | Link d (LSpan LInline) | Image d LInline => exists m, x = B "](" ++ m ++ B ")" /\ (d = m \/ List.In NL m \/ two_sets src)
  | Link _ (LSpan _) | Image _ _ => exists m, x = B "][" ++ m ++ B "]"
  | Link d LEmail => x = B ">" /\ List.In "@"%char d /\ Forall url_char d
  | Link d LAutoLink => x = B ">" /\ List.In ":"%char d /\ ~ List.In "@"%char d /\ Forall url_char d
  | Span_ => x = [] \/ x = B "]"
  | _ => True
  end.
Definition takes_attrs (c : container) : bool :=
  match c with RawInline _ | Link _ LAutoLink | Link _ LEmail => false | _ => true end.
(** The text of an event at the range [sp], and of a list of events: what they print without markup.  A line break is a
    space, an escape is nothing, and a special character or symbol is as in the source. *)
Definition text_of (src : bytes) (e : event) (sp : span) : bytes :=
  match e with
  | Start _ _ | End_ _ | Attributes _ | Escape => []
  | Str t => t
  | Softbreak | Hardbreak => [SP]
  | _ => slice src sp
  end.
Definition plain_text (src : bytes) (evs : list (event * span)) : bytes := flat_map (fun p => text_of src (fst p) (snd p)) evs.
(** Verbatim text with the opening delimiter [o]: the closing one [x] has as many backticks, or is missing (at the end
    of the block). *)
Definition fenced_by (o x : bytes) : Prop :=
  exists d n, 1 <= n /\ o = d ++ repeat "`"%char n /\ Forall (fun c => c = "$"%char) d /\
    (x = [] \/ exists r, x = repeat "`"%char n ++ r /\ hd_error r <> Some "`"%char).
Definition verb_box (c : container) : bool := match c with Verbatim | Math _ | RawInline _ => true | _ => false end.
(** The closing delimiter [x] of a container that was opened with [o].  The label [l] of a reference link or image with
    the text [txt]: the text in brackets, if there is some on one line; [txt] if there is none. *)
Definition paired (src : bytes) (c : container) (l o txt x : bytes) : Prop :=
  match c with
  | Verbatim | Math _ | RawInline _ => fenced_by o x
  | Link _ (LSpan LReference) | Link _ (LSpan LUnresolved) | Image _ LReference | Image _ LUnresolved =>
      exists m, x = B "][" ++ m ++ B "]" /\ (m = [] -> l = txt) /\ (m <> [] -> l = m \/ List.In NL m \/ two_sets src)
  | _ => True
  end.
(** An automatic link that is closed at [q]: its destination is the text before it, after [<]. *)
Definition auto_url (src : bytes) (c : container) (q : nat) : Prop :=
  match c with
  | Link d LAutoLink | Link d LEmail => exists p, p + 1 + length d = q /\ slice src (Sp p q) = B "<" ++ d
  | _ => True
  end.
(** The range [sp] of an end event: the closing delimiter and then, if there are any, attribute sets that denote [a]. *)
Definition ends (src : bytes) (c : container) (l o txt : bytes) (a : attrs) (sp : span) : Prop :=
  exists m, ss sp <= m /\ m <= se sp /\ closer src c (slice src (Sp (ss sp) m)) /\ paired src c l o txt (slice src (Sp (ss sp) m)) /\ auto_url src c (ss sp) /\
    ((m = se sp /\ a = [] /\ c <> Span_) \/
     (takes_attrs c = true /\ set_on src (Sp m (se sp)) a /\ braced (slice src (Sp m (se sp))))).
Definition closes_with (src : bytes) (c : container) (t : bytes) : Prop :=
  exists x, closer src c x /\ (t = x /\ c <> Span_ \/ takes_attrs c = true /\ exists r, t = x ++ r /\ braced r).
Definition spelled (src : bytes) (e : event) (t : bytes) : Prop :=
  match e with
  | Start c _ => opens_with c t
  | End_ c => closes_with src c t
  | Symbol s => t = B ":" ++ s ++ B ":" /\ Forall symbol_char s
  | FootnoteReference l => t = B "[^" ++ l ++ B "]" /\ Forall (fun c => c <> "["%char /\ c <> "]"%char /\ c <> NL) l
  | LeftSingleQuote => t = B "'" \/ t = B "{'"
  | RightSingleQuote => t = B "'" \/ t = B "'}" \/ t = B "{'"
  | LeftDoubleQuote => t = [DQ] \/ t = B "{" ++ [DQ]
  | RightDoubleQuote => t = [DQ] \/ t = [DQ] ++ B "}"
  | Ellipsis => t = B "..."
  | EnDash => t = B "--"
  | EmDash => t = B "---"
  | NonBreakingSpace => t = [SP]
  | Softbreak => t = [NL]
  | Hardbreak => exists b, t = b ++ [NL] /\ Forall (fun c => c = SP \/ c = TAB) b
  | Escape => t = [BSL]
  | Attributes _ => sets_text t
  | Str s => t = s
  | _ => True
  end.
