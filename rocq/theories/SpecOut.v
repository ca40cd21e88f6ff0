(** * SpecOut: the HTML of every event (C41), independently of the renderer

    What is written for an event depends only on the event, on the containers open around it and on the
    numbers of the footnotes.  This is the minified output; C27 relates the indented ones to it. *)
From Verif Require Import Base Attr Block Inline Doc SpecAttr SpecDoc SpecHtml.
Local Open Scope nat_scope.

(** ** Attributes *)
Definition attr_html (name value : bytes) : bytes := [SP] ++ name ++ B "=" ++ [DQ] ++ value ++ [DQ].
(** The element of a container. *)
Definition element (c : container) : bytes :=
  match c with
  | Document | Footnote _ | LinkDefinition _ | RawBlock _ | RawInline _ => []
  | Blockquote => B "blockquote"
  | ListC (LkOrdered _ _ _) _ => B "ol" | ListC _ _ => B "ul"
  | ListItem | TaskListItem _ => B "li"
  | DescriptionList => B "dl" | DescriptionTerm => B "dt" | DescriptionDetails => B "dd"
  | Table => B "table" | Caption => B "caption" | TableRow _ => B "tr"
  | TableCell _ true => B "th" | TableCell _ false => B "td"
  | Section_ _ => B "section" | Div _ => B "div" | Paragraph => B "p"
  | Heading level _ _ => B "h" ++ dec (N.of_nat level)
  | CodeBlock _ => B "pre"
  | Span_ | Math _ => B "span" | Link _ _ => B "a" | Image _ _ => B "img"
  | Verbatim => B "code" | Subscript => B "sub" | Superscript => B "sup" | Insert => B "ins" | Delete => B "del"
  | Strong => B "strong" | Emphasis => B "em" | Mark => B "mark"
  end.
(** Attributes that say what the container is: the number and style of a list, the target of a link; none for
    the link to an unknown label. *)
Definition own_html (c : container) : bytes :=
  match c with
  | ListC (LkOrdered nb _ start) _ =>
      (if N.ltb 1 start then attr_html (B "start") (dec start) else []) ++
      match nb with
      | Decimal => []
      | AlphaLower => attr_html (B "type") (B "a") | AlphaUpper => attr_html (B "type") (B "A")
      | RomanLower => attr_html (B "type") (B "i") | RomanUpper => attr_html (B "type") (B "I")
      end
  | Link _ (LSpan LUnresolved) => []
  | Link dst LEmail => attr_html (B "href") (B "mailto:" ++ escaped true dst)
  | Link dst _ => attr_html (B "href") (escaped true dst)
  | _ => []
  end.
(** The class that a container has by itself, and the id. *)
Definition own_class (c : container) : bytes :=
  match c with
  | ListC (LkTask _) _ => B "task-list"
  | Math false => B "math inline" | Math true => B "math display"
  | Div class => class
  | _ => []
  end.
Definition own_id (c : container) : option bytes :=
  match c with Section_ id | Heading _ false id => Some id | _ => None end.
(** A written class is followed by the container's own one; for a div they are separated by a space, for math
    and task lists they are not (a defect). *)
Definition more_class (c : container) (k : bytes) : bytes :=
  if list_eq_dec ascii_dec k (B "class") then
    match c with
    | Div [] => []
    | Div class => SP :: class
    | _ => own_class c
    end
  else [].
Definition named (pairs : list (bytes * bytes)) (k : bytes) : bool :=
  existsb (fun p => if list_eq_dec ascii_dec (fst p) k then true else false) pairs.
(** The attributes of a container: those attached to it, then its own id or class if it has none. *)
Definition attrs_html (c : container) (a : attrs) : bytes :=
  let pairs := unique_pairs a in
  concat (map (fun p => attr_html (fst p) (escaped true (unescape (snd p)) ++ more_class c (fst p))) pairs) ++
  match own_id c with
  | Some id => if named pairs (B "id") then [] else attr_html (B "id") (escaped true id)
  | None => if named pairs (B "class") then [] else match own_class c with [] => [] | cl => attr_html (B "class") cl end
  end.
(** The rest of the start tag: the alignment of a cell; the second tag of code blocks and task items; the
    delimiters of math; the text of an image goes into an attribute. *)
Definition rest_html (c : container) : bytes :=
  match c with
  | TableCell AlLeft _ => attr_html (B "style") (B "text-align: left;") ++ B ">"
  | TableCell AlCenter _ => attr_html (B "style") (B "text-align: center;") ++ B ">"
  | TableCell AlRight _ => attr_html (B "style") (B "text-align: right;") ++ B ">"
  | CodeBlock [] => B "><code>"
  | CodeBlock lang => B "><code" ++ attr_html (B "class") (B "language-" ++ escaped true lang) ++ B ">"
  | Image _ _ => B " alt=" ++ [DQ]
  | Math false => B ">\(" | Math true => B ">\["
  | TaskListItem checked =>
      B "><input" ++ attr_html (B "disabled") [] ++ attr_html (B "type") (B "checkbox")
      ++ (if checked then attr_html (B "checked") [] else []) ++ B "/>"
  | _ => B ">"
  end.

(** ** Starts and ends *)
(** [tight]: the innermost list around is tight, so that its paragraphs have no tags. *)
Definition start_html (tight : bool) (c : container) (a : attrs) : bytes :=
  match c with
  | Document | Footnote _ | LinkDefinition _ | RawBlock _ | RawInline _ => []
  | Paragraph => if tight then [] else B "<p" ++ attrs_html c a ++ B ">"
  | _ => B "<" ++ element c ++ own_html c ++ attrs_html c a ++ rest_html c
  end.
Definition end_html (tight : bool) (c : container) : bytes :=
  let close x := B "</" ++ x ++ B ">" in
  match c with
  | Document | Footnote _ | LinkDefinition _ | RawBlock _ | RawInline _ => []
  | Paragraph => if tight then [] else close (element c)
  | CodeBlock _ => close (B "code") ++ close (B "pre")
  | Image [] _ => [DQ] ++ B ">"
  | Image dst _ => [DQ] ++ attr_html (B "src") (escaped true dst) ++ B ">"
  | Math false => B "\)" ++ close (element c) | Math true => B "\]" ++ close (element c)
  | _ => close (element c)
  end.
Fixpoint in_tight (st : list container) : bool :=
  match st with
  | [] => false
  | ListC _ tight :: _ => tight
  | _ :: st' => in_tight st'
  end.

(** ** Events *)
(** The number of a footnote, given the labels in the order of their numbers. *)
Fixpoint number_of (order : list bytes) (l : bytes) : nat :=
  match order with
  | [] => 1
  | l' :: r => if list_eq_dec ascii_dec l l' then 1 else S (number_of r l)
  end.
Definition shown_html (order : list bytes) (st : list container) (e : event) : bytes :=
  match e with
  | Start c a => if in_image st then [] else start_html (in_tight st) c a
  | End_ c => if in_image (tl st) then [] else end_html (in_tight (tl st)) c
  | Str t => text_out st t
  | FootnoteReference l => if in_image st then [] else anchor (number_of order l)
  | Symbol name => B ":" ++ name ++ B ":"
  | LeftSingleQuote => B "‘" | RightSingleQuote => B "’" | LeftDoubleQuote => B "“" | RightDoubleQuote => B "”"
  | Ellipsis => B "…" | EnDash => B "–" | EmDash => B "—"
  | NonBreakingSpace => B "&nbsp;" | Hardbreak => B "<br>" | Softbreak => [NL]
  | Escape | Blankline | Attributes _ => []
  | ThematicBreak a => B "<hr" ++ attrs_html Paragraph a ++ B ">"
  end.
(** Nothing is written for what is inside a link definition. *)
Definition event_html (order : list bytes) (st : list container) (e : event) : bytes :=
  match st with
  | LinkDefinition _ :: _ => []
  | _ => shown_html order st e
  end.
Fixpoint events_html (order : list bytes) (st : list container) (evs : list event) : bytes :=
  match evs with
  | [] => []
  | e :: r => event_html order st e ++ events_html order (match e with Start c _ => c :: st | End_ _ => tl st | _ => st end) r
  end.

(** ** Endnotes *)
(** The link back comes at the end of the last paragraph if the note ends with one, else in a new one. *)
Definition ends_in_paragraph (evs : list event) : bool :=
  match rev (filter keep evs) with End_ Paragraph :: _ => true | _ => false end.
Definition note_html (order : list bytes) (evs : list event) : bytes :=
  let h := events_html order [] evs in
  if ends_in_paragraph evs then firstn (length h - length (B "</p>")) h else h ++ B "<p>".
Definition item_html (order : list bytes) (notes : list (bytes * list event)) (n : nat) : bytes :=
  item_start n ++ note_html order (note_body notes (nth (n - 1) order [])) ++ backlink n ++ B "</li>".
Definition endnotes_html (order : list bytes) (notes : list (bytes * list event)) : bytes :=
  match order with
  | [] => []
  | _ => B "<section" ++ attr_html (B "role") (B "doc-endnotes") ++ B "><hr><ol>"
         ++ concat (map (item_html order notes) (seq 1 (length order))) ++ B "</ol></section>"
  end.
(** A whole document: the events outside footnotes, then the endnotes. *)
Definition page (order : list bytes) (inner : list event) : bytes :=
  let (body, notes) := separate [] inner in events_html order [] body ++ endnotes_html order notes.
