(** * SpecDoc: specification of event sequences, independently of the parser *)
From Verif Require Import Base Attr Block Inline Doc.
Local Open Scope nat_scope.

Definition container_eq_dec (a b : container) : {a = b} + {a <> b}.
Proof. repeat decide equality. Defined.

(** ** Proper nesting *)
(** Read events with a stack of the open containers: a start pushes its container, an end must close
    the innermost open container, with the same fields. *)
Fixpoint nest (st : list container) (evs : list event) : option (list container) :=
  match evs with
  | [] => Some st
  | Start c _ :: r => nest (c :: st) r
  | End_ c :: r =>
      match st with
      | c' :: st' => if container_eq_dec c c' then nest st' r else None
      | [] => None
      end
  | _ :: r => nest st r
  end.
(** The same, and nothing starts inside a link definition or a raw container. *)
Fixpoint nestd (st : list container) (evs : list event) : option (list container) :=
  match evs with
  | [] => Some st
  | Start c _ :: r => match st with LinkDefinition _ :: _ | RawBlock _ :: _ | RawInline _ :: _ => None | _ => nestd (c :: st) r end
  | End_ c :: r =>
      match st with
      | c' :: st' => if container_eq_dec c c' then nestd st' r else None
      | [] => None
      end
  | _ :: r => nestd st r
  end.
(** A document: the document container around properly nested events without further documents. *)
Definition no_document (evs : list event) : Prop :=
  forall e, List.In e evs -> match e with Start Document _ | End_ Document => False | _ => True end.
Definition document (evs : list event) : Prop :=
  exists a inner, evs = Start Document a :: inner ++ [End_ Document] /\ no_document inner /\ nestd [] inner = Some [].

(** ** Containment *)
(** Containers of blocks; leaf blocks with inline content; leaf blocks with literal text; inline
    containers; those of them that hold only text. *)
Definition holds_blocks (c : container) : bool :=
  match c with
  | Document | Section_ _ | Blockquote | Div _ | Footnote _ | ListItem | TaskListItem _ | DescriptionDetails => true
  | _ => false
  end.
Definition inline_leaf (c : container) : bool :=
  match c with Paragraph | Heading _ _ _ | TableCell _ _ | Caption | DescriptionTerm => true | _ => false end.
Definition literal_leaf (c : container) : bool :=
  match c with LinkDefinition _ | CodeBlock _ | RawBlock _ => true | _ => false end.
Definition inline_box (c : container) : bool :=
  match c with
  | Span_ | Link _ _ | Image _ _ | Verbatim | Math _ | RawInline _ | Subscript | Superscript | Insert | Delete
  | Strong | Emphasis | Mark => true
  | _ => false
  end.
Definition text_box (c : container) : bool :=
  match c with Verbatim | Math _ | RawInline _ | Link _ LAutoLink | Link _ LEmail => true | _ => false end.
(** Inline events other than text may come directly inside [c]. *)
Definition holds_inline (c : container) : bool := inline_leaf c || (inline_box c && negb (text_box c)).
(** Text may come directly inside [c]. *)
Definition holds_text (c : container) : bool := inline_leaf c || literal_leaf c || inline_box c.

(** May the container [c] start directly inside the container [p]? *)
Definition may_start (p c : container) : bool :=
  match c with
  | Document => false
  | Section_ _ => match p with Document | Section_ _ => true | _ => false end
  | Heading _ true _ => match p with Section_ _ => true | _ => false end
  | Heading _ false _ => match p with Document | Section_ _ => false | _ => holds_blocks p end
  | Blockquote | Div _ | Footnote _ | ListC _ _ | DescriptionList | Table | Paragraph
  | LinkDefinition _ | CodeBlock _ | RawBlock _ => holds_blocks p
  | ListItem => match p with ListC (LkTask _) _ => false | ListC _ _ => true | _ => false end
  | TaskListItem _ => match p with ListC (LkTask _) _ => true | _ => false end
  | DescriptionTerm | DescriptionDetails => match p with DescriptionList => true | _ => false end
  | TableRow _ | Caption => match p with Table => true | _ => false end
  | TableCell _ h => match p with TableRow h' => Bool.eqb h h' | _ => false end
  | _ => inline_box c && holds_inline p
  end.
(** May the event [e], not an end, come directly inside the container [p]? *)
Definition may_contain (p : container) (e : event) : bool :=
  match e with
  | Start c _ => may_start p c
  | End_ _ => true
  | Str _ => holds_text p
  | Blankline => holds_blocks p || match p with DescriptionList => true | _ => false end
  | ThematicBreak _ => holds_blocks p
  | Attributes _ => holds_blocks p || holds_inline p
  | _ => holds_inline p
  end.
(** Read the events with a stack of the open containers; outside all containers only a document may
    start. *)
Fixpoint well_placed (st : list container) (evs : list event) : bool :=
  match evs with
  | [] => true
  | e :: r =>
      match st with [] => match e with Start Document _ => true | _ => false end | p :: _ => may_contain p e end
      && well_placed (match e with Start c _ => c :: st | End_ _ => tl st | _ => st end) r
  end.

(** ** Ranges *)
(** Each range starts at or after the end of the one before it. *)
Fixpoint ordered (lo : nat) (evs : list (event * span)) : Prop :=
  match evs with
  | [] => True
  | (_, sp) :: r => lo <= ss sp /\ ss sp <= se sp /\ ordered (se sp) r
  end.
(** Leave out table captions, from their start to their end. *)
Fixpoint without_captions (inside : bool) (evs : list (event * span)) : list (event * span) :=
  match evs with
  | [] => []
  | (Start Caption a, sp) :: r => without_captions true r
  | (End_ Caption, sp) :: r => without_captions false r
  | e :: r => if inside then without_captions inside r else e :: without_captions inside r
  end.
(** Only the captions. *)
Fixpoint caption_at (evs : list (event * span)) : list (event * span) :=
  match evs with
  | [] => []
  | (End_ Caption, sp) :: r => [(End_ Caption, sp)]
  | e :: r => e :: caption_at r
  end.

(** ** Sections *)
(** [sections open closed evs]: [open] are the heading levels of the open sections, innermost first;
    [closed] is the level of the section closed last inside the innermost open one, if any.
    A section starts with a heading that has the same id, of a level deeper than that of the section
    around it and not deeper than that of the section closed before it (it would belong into that
    one); once a subsection was closed nothing but further subsections and stray attributes follow; a
    heading with the section mark occurs only at the start of a section. *)
Fixpoint sections (open : list nat) (closed : option nat) (evs : list event) : bool :=
  match evs with
  | [] => match open with [] => true | _ => false end
  | Start (Section_ id) _ :: r =>
      match r with
      | Start (Heading L true id') a :: r' =>
          bytes_eqb id id' && is_nil a && Nat.ltb (hd 0 open) L
          && match closed with Some k => Nat.leb L k | None => true end
          && sections (L :: open) None r'
      | _ => false
      end
  | Start (Heading _ true _) _ :: _ => false
  | End_ (Section_ _) :: r => match open with L :: open' => sections open' (Some L) r | [] => false end
  | End_ Document :: r | Attributes _ :: r => sections open closed r
  | _ :: r => is_none closed && sections open closed r
  end.

(** ** Headings and link definitions *)
(** Sections, and headings that open no section: id and attributes, in order. *)
Fixpoint heading_starts (evs : list event) : list (bytes * attrs) :=
  match evs with
  | [] => []
  | Start (Section_ id) a :: r | Start (Heading _ false id) a :: r => (id, a) :: heading_starts r
  | _ :: r => heading_starts r
  end.
(** The texts that come next. *)
Fixpoint leading_text (evs : list event) : list bytes :=
  match evs with Str t :: r => t :: leading_text r | _ => [] end.
(** Link definitions: label, URL and attributes, in order. The URL consists of the texts inside, each
    without the whitespace around it. *)
Fixpoint definitions (evs : list event) : list (bytes * (bytes * attrs)) :=
  match evs with
  | [] => []
  | Start (LinkDefinition l) a :: r => (l, (concat (map (trim_m is_ws) (leading_text r)), a)) :: definitions r
  | _ :: r => definitions r
  end.
Definition event_attrs (e : event) : attrs := match e with Start _ a | Attributes a | ThematicBreak a => a | _ => [] end.
