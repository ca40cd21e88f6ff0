(** * SpecHtml: specification of the rendered HTML, independently of the renderer *)
From Verif Require Import Base Attr Block Inline Doc Html.
Local Open Scope nat_scope.

(** ** Character references *)
(** Decode the four named references used by the renderer; other text is unchanged. *)
Fixpoint decode (s : bytes) : bytes :=
  match s with
  | "&" :: "l" :: "t" :: ";" :: r => "<"%char :: decode r
  | "&" :: "g" :: "t" :: ";" :: r => ">"%char :: decode r
  | "&" :: "a" :: "m" :: "p" :: ";" :: r => "&"%char :: decode r
  | "&" :: "q" :: "u" :: "o" :: "t" :: ";" :: r => DQ :: decode r
  | c :: r => c :: decode r
  | [] => []
  end%char.
(** [s] starts with a character reference. *)
Definition is_ref (s : bytes) : Prop :=
  exists r, s = B "&lt;" ++ r \/ s = B "&gt;" ++ r \/ s = B "&amp;" ++ r \/ s = B "&quot;" ++ r.
(** Inert text: no angle brackets, no quotes if [quotes], and every ampersand starts a reference. *)
Definition inert (quotes : bool) (s : bytes) : Prop :=
  ~ List.In "<"%char s /\ ~ List.In ">"%char s /\ (quotes = true -> ~ List.In DQ s) /\
  forall a b, s = a ++ "&"%char :: b -> is_ref ("&"%char :: b).

(** ** Text *)
(** What is written for text inside the containers [st] (innermost first): nothing in a link
    definition; in a raw container the text itself if the format is html and nothing otherwise; and
    the escaped text elsewhere and inside images (whose text becomes an attribute). *)
Fixpoint escaped (quotes : bool) (s : bytes) : bytes :=
  match s with
  | [] => []
  | c :: r => (if ascii_dec c "<" then B "&lt;" else if ascii_dec c ">" then B "&gt;"
               else if ascii_dec c "&" then B "&amp;"
               else if quotes then (if ascii_dec c DQ then B "&quot;" else [c]) else [c]) ++ escaped quotes r
  end.
Definition in_image (st : list container) : bool :=
  existsb (fun c => match c with Image _ _ => true | _ => false end) st.
Definition text_out (st : list container) (t : bytes) : bytes :=
  match st with
  | LinkDefinition _ :: _ => []
  | RawBlock f :: r | RawInline f :: r =>
      if in_image r then escaped true t
      else if list_eq_dec ascii_dec f (B "html") then t else []
  | _ => escaped (in_image st) t
  end.
(** Footnote references are not shown in link definitions and in the text of images. *)
Definition hidden (st : list container) : bool :=
  match st with LinkDefinition _ :: _ => true | _ => in_image st end.
(** The outputs of the text events and footnote references among [evs], when [st] are the containers
    open before them. *)
Fixpoint texts_ok (st : list container) (evs : list event) (outs : list bytes) : Prop :=
  match evs, outs with
  | [], [] => True
  | e :: evs', o :: outs' =>
      (forall t, e = Str t -> o = text_out st t) /\
      (forall l, e = FootnoteReference l -> (o = [] <-> hidden st = true)) /\
      texts_ok (match e with Start c _ => c :: st | End_ _ => tl st | _ => st end) evs' outs'
  | _, _ => False
  end.

(** ** Footnotes and link definitions are taken out of the text *)
(** The events outside footnotes, and the bodies of the footnotes in the order in which they end;
    [stack] holds the footnotes that are open, innermost first. *)
Fixpoint separate (stack : list (bytes * list event)) (evs : list event)
  : list event * list (bytes * list event) :=
  match evs with
  | [] => ([], [])
  | e :: evs' =>
      match e, stack with
      | Start (Footnote l) _, _ => separate ((l, []) :: stack) evs'
      | End_ (Footnote _), (l, b) :: st => let (body, notes) := separate st evs' in (body, (l, b) :: notes)
      | _, (l, b) :: st => separate ((l, b ++ [e]) :: st) evs'
      | _, [] => let (body, notes) := separate [] evs' in (e :: body, notes)
      end
  end.
(** The events with every link definition, from its start to the next end of one, taken out. *)
Fixpoint drop_defs (ignoring : bool) (evs : list event) : list event :=
  match evs with
  | [] => []
  | Start (LinkDefinition _) _ :: r => drop_defs true r
  | End_ (LinkDefinition _) :: r => drop_defs false r
  | e :: r => if ignoring then drop_defs true r else e :: drop_defs false r
  end.
(** The body of the footnote with a label: the last one that ended. *)
Definition note_body (notes : list (bytes * list event)) (l : bytes) : list event :=
  match find (fun n => if list_eq_dec ascii_dec (fst n) l then true else false) (rev notes) with
  | Some (_, b) => b
  | None => []
  end.

(** ** Footnote numbers *)
(** The labels referenced by a list of events, in order. *)
Definition labels_of (evs : list event) : list bytes :=
  flat_map (fun e => match e with FootnoteReference l => [l] | _ => [] end) evs.
(** Add the labels that are not there yet, in order of appearance. *)
Fixpoint add_new (seen : list bytes) (ls : list bytes) : list bytes :=
  match ls with
  | [] => seen
  | l :: ls' => add_new (if in_dec (list_eq_dec ascii_dec) l seen then seen else seen ++ [l]) ls'
  end.
(** [numbered notes refs i final]: when the labels [refs] have been referenced so far and the notes from
    the (i+1)-th on are still to be written, the labels in numeric order end up being [final]: writing a
    note may introduce new labels. *)
Inductive numbered (notes : list (bytes * list event)) : list bytes -> nat -> list bytes -> Prop :=
| num_done refs : numbered notes refs (length refs) refs
| num_step refs i l final : nth_error refs i = Some l ->
    numbered notes (add_new refs (labels_of (drop_defs false (note_body notes l)))) (S i) final ->
    numbered notes refs i final.

(** The link printed for the reference to footnote [n]. *)
Definition anchor (n : nat) : bytes :=
  let d := dec (N.of_nat n) in
  B "<a id=" ++ [DQ] ++ B "fnref" ++ d ++ [DQ] ++ B " href=" ++ [DQ] ++ B "#fn" ++ d ++ [DQ] ++ B " role=" ++ [DQ]
  ++ B "doc-noteref" ++ [DQ] ++ B "><sup>" ++ d ++ B "</sup></a>".
(** The start of the item of footnote [n], and the link back to its reference. *)
Definition item_start (n : nat) : bytes := B "<li id=" ++ [DQ] ++ B "fn" ++ dec (N.of_nat n) ++ [DQ] ++ B ">".
Definition backlink (n : nat) : bytes :=
  B "<a href=" ++ [DQ] ++ B "#fnref" ++ dec (N.of_nat n) ++ [DQ] ++ B " role=" ++ [DQ] ++ B "doc-backlink" ++ [DQ]
  ++ B ">↩︎</a></p>".

(** Whitespace that the renderer may put between elements: newlines and copies of the indentation. *)
Inductive gap (ind : bytes) : bytes -> Prop :=
| gap_nil : gap ind []
| gap_nl w : gap ind w -> gap ind (NL :: w)
| gap_str w : gap ind w -> gap ind (ind ++ w).

(** [weave ind outs content]: [content] is the concatenation of [outs] with paragraph tags (preceded by a
    gap) inserted. *)
Inductive weave (ind : bytes) : list bytes -> bytes -> Prop :=
| weave_nil : weave ind [] []
| weave_out o outs c : weave ind outs c -> weave ind (o :: outs) (o ++ c)
| weave_close outs c : weave ind outs c -> weave ind outs (B "</p>" ++ c)
| weave_open outs w c : gap ind w -> weave ind outs c -> weave ind outs (w ++ B "<p>" ++ c).

(** ** Layout *)
(** A piece of markup: starts with a tag and ends with a tag. *)
Definition markup (x : bytes) : Prop := exists y, x = "<"%char :: y ++ [">"%char].
Definition blockish (e : event) : Prop :=
  match e with Start _ _ | End_ _ | ThematicBreak _ => True | _ => False end.
(** [event_lay ind e om o]: the indented output [o] of the event [e] is its minified output [om] with
    gaps inserted: before it, for starts and ends of containers and thematic breaks; after it, for line
    breaks; between the two tags of a task list item; and for the end of the document, which also
    writes the endnotes, between the tags and events that make them up. *)
Inductive event_lay (ind : bytes) : event -> bytes -> bytes -> Prop :=
| el_block e w om : blockish e -> gap ind w -> event_lay ind e om (w ++ om)
| el_task b a w w' x y : markup x -> markup y -> gap ind w -> gap ind w' ->
    event_lay ind (Start (TaskListItem b) a) (x ++ y) (w ++ x ++ w' ++ y)
| el_break e om w : e = Hardbreak \/ e = Softbreak -> gap ind w -> event_lay ind e om (om ++ w)
| el_same e om : event_lay ind e om om
| el_end om o : laid ind om o -> event_lay ind (End_ Document) om o
with laid (ind : bytes) : bytes -> bytes -> Prop :=
| laid_nil : laid ind [] []
| laid_gap w a b : gap ind w -> laid ind a b -> laid ind a (w ++ b)
| laid_tag x a b : markup x -> laid ind a b -> laid ind (x ++ a) (x ++ b)
| laid_event e om o a b : event_lay ind e om o -> laid ind a b -> laid ind (om ++ a) (o ++ b).

(** The layout of the outputs of a list of events. *)
Fixpoint lays (ind : bytes) (evs : list event) (oms os : list bytes) : Prop :=
  match evs, oms, os with
  | [], [], [] => True
  | e :: evs', om :: oms', o :: os' => event_lay ind e om o /\ lays ind evs' oms' os'
  | _, _, _ => False
  end.

(** ** The endnotes *)
(** Blank lines and escapes in footnotes produce nothing. *)
Definition keep (e : event) : bool := match e with Blankline | Escape => false | _ => true end.
(** Render events one by one, keeping the outputs apart. *)
Fixpoint render_list (s : rstate) (evs : list event) : res (rstate * list bytes) :=
  match evs with
  | [] => Ok (s, [])
  | e :: r => let! (s1, o) := render_event s e in let! (s2, os) := render_list s1 r in Ok (s2, o :: os)
  end.
(** What a footnote reference prints, given the final order of the labels. *)
Definition ref_out (final : list bytes) (e : event) (o : bytes) : Prop :=
  forall l, e = FootnoteReference l -> o = [] \/ exists i, nth_error final i = Some l /\ o = anchor (S i).
(** The item of footnote [n] among the notes [notes], numbered by [final]: its content are the outputs
    of the events of the note, with paragraph tags inserted. *)
Definition item_spec (ind : bytes) (notes : list (bytes * list event)) (final : list bytes) (n : nat) (item : bytes) : Prop :=
  exists l w1 w2 t t' outs content,
    nth_error final (n - 1) = Some l /\
    render_list t (filter keep (note_body notes l)) = Ok (t', outs) /\
    Forall2 (ref_out final) (filter keep (note_body notes l)) outs /\
    texts_ok [] (filter keep (note_body notes l)) outs /\
    weave ind outs content /\ gap ind w1 /\ gap ind w2 /\
    item = w1 ++ item_start n ++ content ++ backlink n ++ w2 ++ B "</li>".

(** What is written at the end of a document: nothing but a line break if there are no footnotes
    references, otherwise one item for each label in [final], in order. *)
Definition tail_spec (ind : bytes) (notes : list (bytes * list event)) (final : list bytes) (tail : bytes) : Prop :=
  (final = [] /\ gap ind tail) \/
  (final <> [] /\ exists w1 w2 w3 w4 w5 w6 items,
     gap ind w1 /\ gap ind w2 /\ gap ind w3 /\ gap ind w4 /\ gap ind w5 /\ gap ind w6 /\
     Forall2 (item_spec ind notes final) (seq 1 (length final)) items /\
     tail = w1 ++ B "<section role=" ++ [DQ] ++ B "doc-endnotes" ++ [DQ] ++ B ">" ++ w2 ++ B "<hr>" ++ w3 ++ B "<ol>"
            ++ concat items ++ w4 ++ B "</ol>" ++ w5 ++ B "</section>" ++ w6).

