(** * Html: model of src/html.rs

    The sink is a string: writing appends bytes and never fails (see [Sink.v] for writers that may fail).  Every
    function returns the bytes it writes. *)
From Verif Require Import Base Lex Attr Block Inline Doc.
Local Open Scope nat_scope.

(** src/html.rs:790-796, the entity for a character, if it is escaped. *)
Definition entity (quotes : bool) (c : ascii) : option bytes :=
  if beq c "<" then Some (B "&lt;")
  else if beq c ">" then Some (B "&gt;")
  else if beq c "&" then Some (B "&amp;")
  else if quotes && beq c DQ then Some (B "&quot;")
  else None.

(** src/html.rs:784-807 [write_escape]: the loop that finds the next escaped character, writes the
    text before it and its entity, as one pass over the bytes (the searched characters are ASCII). *)
Fixpoint escape (quotes : bool) (s : bytes) : bytes :=
  match s with
  | [] => []
  | c :: s' => (match entity quotes c with Some e => e | None => [c] end) ++ escape quotes s'
  end.
(** src/html.rs:770-775 [write_text], 777-782 [write_attr] *)
Definition write_text (s : bytes) : bytes := escape false s.
Definition write_attr (s : bytes) : bytes := escape true s.

(** src/html.rs:273-279 [Raw] *)
Inductive raw := RawNone | RawHtml | RawOther.

(** src/html.rs:815-824 [Footnotes]; [f_events] is the map, one entry per label. *)
Record footnotes := FN {
  f_open : list (bytes * list event);   (* stack, head = top *)
  f_refs : list bytes;
  f_events : list (bytes * list event);
  f_number : nat
}.

(** src/html.rs:285-294 [Renderer]; [r_indent] is the indentation string, if any (the initial level is
    only used to initialise [r_depth]). *)
Record rstate := R {
  r_indent : option bytes;
  r_depth : nat;
  r_raw : raw;
  r_img : nat;
  r_tight : list bool;                  (* stack, head = top *)
  r_first : bool;
  r_ignore : bool;
  r_foot : footnotes
}.

Definition r_set_depth (s : rstate) d := R (r_indent s) d (r_raw s) (r_img s) (r_tight s) (r_first s) (r_ignore s) (r_foot s).
Definition r_set_raw (s : rstate) x := R (r_indent s) (r_depth s) x (r_img s) (r_tight s) (r_first s) (r_ignore s) (r_foot s).
Definition r_set_img (s : rstate) x := R (r_indent s) (r_depth s) (r_raw s) x (r_tight s) (r_first s) (r_ignore s) (r_foot s).
Definition r_set_tight (s : rstate) x := R (r_indent s) (r_depth s) (r_raw s) (r_img s) x (r_first s) (r_ignore s) (r_foot s).
Definition r_set_first (s : rstate) x := R (r_indent s) (r_depth s) (r_raw s) (r_img s) (r_tight s) x (r_ignore s) (r_foot s).
Definition r_set_ignore (s : rstate) x := R (r_indent s) (r_depth s) (r_raw s) (r_img s) (r_tight s) (r_first s) x (r_foot s).
Definition r_set_foot (s : rstate) x := R (r_indent s) (r_depth s) (r_raw s) (r_img s) (r_tight s) (r_first s) (r_ignore s) x.

(** src/html.rs:297-313 [Renderer::new] *)
Definition r_new (indent : option (bytes * nat)) : rstate :=
  R (option_map fst indent) (match indent with Some (_, l) => l | None => 0 end)
    RawNone 0 [] true false (FN [] [] [] 0).
(** src/html.rs:173-175 [minified], 214-216 [indented], 256-261 [default] *)
Definition r_minified : rstate := r_new None.
Definition r_default : rstate := r_new (Some ([], 0)).

(** src/html.rs:339-351 [indent] *)
Definition w_indent (s : rstate) : bytes :=
  match r_indent s with
  | Some str => concat (repeat str (r_depth s))
  | None => []
  end.

Inductive dchange := DUp | DSame | DDown.

(** src/html.rs:315-337 [block].  A depth of 0 that is decreased would wrap around; the model
    panics instead. *)
Definition w_block (s : rstate) (d : dchange) : res (rstate * bytes) :=
  match r_indent s with
  | None => Ok (s, [])
  | Some _ =>
      let nl := if r_first s then [] else [NL] in
      match d with
      | DSame => Ok (s, nl ++ w_indent s)
      | DUp => Ok (r_set_depth s (S (r_depth s)), nl ++ w_indent s)
      | DDown => match r_depth s with
                 | O => Panic "html.rs:329"
                 | S n => let s' := r_set_depth s n in Ok (s', nl ++ w_indent s')
                 end
      end
  end.

(** src/lib.rs:1890-1926 [is_block_container] *)
Definition is_block_container (c : container) : bool :=
  match c with
  | Blockquote | ListC _ _ | ListItem | TaskListItem _ | DescriptionList | DescriptionDetails
  | Footnote _ | Table | TableRow _ | Section_ _ | Div _ => true
  | _ => false
  end.
(** src/lib.rs:1850-1886 [is_block] *)
Definition is_block (c : container) : bool :=
  is_block_container c ||
  match c with
  | Paragraph | Heading _ _ _ | TableCell _ _ | Caption | DescriptionTerm | LinkDefinition _
  | RawBlock _ | CodeBlock _ => true
  | _ => false
  end.

(** src/html.rs:743-768 [write_class] *)
Definition write_class (c : container) (first_written : bool) : bytes :=
  let cls := match c with
             | ListC (LkTask _) _ => Some (B "task-list")
             | Math false => Some (B "math inline")
             | Math true => Some (B "math display")
             | _ => None
             end in
  let first_written := match cls with Some _ => true | None => first_written end in
  (match cls with Some s => s | None => [] end)
  ++ match c with
     | Div class => match class with
                    | [] => []
                    | _ => (if first_written then [SP] else []) ++ class
                    end
     | _ => []
     end.

(** src/html.rs:482-492: one attribute; [extra] is what [write_class] adds. *)
Definition write_pair (extra : bytes -> bytes) (kv : bytes * bytes) : bytes :=
  [SP] ++ fst kv ++ B "=" ++ [DQ] ++ concat (map write_attr (parts (snd kv))) ++ extra (fst kv) ++ [DQ].

Definition quoted (name v : bytes) : bytes := [SP] ++ name ++ B "=" ++ [DQ] ++ v ++ [DQ].

(** src/html.rs:479-521: attributes of a start tag. *)
Definition write_attrs (c : container) (a : attrs) : bytes :=
  let pairs := unique_pairs a in
  let has k := existsb (fun p => bytes_eqb (fst p) (B k)) pairs in
  concat (map (write_pair (fun k => if bytes_eqb k (B "class") then write_class c true else [])) pairs)
  ++ match c with
     | Heading _ false id | Section_ id => if has "id"%string then [] else quoted (B "id") (write_attr id)
     | Div (_ :: _) | Math _ | ListC (LkTask _) _ =>
         if has "class"%string then [] else quoted (B "class") (write_class c false)
     | _ => []
     end.

(** src/html.rs:402-413: start and type of an ordered list. *)
Definition ol_attrs (nb : numbering) (start : N) : bytes :=
  (if N.ltb 1 start then quoted (B "start") (dec start) else [])
  ++ match nb with
     | Decimal => []
     | AlphaLower => quoted (B "type") (B "a")
     | AlphaUpper => quoted (B "type") (B "A")
     | RomanLower => quoted (B "type") (B "i")
     | RomanUpper => quoted (B "type") (B "I")
     end.

Definition tight_top (s : rstate) : bool := match r_tight s with true :: _ => true | _ => false end.

(** src/html.rs:391-477: the beginning of a start tag; [inl]: return early. *)
Definition open_tag (s : rstate) (c : container) : res (rstate + rstate * bytes) :=
  match c with
  | Document => Ok (inl s)
  | Blockquote => Ok (inr (s, B "<blockquote"))
  | ListC k tight =>
      let s := r_set_tight s (tight :: r_tight s) in
      Ok (inr (s, match k with
                  | LkUnordered _ | LkTask _ => B "<ul"
                  | LkOrdered nb _ start => B "<ol" ++ ol_attrs nb start
                  end))
  | ListItem | TaskListItem _ => Ok (inr (s, B "<li"))
  | DescriptionList => Ok (inr (s, B "<dl"))
  | DescriptionDetails => Ok (inr (s, B "<dd"))
  | Footnote _ => Panic "html.rs:422"
  | Table => Ok (inr (s, B "<table"))
  | TableRow _ => Ok (inr (s, B "<tr"))
  | Section_ _ => Ok (inr (s, B "<section"))
  | Div _ => Ok (inr (s, B "<div"))
  | Paragraph => if tight_top s then Ok (inl s) else Ok (inr (s, B "<p"))
  | Heading level _ _ => Ok (inr (s, B "<h" ++ dec (N.of_nat level)))
  | TableCell _ false => Ok (inr (s, B "<td"))
  | TableCell _ true => Ok (inr (s, B "<th"))
  | Caption => Ok (inr (s, B "<caption"))
  | DescriptionTerm => Ok (inr (s, B "<dt"))
  | CodeBlock _ => Ok (inr (s, B "<pre"))
  | Span_ | Math _ => Ok (inr (s, B "<span"))
  | Link dst ty =>
      Ok (inr (s, match ty with
                  | LSpan LUnresolved => B "<a"
                  | LEmail => B "<a href=" ++ [DQ] ++ B "mailto:" ++ write_attr dst ++ [DQ]
                  | _ => B "<a href=" ++ [DQ] ++ write_attr dst ++ [DQ]
                  end))
  | Image _ _ =>
      let s := r_set_img s (S (r_img s)) in
      if Nat.eqb (r_img s) 1 then Ok (inr (s, B "<img")) else Ok (inl s)
  | Verbatim => Ok (inr (s, B "<code"))
  | RawBlock f | RawInline f =>
      Ok (inl (r_set_raw s (if bytes_eqb f (B "html") then RawHtml else RawOther)))
  | Subscript => Ok (inr (s, B "<sub"))
  | Superscript => Ok (inr (s, B "<sup"))
  | Insert => Ok (inr (s, B "<ins"))
  | Delete => Ok (inr (s, B "<del"))
  | Strong => Ok (inr (s, B "<strong"))
  | Emphasis => Ok (inr (s, B "<em"))
  | Mark => Ok (inr (s, B "<mark"))
  | LinkDefinition _ => Ok (inl s)
  end.

(** src/html.rs:523-562: the end of a start tag. *)
Definition close_open_tag (s : rstate) (c : container) : res (rstate * bytes) :=
  match c with
  | TableCell AlLeft _ => Ok (s, quoted (B "style") (B "text-align: left;") ++ B ">")
  | TableCell AlCenter _ => Ok (s, quoted (B "style") (B "text-align: center;") ++ B ">")
  | TableCell AlRight _ => Ok (s, quoted (B "style") (B "text-align: right;") ++ B ">")
  | CodeBlock lang =>
      Ok (s, match lang with
             | [] => B "><code>"
             | _ => B "><code class=" ++ [DQ] ++ B "language-" ++ write_attr lang ++ [DQ] ++ B ">"
             end)
  | Image _ _ => Ok (s, if Nat.eqb (r_img s) 1 then B " alt=" ++ [DQ] else [])
  | Math d => Ok (s, if d then B ">\[" else B ">\(")
  | TaskListItem checked =>
      let! (s, o) := w_block s DSame in
      Ok (s, B ">" ++ o ++ B "<input disabled=" ++ [DQ; DQ] ++ B " type=" ++ [DQ] ++ B "checkbox" ++ [DQ]
             ++ (if checked then B " checked=" ++ [DQ; DQ] else []) ++ B "/>")
  | _ => Ok (s, B ">")
  end.

(** src/html.rs:571-634: an end tag; [inl (inl tt)]: render the epilogue, [inl (inr s)]: return
    early. *)
Definition close_tag (s : rstate) (c : container) : res ((unit + rstate) + rstate * bytes) :=
  match c with
  | Document => Ok (inl (inl tt))
  | Blockquote => Ok (inr (s, B "</blockquote>"))
  | ListC k _ =>
      let s := r_set_tight s (tl (r_tight s)) in
      Ok (inr (s, match k with LkOrdered _ _ _ => B "</ol>" | _ => B "</ul>" end))
  | ListItem | TaskListItem _ => Ok (inr (s, B "</li>"))
  | DescriptionList => Ok (inr (s, B "</dl>"))
  | DescriptionDetails => Ok (inr (s, B "</dd>"))
  | Footnote _ => Panic "html.rs:588"
  | Table => Ok (inr (s, B "</table>"))
  | TableRow _ => Ok (inr (s, B "</tr>"))
  | Section_ _ => Ok (inr (s, B "</section>"))
  | Div _ => Ok (inr (s, B "</div>"))
  | Paragraph =>
      if tight_top s then Ok (inl (inr s))
      else Ok (inr (s, if Nat.ltb 0 (f_number (r_foot s)) then [] else B "</p>"))
  | Heading level _ _ => Ok (inr (s, B "</h" ++ dec (N.of_nat level) ++ B ">"))
  | TableCell _ false => Ok (inr (s, B "</td>"))
  | TableCell _ true => Ok (inr (s, B "</th>"))
  | Caption => Ok (inr (s, B "</caption>"))
  | DescriptionTerm => Ok (inr (s, B "</dt>"))
  | CodeBlock _ => Ok (inr (s, B "</code></pre>"))
  | Span_ => Ok (inr (s, B "</span>"))
  | Link _ _ => Ok (inr (s, B "</a>"))
  | Image src _ =>
      let o := if Nat.eqb (r_img s) 1 then
                 (match src with [] => [] | _ => [DQ] ++ B " src=" ++ [DQ] ++ write_attr src end)
                 ++ [DQ] ++ B ">"
               else [] in
      let! n := usub (r_img s) 1 "html.rs:617" in
      Ok (inr (r_set_img s n, o))
  | Verbatim => Ok (inr (s, B "</code>"))
  | Math d => Ok (inr (s, if d then B "\]</span>" else B "\)</span>"))
  | RawBlock _ | RawInline _ => Ok (inr (r_set_raw s RawNone, []))
  | Subscript => Ok (inr (s, B "</sub>"))
  | Superscript => Ok (inr (s, B "</sup>"))
  | Insert => Ok (inr (s, B "</ins>"))
  | Delete => Ok (inr (s, B "</del>"))
  | Strong => Ok (inr (s, B "</strong>"))
  | Emphasis => Ok (inr (s, B "</em>"))
  | Mark => Ok (inr (s, B "</mark>"))
  | LinkDefinition _ => Panic "html.rs:633"
  end.

(** src/html.rs:838-849 [Footnotes::reference] *)
Definition foot_reference (f : footnotes) (label : bytes) : footnotes * nat :=
  match position (bytes_eqb label) (f_refs f) with
  | Some i => (f, i + 1)
  | None => let refs := f_refs f ++ [label] in (FN (f_open f) refs (f_events f) (f_number f), length refs)
  end.

Definition map_remove (m : list (bytes * list event)) (k : bytes) : list (bytes * list event) :=
  filter (fun e => negb (bytes_eqb (fst e) k)) m.
Definition map_get (m : list (bytes * list event)) (k : bytes) : option (list event) :=
  option_map snd (find (fun e => bytes_eqb (fst e) k) m).

(** src/html.rs:862-865 [Footnotes::end] *)
Definition foot_end (f : footnotes) : res footnotes :=
  match f_open f with
  | [] => Panic "html.rs:863"
  | (label, stage) :: o => Ok (FN o (f_refs f) ((label, stage) :: map_remove (f_events f) label) (f_number f))
  end.

(** src/html.rs:871-876 [Footnotes::next] *)
Definition foot_next (f : footnotes) : option (nat * option (list event) * footnotes) :=
  match nth_error (f_refs f) (f_number f) with
  | None => None
  | Some label =>
      Some (S (f_number f), map_get (f_events f) label,
            FN (f_open f) (f_refs f) (map_remove (f_events f) label) (S (f_number f)))
  end.

(** src/html.rs:353-684 [render_event], with the epilogue passed as a parameter. *)
Definition render_body (epilogue : rstate -> res (rstate * bytes)) (s : rstate) (e : event)
  : res (rstate * bytes) :=
  match e, f_open (r_foot s) with
  | Start (Footnote label) _, o =>
      let f := r_foot s in
      Ok (r_set_foot s (FN ((label, []) :: o) (f_refs f) (f_events f) (f_number f)), [])
  | End_ (Footnote _), _ :: _ =>
      let! f := foot_end (r_foot s) in Ok (r_set_foot s f, [])
  | _, (label, evs) :: o =>
      let f := r_foot s in
      Ok (r_set_foot s (FN ((label, evs ++ [e]) :: o) (f_refs f) (f_events f) (f_number f)), [])
  | Start (LinkDefinition _) _, [] => Ok (r_set_ignore s true, [])
  | End_ (LinkDefinition _), [] => Ok (r_set_ignore s false, [])
  | _, [] =>
      if r_ignore s then Ok (s, [])
      else
        let ret (s : rstate) (o : bytes) := Ok (r_set_first s false, o) in
        match e with
        | Start c a =>
            let! (s, o1) := (if is_block c
                             then w_block s (if is_block_container c then DUp else DSame)
                             else Ok (s, [])) in
            if Nat.ltb 0 (r_img s) && match c with Image _ _ => false | _ => true end then Ok (s, o1)
            else
              let! t := open_tag s c in
              match t with
              | inl s => Ok (s, o1)
              | inr (s, o2) =>
                  let! (s, o3) := close_open_tag s c in
                  ret s (o1 ++ o2 ++ write_attrs c a ++ o3)
              end
        | End_ c =>
            let! (s, o1) := (if is_block_container c then w_block s DDown else Ok (s, [])) in
            if Nat.ltb 0 (r_img s) && match c with Image _ _ => false | _ => true end then Ok (s, o1)
            else
              let! t := close_tag s c in
              match t with
              | inl (inl _) => let! (s, o) := epilogue s in Ok (s, o1 ++ o)
              | inl (inr s) => Ok (s, o1)
              | inr (s, o2) => ret s (o1 ++ o2)
              end
        | Str t =>
            ret s (match r_raw s with
                   | RawNone => if Nat.ltb 0 (r_img s) then write_attr t else write_text t
                   | RawHtml => t
                   | RawOther => []
                   end)
        | FootnoteReference label =>
            let (f, n) := foot_reference (r_foot s) label in
            let d := dec (N.of_nat n) in
            ret (r_set_foot s f)
                (if Nat.eqb (r_img s) 0
                 then B "<a id=" ++ [DQ] ++ B "fnref" ++ d ++ [DQ] ++ B " href=" ++ [DQ] ++ B "#fn" ++ d
                      ++ [DQ] ++ B " role=" ++ [DQ] ++ B "doc-noteref" ++ [DQ] ++ B "><sup>" ++ d
                      ++ B "</sup></a>"
                 else [])
        | Symbol sy => ret s (B ":" ++ sy ++ B ":")
        | LeftSingleQuote => ret s (B "‘")
        | RightSingleQuote => ret s (B "’")
        | LeftDoubleQuote => ret s (B "“")
        | RightDoubleQuote => ret s (B "”")
        | Ellipsis => ret s (B "…")
        | EnDash => ret s (B "–")
        | EmDash => ret s (B "—")
        | NonBreakingSpace => ret s (B "&nbsp;")
        | Hardbreak => let! (s, o) := w_block s DSame in ret s (B "<br>" ++ o)
        | Softbreak => ret s ([NL] ++ w_indent s)
        | Escape | Blankline | Attributes _ => ret s []
        | ThematicBreak a =>
            let! (s, o) := w_block s DSame in
            ret s (o ++ B "<hr" ++ concat (map (write_pair (fun _ => [])) (unique_pairs a)) ++ B ">")
        end
  end.

(** src/html.rs:702-714: render the events of one footnote; the flag is [unclosed_para]. *)
Fixpoint foot_events (rend : rstate -> event -> res (rstate * bytes)) (s : rstate) (evs : list event)
         (unclosed : bool) : res (rstate * bytes * bool) :=
  match evs with
  | [] => Ok (s, [], unclosed)
  | e :: evs' =>
      match e with
      | Blankline | Escape => foot_events rend s evs' unclosed
      | _ =>
          let! (s, o) := rend s e in
          let unclosed' := match e with End_ Paragraph => negb (tight_top s) | _ => false end in
          let! (s, o', u) := foot_events rend s evs' unclosed' in
          Ok (s, (if unclosed then B "</p>" else []) ++ o ++ o', u)
      end
  end.

(** src/html.rs:698-727: the loop over the footnotes. *)
Fixpoint epi_loop (fuel : nat) (rend : rstate -> event -> res (rstate * bytes)) (s : rstate)
  : res (rstate * bytes) :=
  match foot_next (r_foot s) with
  | None => Ok (s, [])
  | Some (number, evs, f) =>
      match fuel with
      | O => Fuel
      | S fu =>
          let s := r_set_foot s f in
          let d := dec (N.of_nat number) in
          let! (s, o1) := w_block s DSame in
          let! (s, o2, unclosed) :=
            foot_events rend s (match evs with Some l => l | None => [] end) false in
          let! (s, o3) := (if unclosed then Ok (s, [])
                           else let! (s, o) := w_block s DSame in Ok (s, o ++ B "<p>")) in
          let! (s, o4) := w_block s DSame in
          let! (s, rest) := epi_loop fu rend s in
          Ok (s, o1 ++ B "<li id=" ++ [DQ] ++ B "fn" ++ d ++ [DQ] ++ B ">" ++ o2 ++ o3
                 ++ B "<a href=" ++ [DQ] ++ B "#fnref" ++ d ++ [DQ] ++ B " role=" ++ [DQ]
                 ++ B "doc-backlink" ++ [DQ] ++ B ">↩︎</a></p>" ++ o4 ++ B "</li>" ++ rest)
      end
  end.

(** src/html.rs:686-740 [render_epilogue] *)
Definition render_epilogue (fuel : nat) (rend : rstate -> event -> res (rstate * bytes)) (s : rstate)
  : res (rstate * bytes) :=
  let! (s, o) :=
    (match f_refs (r_foot s) with
     | [] => Ok (s, [])
     | _ =>
         let! (s, o1) := w_block s DSame in
         let! (s, o2) := w_block s DSame in
         let! (s, o3) := w_block s DSame in
         let! (s, o4) := epi_loop fuel rend s in
         let! (s, o5) := w_block s DSame in
         let! (s, o6) := w_block s DSame in
         Ok (s, o1 ++ B "<section role=" ++ [DQ] ++ B "doc-endnotes" ++ [DQ] ++ B ">" ++ o2 ++ B "<hr>"
                ++ o3 ++ B "<ol>" ++ o4 ++ o5 ++ B "</ol>" ++ o6 ++ B "</section>")
     end) in
  Ok (s, o ++ match r_indent s with Some _ => [NL] | None => [] end).

(** [render_event] with explicit fuel for nested epilogues. *)
Fixpoint render_f (fuel : nat) (s : rstate) (e : event) : res (rstate * bytes) :=
  match fuel with
  | O => Fuel
  | S f => render_body (fun s => render_epilogue f (render_f f) s) s e
  end.

(** Bound on the number of footnotes an epilogue can emit: the references seen so far and one for
    every stored event. *)
Definition foot_bound (f : footnotes) : nat :=
  length (f_refs f) + list_sum (map (fun e => length (snd e)) (f_events f)).

(** src/html.rs:264-271 [push_event], 353-684 [render_event] *)
Definition render_event (s : rstate) (e : event) : res (rstate * bytes) :=
  render_f (S (S (foot_bound (r_foot s)))) s e.

(** src/lib.rs:133-139 [push_events] *)
Fixpoint render_events (s : rstate) (evs : list event) : res (rstate * bytes) :=
  match evs with
  | [] => Ok (s, [])
  | e :: evs' =>
      let! (s, o) := render_event s e in
      let! (s, o') := render_events s evs' in
      Ok (s, o ++ o')
  end.

(** src/html.rs:29-36 [render_to_string] *)
Definition render_to_string (evs : list event) : res bytes :=
  let! (_, o) := render_events r_default evs in Ok o.

(** [html::render_to_string(Parser::new(src))] *)
Definition html_of (src : bytes) : res bytes :=
  let! evs := parse src in render_to_string evs.
