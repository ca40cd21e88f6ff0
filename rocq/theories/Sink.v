(** * Sink: the renderer writing to a writer that may fail (src/html.rs, src/lib.rs:92-152)

    [Html.v] gives the bytes that are written; here the same functions write them, piece by piece, to a writer: a state
    and a [put] (for [std::fmt::Write::write_str]) that may refuse a piece.  The [?] operator is [let?] and [;;].  What
    the arguments of a [write!] print is one piece each, and so is the text between them. *)
From Verif Require Import Base Lex Attr Block Inline Doc Html.
Local Open Scope nat_scope.

Section Writer.
Context {W : Type}.
Variable put : W -> bytes -> W * bool.

(** Writing and then a value, or the error ([None]); the panics are those of [Html.v]. *)
Definition M (A : Type) := W -> res (W * option A).
Definition ret {A} (a : A) : M A := fun w => Ok (w, Some a).
Definition lift {A} (r : res A) : M A := fun w => let! a := r in Ok (w, Some a).
Definition bindM {A C} (m : M A) (f : A -> M C) : M C :=
  fun w => let! (w', o) := m w in match o with Some a => f a w' | None => Ok (w', None) end.
Notation "'let?' x ':=' e 'in' k" := (bindM e (fun x => k)) (at level 200, x pattern, right associativity).
Notation "e ;; k" := (bindM e (fun _ => k)) (at level 100, right associativity).
(** [write_str], [write_char] *)
Definition wr (t : bytes) : M unit := fun w => let (w', ok) := put w t in Ok (w', if ok then Some tt else None).
(** [try_for_each] *)
Fixpoint each {A} (f : A -> M unit) (l : list A) : M unit :=
  match l with [] => ret tt | x :: l' => f x ;; each f l' end.
Fixpoint wrs (l : list bytes) : M unit := match l with [] => ret tt | t :: l' => wr t ;; wrs l' end.

(** src/html.rs:784-813 [write_escape]: the text before a character that is escaped, its entity, and so on. *)
Fixpoint m_escape (quotes : bool) (pre s : bytes) : M unit :=
  match s with
  | [] => wr pre
  | c :: s' => match entity quotes c with
               | Some e => wr pre ;; wr e ;; m_escape quotes [] s'
               | None => m_escape quotes (pre ++ [c]) s'
               end
  end.
(** src/html.rs:770-775 [write_text], 777-782 [write_attr] *)
Definition m_text (s : bytes) : M unit := m_escape false [] s.
Definition m_attr (s : bytes) : M unit := m_escape true [] s.
(** src/html.rs:339-351 [indent] *)
Definition m_indent (s : rstate) : M unit :=
  match r_indent s with
  | Some str => match str with [] => ret tt | _ => each wr (repeat str (r_depth s)) end
  | None => ret tt
  end.
(** src/html.rs:315-337 [block] *)
Definition m_block (s : rstate) (d : dchange) : M rstate :=
  match r_indent s with
  | None => ret s
  | Some _ =>
      (if r_first s then ret tt else wr [NL]) ;;
      match d with
      | DSame => m_indent s ;; ret s
      | DUp => m_indent s ;; ret (r_set_depth s (S (r_depth s)))
      | DDown => let? n := lift (match r_depth s with O => Panic "html.rs:329" | S n => Ok n end) in
                 m_indent (r_set_depth s n) ;; ret (r_set_depth s n)
      end
  end.
(** src/html.rs:743-768 [write_class] *)
Definition m_class (c : container) (first_written : bool) : M unit :=
  let cls := match c with
             | ListC (LkTask _) _ => Some (B "task-list")
             | Math false => Some (B "math inline")
             | Math true => Some (B "math display")
             | _ => None
             end in
  let first_written := match cls with Some _ => true | None => first_written end in
  match cls with Some s => wr s | None => ret tt end ;;
  match c with
  | Div class => match class with
                 | [] => ret tt
                 | _ => (if first_written then wr [SP] else ret tt) ;; wr class
                 end
  | _ => ret tt
  end.
(** src/html.rs:482-492 *)
Definition m_pair (extra : bytes -> M unit) (kv : bytes * bytes) : M unit :=
  wrs [[SP]; fst kv; B "=" ++ [DQ]] ;; each m_attr (parts (snd kv)) ;; extra (fst kv) ;; wr [DQ].
(** src/html.rs:479-521 *)
Definition m_attrs (c : container) (a : attrs) : M unit :=
  let pairs := unique_pairs a in
  let has k := existsb (fun p => bytes_eqb (fst p) (B k)) pairs in
  each (m_pair (fun k => if bytes_eqb k (B "class") then m_class c true else ret tt)) pairs ;;
  match c with
  | Heading _ false id | Section_ id =>
      if has "id"%string then ret tt else wr (B " id=" ++ [DQ]) ;; m_attr id ;; wr [DQ]
  | Div (_ :: _) | Math _ | ListC (LkTask _) _ =>
      if has "class"%string then ret tt else wr (B " class=" ++ [DQ]) ;; m_class c false ;; wr [DQ]
  | _ => ret tt
  end.
(** src/html.rs:402-413 *)
Definition m_ol (nb : numbering) (start : N) : M unit :=
  wr (B "<ol") ;; (if N.ltb 1 start then wrs [B " start=" ++ [DQ]; dec start; [DQ]] else ret tt) ;;
  match nb with
  | Decimal => ret tt
  | AlphaLower => wrs [B " type=" ++ [DQ]; B "a"; [DQ]]
  | AlphaUpper => wrs [B " type=" ++ [DQ]; B "A"; [DQ]]
  | RomanLower => wrs [B " type=" ++ [DQ]; B "i"; [DQ]]
  | RomanUpper => wrs [B " type=" ++ [DQ]; B "I"; [DQ]]
  end.
(** src/html.rs:391-477 *)
Definition m_open (s : rstate) (c : container) : M (rstate + rstate) :=
  let tag t := wr (B t) ;; ret (inr s) in
  match c with
  | Document => ret (inl s)
  | Blockquote => tag "<blockquote"%string
  | ListC k tight =>
      let s := r_set_tight s (tight :: r_tight s) in
      match k with
      | LkUnordered _ | LkTask _ => wr (B "<ul")
      | LkOrdered nb _ start => m_ol nb start
      end ;; ret (inr s)
  | ListItem | TaskListItem _ => tag "<li"%string
  | DescriptionList => tag "<dl"%string
  | DescriptionDetails => tag "<dd"%string
  | Footnote _ => lift (Panic "html.rs:422")
  | Table => tag "<table"%string
  | TableRow _ => tag "<tr"%string
  | Section_ _ => tag "<section"%string
  | Div _ => tag "<div"%string
  | Paragraph => if tight_top s then ret (inl s) else tag "<p"%string
  | Heading level _ _ => wrs [B "<h"; dec (N.of_nat level)] ;; ret (inr s)
  | TableCell _ false => tag "<td"%string
  | TableCell _ true => tag "<th"%string
  | Caption => tag "<caption"%string
  | DescriptionTerm => tag "<dt"%string
  | CodeBlock _ => tag "<pre"%string
  | Span_ | Math _ => tag "<span"%string
  | Link dst ty =>
      match ty with
      | LSpan LUnresolved => wr (B "<a")
      | _ => wr (B "<a href=" ++ [DQ]) ;; (match ty with LEmail => wr (B "mailto:") | _ => ret tt end) ;; m_attr dst ;; wr [DQ]
      end ;; ret (inr s)
  | Image _ _ =>
      let s := r_set_img s (S (r_img s)) in
      if Nat.eqb (r_img s) 1 then wr (B "<img") ;; ret (inr s) else ret (inl s)
  | Verbatim => tag "<code"%string
  | RawBlock f | RawInline f =>
      ret (inl (r_set_raw s (if bytes_eqb f (B "html") then RawHtml else RawOther)))
  | Subscript => tag "<sub"%string
  | Superscript => tag "<sup"%string
  | Insert => tag "<ins"%string
  | Delete => tag "<del"%string
  | Strong => tag "<strong"%string
  | Emphasis => tag "<em"%string
  | Mark => tag "<mark"%string
  | LinkDefinition _ => ret (inl s)
  end.
(** src/html.rs:523-562 *)
Definition m_close_open (s : rstate) (c : container) : M rstate :=
  let align a := wrs [B " style=" ++ [DQ] ++ B "text-align: "; B a; B ";" ++ [DQ] ++ B ">"] ;; ret s in
  match c with
  | TableCell AlLeft _ => align "left"%string
  | TableCell AlCenter _ => align "center"%string
  | TableCell AlRight _ => align "right"%string
  | CodeBlock lang =>
      match lang with
      | [] => wr (B "><code>")
      | _ => wr (B "><code class=" ++ [DQ] ++ B "language-") ;; m_attr lang ;; wr ([DQ] ++ B ">")
      end ;; ret s
  | Image _ _ => (if Nat.eqb (r_img s) 1 then wr (B " alt=" ++ [DQ]) else ret tt) ;; ret s
  | Math d => wr (if d then B ">\[" else B ">\(") ;; ret s
  | TaskListItem checked =>
      wr (B ">") ;; let? s := m_block s DSame in
      wr (if checked then B "<input disabled=" ++ [DQ; DQ] ++ B " type=" ++ [DQ] ++ B "checkbox" ++ [DQ] ++ B " checked=" ++ [DQ; DQ] ++ B "/>"
          else B "<input disabled=" ++ [DQ; DQ] ++ B " type=" ++ [DQ] ++ B "checkbox" ++ [DQ] ++ B "/>") ;; ret s
  | _ => wr (B ">") ;; ret s
  end.
(** src/html.rs:571-634 *)
Definition m_close (s : rstate) (c : container) : M ((unit + rstate) + rstate) :=
  let tag t := wr (B t) ;; ret (inr s) in
  match c with
  | Document => ret (inl (inl tt))
  | Blockquote => tag "</blockquote>"%string
  | ListC k _ =>
      let s := r_set_tight s (tl (r_tight s)) in
      wr (match k with LkOrdered _ _ _ => B "</ol>" | _ => B "</ul>" end) ;; ret (inr s)
  | ListItem | TaskListItem _ => tag "</li>"%string
  | DescriptionList => tag "</dl>"%string
  | DescriptionDetails => tag "</dd>"%string
  | Footnote _ => lift (Panic "html.rs:588")
  | Table => tag "</table>"%string
  | TableRow _ => tag "</tr>"%string
  | Section_ _ => tag "</section>"%string
  | Div _ => tag "</div>"%string
  | Paragraph =>
      if tight_top s then ret (inl (inr s))
      else (if Nat.ltb 0 (f_number (r_foot s)) then ret tt else wr (B "</p>")) ;; ret (inr s)
  | Heading level _ _ => wrs [B "</h"; dec (N.of_nat level); B ">"] ;; ret (inr s)
  | TableCell _ false => tag "</td>"%string
  | TableCell _ true => tag "</th>"%string
  | Caption => tag "</caption>"%string
  | DescriptionTerm => tag "</dt>"%string
  | CodeBlock _ => tag "</code></pre>"%string
  | Span_ => tag "</span>"%string
  | Link _ _ => tag "</a>"%string
  | Image src _ =>
      (if Nat.eqb (r_img s) 1 then
         match src with [] => ret tt | _ => wr ([DQ] ++ B " src=" ++ [DQ]) ;; m_attr src end ;; wr ([DQ] ++ B ">")
       else ret tt) ;;
      let? n := lift (usub (r_img s) 1 "html.rs:617") in
      ret (inr (r_set_img s n))
  | Verbatim => tag "</code>"%string
  | Math d => wr (if d then B "\]</span>" else B "\)</span>") ;; ret (inr s)
  | RawBlock _ | RawInline _ => ret (inr (r_set_raw s RawNone))
  | Subscript => tag "</sub>"%string
  | Superscript => tag "</sup>"%string
  | Insert => tag "</ins>"%string
  | Delete => tag "</del>"%string
  | Strong => tag "</strong>"%string
  | Emphasis => tag "</em>"%string
  | Mark => tag "</mark>"%string
  | LinkDefinition _ => lift (Panic "html.rs:633")
  end.
(** src/html.rs:353-684 [render_event], with the epilogue passed as a parameter. *)
Definition m_body (epilogue : rstate -> M rstate) (s : rstate) (e : event) : M rstate :=
  match e, f_open (r_foot s) with
  | Start (Footnote label) _, o =>
      let f := r_foot s in
      ret (r_set_foot s (FN ((label, []) :: o) (f_refs f) (f_events f) (f_number f)))
  | End_ (Footnote _), _ :: _ =>
      let? f := lift (foot_end (r_foot s)) in ret (r_set_foot s f)
  | _, (label, evs) :: o =>
      let f := r_foot s in
      ret (r_set_foot s (FN ((label, evs ++ [e]) :: o) (f_refs f) (f_events f) (f_number f)))
  | Start (LinkDefinition _) _, [] => ret (r_set_ignore s true)
  | End_ (LinkDefinition _), [] => ret (r_set_ignore s false)
  | _, [] =>
      if r_ignore s then ret s
      else
        let done (s : rstate) := ret (r_set_first s false) in
        let text t := wr (B t) ;; done s in
        match e with
        | Start c a =>
            let? s := (if is_block c
                       then m_block s (if is_block_container c then DUp else DSame)
                       else ret s) in
            if Nat.ltb 0 (r_img s) && match c with Image _ _ => false | _ => true end then ret s
            else
              let? t := m_open s c in
              match t with
              | inl s => ret s
              | inr s => m_attrs c a ;; let? s := m_close_open s c in ret (r_set_first s false)
              end
        | End_ c =>
            let? s := (if is_block_container c then m_block s DDown else ret s) in
            if Nat.ltb 0 (r_img s) && match c with Image _ _ => false | _ => true end then ret s
            else
              let? t := m_close s c in
              match t with
              | inl (inl _) => epilogue s
              | inl (inr s) => ret s
              | inr s => ret (r_set_first s false)
              end
        | Str t =>
            match r_raw s with
            | RawNone => if Nat.ltb 0 (r_img s) then m_attr t else m_text t
            | RawHtml => wr t
            | RawOther => ret tt
            end ;; done s
        | FootnoteReference label =>
            let (f, n) := foot_reference (r_foot s) label in
            let d := dec (N.of_nat n) in
            (if Nat.eqb (r_img s) 0
             then wrs [B "<a id=" ++ [DQ] ++ B "fnref"; d; [DQ] ++ B " href=" ++ [DQ] ++ B "#fn"; d;
                       [DQ] ++ B " role=" ++ [DQ] ++ B "doc-noteref" ++ [DQ] ++ B "><sup>"; d; B "</sup></a>"]
             else ret tt) ;; done (r_set_foot s f)
        | Symbol sy => wrs [B ":"; sy; B ":"] ;; done s
        | LeftSingleQuote => text "‘"%string
        | RightSingleQuote => text "’"%string
        | LeftDoubleQuote => text "“"%string
        | RightDoubleQuote => text "”"%string
        | Ellipsis => text "…"%string
        | EnDash => text "–"%string
        | EmDash => text "—"%string
        | NonBreakingSpace => text "&nbsp;"%string
        | Hardbreak => wr (B "<br>") ;; let? s := m_block s DSame in done s
        | Softbreak => wr [NL] ;; m_indent s ;; done s
        | Escape | Blankline | Attributes _ => done s
        | ThematicBreak a =>
            let? s := m_block s DSame in
            wr (B "<hr") ;; each (m_pair (fun _ => ret tt)) (unique_pairs a) ;; wr (B ">") ;; done s
        end
  end.
(** src/html.rs:702-714: the events of one footnote *)
Fixpoint m_foot_events (rend : rstate -> event -> M rstate) (s : rstate) (evs : list event) (unclosed : bool) : M (rstate * bool) :=
  match evs with
  | [] => ret (s, unclosed)
  | e :: evs' =>
      match e with
      | Blankline | Escape => m_foot_events rend s evs' unclosed
      | _ =>
          (if unclosed then wr (B "</p>") else ret tt) ;;
          let? s := rend s e in
          m_foot_events rend s evs' (match e with End_ Paragraph => negb (tight_top s) | _ => false end)
      end
  end.
(** src/html.rs:698-727: the footnotes *)
Fixpoint m_epi_loop (fuel : nat) (rend : rstate -> event -> M rstate) (s : rstate) : M rstate :=
  match foot_next (r_foot s) with
  | None => ret s
  | Some (number, evs, f) =>
      match fuel with
      | O => fun _ => Fuel
      | S fu =>
          let s := r_set_foot s f in
          let d := dec (N.of_nat number) in
          let? s := m_block s DSame in
          wrs [B "<li id=" ++ [DQ] ++ B "fn"; d; [DQ] ++ B ">"] ;;
          let? (s, unclosed) := m_foot_events rend s (match evs with Some l => l | None => [] end) false in
          let? s := (if unclosed then ret s else let? s := m_block s DSame in wr (B "<p>") ;; ret s) in
          wrs [B "<a href=" ++ [DQ] ++ B "#fnref"; d; [DQ] ++ B " role=" ++ [DQ] ++ B "doc-backlink" ++ [DQ] ++ B ">↩︎</a></p>"] ;;
          let? s := m_block s DSame in
          wr (B "</li>") ;;
          m_epi_loop fu rend s
      end
  end.
(** src/html.rs:686-740 [render_epilogue] *)
Definition m_epilogue (fuel : nat) (rend : rstate -> event -> M rstate) (s : rstate) : M rstate :=
  let? s :=
    match f_refs (r_foot s) with
    | [] => ret s
    | _ =>
        let? s := m_block s DSame in
        wr (B "<section role=" ++ [DQ] ++ B "doc-endnotes" ++ [DQ] ++ B ">") ;;
        let? s := m_block s DSame in
        wr (B "<hr>") ;;
        let? s := m_block s DSame in
        wr (B "<ol>") ;;
        let? s := m_epi_loop fuel rend s in
        let? s := m_block s DSame in
        wr (B "</ol>") ;;
        let? s := m_block s DSame in
        wr (B "</section>") ;; ret s
    end in
  match r_indent s with Some _ => wr [NL] | None => ret tt end ;; ret s.
Fixpoint m_render_f (fuel : nat) (s : rstate) (e : event) : M rstate :=
  match fuel with
  | O => fun _ => Fuel
  | S f => m_body (fun s => m_epilogue f (m_render_f f) s) s e
  end.
(** src/html.rs:264-271 [push_event], 353-684 [render_event] *)
Definition push_event (s : rstate) (e : event) : M rstate := m_render_f (S (S (foot_bound (r_foot s)))) s e.
(** src/lib.rs:133-139 [push_events] *)
Fixpoint push_events (s : rstate) (evs : list event) : M rstate :=
  match evs with
  | [] => ret s
  | e :: evs' => let? s := push_event s e in push_events s evs'
  end.
End Writer.

(** ** Rendering to an [std::io::Write]: [write_all] returns an error ([Some]) or not. *)
Section Io.
Context {T E : Type}.
Variable write_all : T -> bytes -> T * option E.
Variable other : E.
(** src/lib.rs:106-118 [WriteAdapter], its [write_str]: the error is kept. *)
Definition adapter_put (w : T * option E) (t : bytes) : (T * option E) * bool :=
  let (t', o) := write_all (fst w) t in match o with Some e => ((t', Some e), false) | None => ((t', snd w), true) end.
(** src/lib.rs:102-130 [write_event]: the renderer, or the kept error ([other]: "formatter error", if there is none). *)
Definition write_event (s : rstate) (e : event) (t : T) : res (T * (rstate + E)) :=
  let! (w, o) := push_event adapter_put s e (t, None) in
  Ok (fst w, match o with Some s' => inl s' | None => inr (match snd w with Some er => er | None => other end) end).
(** src/lib.rs:145-151 [write_events] *)
Fixpoint write_events (s : rstate) (evs : list event) (t : T) : res (T * (rstate + E)) :=
  match evs with
  | [] => Ok (t, inl s)
  | e :: evs' => let! (t', r) := write_event s e t in match r with inl s' => write_events s' evs' t' | inr er => Ok (t', inr er) end
  end.
End Io.
