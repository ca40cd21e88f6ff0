(** * Doc: model of the parser in src/lib.rs (public events, pre-pass, [Parser]) *)
From Verif Require Import Base Lex Attr Block Inline.
Local Open Scope nat_scope.

(** src/lib.rs:1940-1948 [SpanLinkType], 1951-1959 [LinkType] *)
Inductive span_link := LInline | LReference | LUnresolved.
Inductive link_type := LSpan (t : span_link) | LAutoLink | LEmail.
(** src/lib.rs:1961-1969 [ListBulletType] *)
Inductive bullet := BuDash | BuStar | BuPlus.
(** src/lib.rs:2011-2024 [ListKind] *)
Inductive list_kind :=
| LkUnordered (b : bullet) | LkOrdered (nb : numbering) (st : ostyle) (start : N) | LkTask (b : bullet).

(** src/lib.rs:677-1844 [Container] *)
Inductive container :=
| Document | Blockquote | ListC (k : list_kind) (tight : bool) | ListItem | TaskListItem (checked : bool)
| DescriptionList | DescriptionDetails | Footnote (label : bytes) | Table | TableRow (head : bool)
| Section_ (id : bytes) | Div (class : bytes) | Paragraph
| Heading (level : nat) (has_section : bool) (id : bytes)
| TableCell (a : align) (head : bool) | Caption | DescriptionTerm | LinkDefinition (label : bytes)
| RawBlock (format : bytes) | CodeBlock (language : bytes)
| Span_ | Link (dst : bytes) (ty : link_type) | Image (src : bytes) (ty : span_link)
| Verbatim | Math (display : bool) | RawInline (format : bytes)
| Subscript | Superscript | Insert | Delete | Strong | Emphasis | Mark.

(** src/lib.rs:161-660 [Event] *)
Inductive event :=
| Start (c : container) (a : attrs) | End_ (c : container) | Str (s : bytes)
| FootnoteReference (label : bytes) | Symbol (s : bytes)
| LeftSingleQuote | RightSingleQuote | LeftDoubleQuote | RightDoubleQuote
| Ellipsis | EnDash | EmDash | NonBreakingSpace | Softbreak | Hardbreak | Escape | Blankline
| ThematicBreak (a : attrs) | Attributes (a : attrs).

(** src/lib.rs:1971-1982 [TryFrom<u8> for ListBulletType] *)
Definition bullet_of (c : ascii) : option bullet :=
  if beq c "-" then Some BuDash else if beq c "*" then Some BuStar
  else if beq c "+" then Some BuPlus else None.

(** src/lib.rs:2152-2162 [Heading] *)
Record heading := Hd { h_loc : N; h_auto : bytes; h_text : bytes; h_override : option bytes }.

(** src/lib.rs:2166-2173 [PrePass].  The hash map is an association list, newest first. *)
Record prepass := PP {
  pp_defs : list (bytes * (bytes * attrs));
  pp_heads : list heading;
  pp_lex : list nat
}.

(** src/lib.rs:2195-2200, 2242-2247: the attributes of the blocks before a heading or definition. *)
Fixpoint collect_attrs (src : bytes) (sps : list span) : res attrs :=
  match sps with
  | [] => Ok []
  | sp :: sps' =>
      let! s := ssub src sp "lib.rs:2198" in
      let! r := attrs_try_from s in
      match r with
      | inr _ => Panic "lib.rs:2198"
      | inl a => let! rest := collect_attrs src sps' in Ok (a ++ rest)
      end
  end.

(** src/lib.rs:2201-2233: the url of a link definition, from the Inline events that follow; also
    returns the remaining events (the first non-Inline event is consumed). *)
Fixpoint def_url (src : bytes) (blocks : list bev) (url : bytes) : res (bytes * list bev) :=
  match blocks with
  | [] => Ok (url, [])
  | e :: bl =>
      if is_binline e then
        let! s := ssub src (bsp e) "lib.rs:2207" in
        def_url src bl (url ++ trim_m is_ws s)
      else Ok (url, bl)
  end.

(** src/lib.rs:2271-2285: extend the automatic id by the bytes of a text event; the flag is
    [last_whitespace].  The inner loop that skips whitespace is the same as acting only on the first
    whitespace of a run, because the flag is then set. *)
Fixpoint id_bytes (s : bytes) (id : bytes) (lw : bool) : bytes * bool :=
  match s with
  | [] => (id, lw)
  | c :: s' =>
      if is_ws c then id_bytes s' (if lw then id else id ++ ["-"%char]) true
      else if negb (is_punct c) || beq c "-" || beq c "_" then id_bytes s' (id ++ [c]) false
      else id_bytes s' id lw
  end.

(** Fuel for the inline parser's loops. *)
Definition fill_fuel (src : bytes) (s : istate) : nat :=
  S (S (S (length src + length (i_ahead (s_in s))))).
Definition next_fuel (src : bytes) (s : istate) : nat :=
  S (S (2 * length (s_events s) + 4 * S (length src))).
Definition inline_next (src : bytes) (s : istate) : res (option iev * istate) :=
  i_next (next_fuel src s) (fill_fuel src s) src s.

(** src/lib.rs:2268-2292: drain the inline parser, collecting id, text and [last_whitespace]. *)
Fixpoint head_events (fuel : nat) (src : bytes) (s : istate) (id text : bytes) (lw : bool)
  : res (istate * bytes * bytes * bool) :=
  match fuel with
  | O => Fuel
  | S f =>
      let! (o, s) := inline_next src s in
      match o with
      | None => Ok (s, id, text, lw)
      | Some e =>
          match ik e with
          | IStr => let! t := ssub src (isp e) "lib.rs:2270" in
                    let (id', lw') := id_bytes t id lw in
                    head_events f src s id' (text ++ t) lw'
          | IAtom ISoftbreak => head_events f src s (id ++ ["-"%char]) (text ++ [SP]) lw
          | _ => head_events f src s id text lw
          end
      end
  end.

(** src/lib.rs:2254-2296: feed the heading's lines to the inline parser. *)
Fixpoint head_lines (src : bytes) (blocks : list bev) (s : istate) (last_end : nat)
         (id text : bytes) (lw : bool) : res (istate * bytes * bytes * list bev) :=
  let finish (bl : list bev) :=
    let! s := i_feed_line src s (Sp last_end last_end) true in
    let! (s, id, text, lw) := head_events (next_fuel src s) src s id text lw in
    Ok (s, id, text, bl) in
  match blocks with
  | e :: bl =>
      if is_binline e then
        let! s := i_feed_line src s (bsp e) false in
        let! (s, id, text, lw) := head_events (next_fuel src s) src s id text lw in
        head_lines src bl s (se (bsp e)) id text lw
      else finish bl
  | [] => finish []
  end.

(** [Set::contains] *)
Definition mem_id (id : bytes) (used : list bytes) : bool := existsb (bytes_eqb id) used.

(** src/lib.rs:2304-2312: append the first number that makes the id unused. *)
Fixpoint number_id (fuel : nat) (used : list bytes) (base : bytes) (num : N) : res bytes :=
  match fuel with
  | O => Fuel
  | S f => let id := base ++ dec num in
           if mem_id id used then number_id f used base (num + 1)%N else Ok id
  end.

(** src/lib.rs:2297-2313: trim the id and make it unique. *)
Definition unique_id (used : list bytes) (id : bytes) : res bytes :=
  let id := trim_end_m (fun c => beq c "-") id in
  if mem_id id used || is_nil id then
    let id := match id with [] => B "s" | _ => id end in
    number_id (S (length used)) used (id ++ B "-") 1
  else Ok id.

(** src/lib.rs:2183-2334: the loop over the block events.  After a definition or a heading
    [attr_prev] is kept, because the block's Exit event has been consumed. *)
Fixpoint pre_loop (fuel : nat) (src : bytes) (blocks : list bev) (s : istate) (attr_prev : list span)
         (used : list bytes) (defs : list (bytes * (bytes * attrs))) (heads : list heading)
  : res (istate * list (bytes * (bytes * attrs)) * list heading) :=
  match fuel with
  | O => Fuel
  | S f =>
      match blocks with
      | [] => Ok (s, defs, heads)
      | e :: bl =>
          match bk e with
          | BEnter (NLeaf (FLinkDefinition label)) =>
              let! a := collect_attrs src attr_prev in
              let! (url, bl) := def_url src bl [] in
              pre_loop f src bl s attr_prev used ((label, (url, a)) :: defs) heads
          | BEnter (NLeaf (FHeading _ _ _)) =>
              let! a := collect_attrs src attr_prev in
              let ov := option_map value_display (get_value a (B "id")) in
              let! s := i_reset s in
              let! (s, id, text, bl) := head_lines src bl s 0 [] [] true in
              let! id := unique_id used id in
              pre_loop f src bl s attr_prev (id :: used) defs
                       (heads ++ [Hd (to_u32 (ss (bsp e))) id text ov])
          | BAtom BAttributes => pre_loop f src bl s (attr_prev ++ [bsp e]) used defs heads
          | BEnter _ | BExit (NCont (BSection _)) => pre_loop f src bl s attr_prev used defs heads
          | _ => pre_loop f src bl s [] used defs heads
          end
      end
  end.

(** Lexicographic order of byte strings ([Ord for str]). *)
Fixpoint bytes_cmp (a b : bytes) : comparison :=
  match a, b with
  | [], [] => Eq
  | [], _ => Datatypes.Lt
  | _, [] => Gt
  | x :: a', y :: b' => match N.compare (code x) (code y) with Eq => bytes_cmp a' b' | c => c end
  end.

Definition head_text (heads : list heading) (i : nat) : bytes :=
  match nth_error heads i with Some h => h_text h | None => [] end.

(** src/lib.rs:2336-2337: [sort_by_key] is stable; written as insertion sort. *)
Fixpoint insert_sorted (heads : list heading) (i : nat) (l : list nat) : list nat :=
  match l with
  | [] => [i]
  | j :: l' => match bytes_cmp (head_text heads i) (head_text heads j) with
               | Gt => j :: insert_sorted heads i l'
               | _ => i :: l
               end
  end.
Definition sort_heads (heads : list heading) : list nat :=
  fold_right (insert_sorted heads) [] (List.seq 0 (length heads)).

(** [slice::binary_search_by] of the Rust standard library (1.82): [cmp i] compares element [i] with
    the target.  Returns the index found. *)
Fixpoint bs_loop (fuel : nat) (cmp : nat -> comparison) (size base : nat) : nat :=
  match fuel with
  | O => base
  | S f => if Nat.ltb 1 size then
             let half := size / 2 in
             let mid := base + half in
             bs_loop f cmp (size - half) (match cmp mid with Gt => base | _ => mid end)
           else base
  end.
Definition binary_search (cmp : nat -> comparison) (len : nat) : option nat :=
  match len with
  | O => None
  | _ => let base := bs_loop len cmp len 0 in
         match cmp base with Eq => Some base | _ => None end
  end.

(** src/lib.rs:2346-2349 [heading_id] *)
Definition heading_id (h : heading) : bytes :=
  match h_override h with Some o => o | None => h_auto h end.
(** src/lib.rs:2351-2356 [heading_id_by_location] *)
Definition heading_id_by_location (p : prepass) (loc : N) : option bytes :=
  let cmp i := match nth_error (pp_heads p) i with Some h => N.compare (h_loc h) loc | None => Gt end in
  match binary_search cmp (length (pp_heads p)) with
  | None => None
  | Some i => option_map heading_id (nth_error (pp_heads p) i)
  end.
(** src/lib.rs:2358-2363 [heading_id_by_tag] *)
Definition heading_id_by_tag (p : prepass) (tag : bytes) : option bytes :=
  let cmp i := match nth_error (pp_lex p) i with
               | Some j => bytes_cmp (head_text (pp_heads p) j) tag
               | None => Gt
               end in
  match binary_search cmp (length (pp_lex p)) with
  | None => None
  | Some i => match nth_error (pp_lex p) i with
              | None => None
              | Some j => option_map heading_id (nth_error (pp_heads p) j)
              end
  end.

(** src/lib.rs:2175-2344 [PrePass::new] *)
Definition pre_new (src : bytes) (blocks : list bev) : res (prepass * istate) :=
  let! (s, defs, heads) := pre_loop (S (length blocks)) src blocks i_new [] [] [] [] in
  Ok (PP defs heads (sort_heads heads), s).

(** src/lib.rs:2130-2150 [Parser] ([src] and [pre_pass] are constant and passed separately) *)
Record pstate := PS {
  p_blocks : list bev;
  p_battr : option (attrs * span);
  p_headrow : bool;
  p_verb : bool;
  p_inl : istate
}.
Definition p_set_blocks (p : pstate) b := PS b (p_battr p) (p_headrow p) (p_verb p) (p_inl p).
Definition p_set_battr (p : pstate) a := PS (p_blocks p) a (p_headrow p) (p_verb p) (p_inl p).
Definition p_set_headrow (p : pstate) h := PS (p_blocks p) (p_battr p) h (p_verb p) (p_inl p).
Definition p_set_verb (p : pstate) v := PS (p_blocks p) (p_battr p) (p_headrow p) v (p_inl p).
Definition p_set_inl (p : pstate) i := PS (p_blocks p) (p_battr p) (p_headrow p) (p_verb p) i.

(** src/lib.rs:2368-2382 [Parser::new] *)
Definition p_new (src : bytes) : res (prepass * pstate) :=
  let! blocks := block_parse src in
  let! (pp, i) := pre_new src blocks in
  Ok (pp, PS blocks None false false i).

(** src/lib.rs:2543-2544: look a tag up in the link definitions. *)
Definition lookup_def (pp : prepass) (tag : bytes) : option (bytes * attrs) :=
  option_map snd (find (fun d => bytes_eqb (fst d) tag) (pp_defs pp)).

(** src/lib.rs:2542-2557: destination and type of a reference, and the attributes of its
    definition. *)
Definition resolve (pp : prepass) (tag : bytes) : bytes * span_link * attrs :=
  match lookup_def pp tag with
  | Some (url, a) => (url, LReference, a)
  | None => match heading_id_by_tag pp tag with
            | Some id => (B "#" ++ id, LReference, [])
            | None => (tag, LUnresolved, [])
            end
  end.

(** src/lib.rs:2516-2579: public container of an inline container; also the attributes contributed
    by a link definition. *)
Definition inline_container (pp : prepass) (s : istate) (c : icont) : res (container * attrs) :=
  match c with
  | CSpan => Ok (Span_, [])
  | CVerbatim => Ok (Verbatim, [])
  | CInlineMath => Ok (Math false, [])
  | CDisplayMath => Ok (Math true, [])
  | CRawFormat f => Ok (RawInline f, [])
  | CSubscript => Ok (Subscript, [])
  | CSuperscript => Ok (Superscript, [])
  | CInsert => Ok (Insert, [])
  | CDelete => Ok (Delete, [])
  | CEmphasis => Ok (Emphasis, [])
  | CStrong => Ok (Strong, [])
  | CMark => Ok (Mark, [])
  | CInlineLink i => let! u := get_at (s_cow s) i "lib.rs:2533" in Ok (Link u (LSpan LInline), [])
  | CInlineImage i => let! u := get_at (s_cow s) i "lib.rs:2537" in Ok (Image u LInline, [])
  | CReferenceLink i =>
      let! tag := get_at (s_cow s) i "lib.rs:2542" in
      let '(u, ty, a) := resolve pp tag in Ok (Link u (LSpan ty), a)
  | CReferenceImage i =>
      let! tag := get_at (s_cow s) i "lib.rs:2542" in
      let '(u, ty, a) := resolve pp tag in Ok (Image u ty, a)
  | CAutolink url =>
      Ok (Link url (if existsb (fun c => beq c "@") url then LEmail else LAutoLink), [])
  end.

(** src/lib.rs:2580-2598: the public event of an atom. *)
Definition atom_event (a : iatom) : event :=
  match a with
  | IFootnoteReference l => FootnoteReference l
  | ISymbol s => Symbol s
  | IQuote QSingle true => LeftSingleQuote
  | IQuote QSingle false => RightSingleQuote
  | IQuote QDouble true => LeftDoubleQuote
  | IQuote QDouble false => RightDoubleQuote
  | IEllipsis => Ellipsis
  | IEnDash => EnDash
  | IEmDash => EmDash
  | INbsp => NonBreakingSpace
  | ISoftbreak => Softbreak
  | IHardbreak => Hardbreak
  | IEscape => Escape
  end.

(** src/lib.rs:2513-2616: translate one inline event with the attributes that preceded it. *)
Definition inline_event (src : bytes) (pp : prepass) (s : istate) (e : iev) (a : attrs)
  : res (event * span) :=
  match ik e with
  | IEnter c =>
      let! (t, da) := inline_container pp s c in Ok (Start t (da ++ a), isp e)
  | IExit c =>
      let! (t, _) := inline_container pp s c in
      let! _ := assert (is_nil a) "lib.rs:2612" in
      Ok (End_ t, isp e)
  | IAtom at_ =>
      let! _ := assert (is_nil a) "lib.rs:2612" in
      Ok (atom_event at_, isp e)
  | IEmpty =>
      let! _ := assert (negb (is_nil a)) "lib.rs:2600" in
      Ok (Attributes a, isp e)
  | IStr =>
      let! t := ssub src (isp e) "lib.rs:2603" in
      let! _ := assert (is_nil a) "lib.rs:2612" in
      Ok (Str t, isp e)
  | IAttributes _ _ | IPlaceholder => Panic "lib.rs:2605"
  end.

(** src/lib.rs:2499-2617 [Parser::inline] *)
Definition p_inline (src : bytes) (pp : prepass) (p : pstate) : res (option (event * span) * pstate) :=
  let! (o, s) := inline_next src (p_inl p) in
  match o with
  | None => Ok (None, p_set_inl p s)
  | Some e =>
      match ik e with
      | IAttributes _ i =>
          let! (o2, s) := inline_next src s in
          let! a := get_at (s_attrs s) i "lib.rs:2508" in
          match o2 with
          | None => Panic "lib.rs:2612"
          | Some e2 => let! r := inline_event src pp s e2 a in Ok (Some r, p_set_inl p s)
          end
      | _ => let! r := inline_event src pp s e [] in Ok (Some r, p_set_inl p s)
      end
  end.

(** Outcome of one iteration of the loop in [Parser::block]. *)
Inductive bstep :=
| SEmit (e : event) (sp : span) (p : pstate)   (* return Some *)
| SLoop (p : pstate)                            (* continue *)
| SFed (p : pstate)                             (* return self.next_span() *)
| SEnd.                                         (* no block events left *)

(** src/lib.rs:2661-2704: the public container of a leaf block. *)
Definition leaf_container (pp : prepass) (p : pstate) (l : leaf) (enter : bool) : container * pstate :=
  match l with
  | FParagraph => (Paragraph, p)
  | FHeading level hs pos =>
      (Heading level hs (match heading_id_by_location pp pos with Some i => i | None => [] end), p)
  | FDescriptionTerm => (DescriptionTerm, p)
  | FCodeBlock lang =>
      (match lang with
       | c :: f => if beq c "=" then RawBlock f else CodeBlock lang
       | [] => CodeBlock lang
       end, p_set_verb p enter)
  | FTableCell a => (TableCell a (p_headrow p), p)
  | FCaption => (Caption, p)
  | FLinkDefinition label => (LinkDefinition label, p_set_verb p enter)
  end.

(** src/lib.rs:2705-2760: the public container of a block container. *)
Definition block_container (pp : prepass) (p : pstate) (c : bcont) (enter : bool) : res (container * pstate) :=
  match c with
  | BDocument => Ok (Document, p)
  | BBlockquote => Ok (Blockquote, p)
  | BDiv cl => Ok (Div cl, p)
  | BFootnote l => Ok (Footnote l, p)
  | BList ty tight =>
      match ty with
      | LDescription => Ok (DescriptionList, p)
      | LUnordered c => let! b := unwrap (bullet_of c) "lib.rs:2720" in Ok (ListC (LkUnordered b) tight, p)
      | LTask c => let! b := unwrap (bullet_of c) "lib.rs:2723" in Ok (ListC (LkTask b) tight, p)
      | LOrdered n st => Ok (ListC (LkOrdered (ln_num n) st (ln_val n)) tight, p)
      end
  | BListItem (ITask b) => Ok (TaskListItem b, p)
  | BListItem IDescription => Ok (DescriptionDetails, p)
  | BListItem IList => Ok (ListItem, p)
  | BTable => Ok (Table, p)
  | BTableRow h => Ok (TableRow h, if enter then p_set_headrow p h else p)
  | BSection pos =>
      Ok (Section_ (match heading_id_by_location pp pos with Some i => i | None => [] end), p)
  end.

(** src/lib.rs:2660-2761: the public container of a block node. *)
Definition node_container (pp : prepass) (p : pstate) (n : node) (enter : bool) : res (container * pstate) :=
  match n with
  | NLeaf l =>
      let! i := i_reset (p_inl p) in
      Ok (leaf_container pp (p_set_inl p i) l enter)
  | NCont c => block_container pp p c enter
  end.

(** src/lib.rs:2648-2651 *)
Definition next_is_blank (bl : list bev) : bool :=
  match bl with BE (BAtom BBlankline) _ :: _ => true | _ => false end.

(** src/lib.rs:2619-2808 [Parser::block]: one iteration of its loop. *)
Definition block_step (src : bytes) (pp : prepass) (p : pstate) : res bstep :=
  match p_blocks p with
  | [] => Ok SEnd
  | BE k sp :: bl =>
      let popped := p_set_blocks p bl in
      match k with
      | BAtom BBlankline =>
          let! _ := assert (is_none (p_battr p)) "lib.rs:2626" in
          Ok (SEmit Blankline sp popped)
      | BAtom BThematicBreak =>
          Ok (match p_battr p with
              | Some (a, asp) => SEmit (ThematicBreak a) (Sp (ss asp) (se sp)) (p_set_battr popped None)
              | None => SEmit (ThematicBreak []) sp popped
              end)
      | BAtom BAttributes =>
          let (a, asp) := match p_battr p with Some x => x | None => ([], sp) end in
          let! s := ssub src sp "lib.rs:2644" in
          let! r := attrs_parse a s in
          match r with
          | inr _ => Panic "lib.rs:2645"
          | inl a =>
              let asp := Sp (ss asp) (se sp) in
              let popped := p_set_battr popped None in
              Ok (if next_is_blank bl then SEmit (Attributes a) asp popped
                  else SLoop (p_set_battr popped (Some (a, asp))))
          end
      | BEnter n =>
          let! (c, popped) := node_container pp popped n true in
          Ok (match p_battr p with
              | Some (a, asp) => SEmit (Start c a) (Sp (ss asp) (se sp)) (p_set_battr popped None)
              | None => SEmit (Start c []) sp popped
              end)
      | BExit n =>
          let! (c, popped) := node_container pp popped n false in
          Ok (match p_battr p with
              | Some (a, asp) => SEmit (Attributes a) asp (p_set_blocks (p_set_battr popped None) (p_blocks p))
              | None => SEmit (End_ c) sp popped
              end)
      | BInline =>
          if p_verb p then
            if sp_empty sp then Ok (SLoop popped)
            else let! s := ssub src sp "lib.rs:2784" in Ok (SEmit (Str s) sp popped)
          else
            let! i := i_feed_line src (p_inl p) sp (negb (match bl with e :: _ => is_binline e | [] => false end)) in
            Ok (SFed (p_set_inl popped i))
      | BStale => Ok (SLoop popped)
      end
  end.

(** src/lib.rs:2619-2816: [block] followed by the last alternative of [next_span]; the recursive call
    of [next_span] in [block] is part of the loop. *)
Fixpoint p_block (fuel : nat) (src : bytes) (pp : prepass) (p : pstate)
  : res (option (event * span) * pstate) :=
  match fuel with
  | O => Fuel
  | S f =>
      let! st := block_step src pp p in
      match st with
      | SEmit e sp p => Ok (Some (e, sp), p)
      | SLoop p => p_block f src pp p
      | SFed p =>
          let! (o, p) := p_inline src pp p in
          match o with
          | Some r => Ok (Some r, p)
          | None => p_block f src pp p
          end
      | SEnd => Ok (match p_battr p with
                    | Some (a, sp) => (Some (Attributes a, sp), p_set_battr p None)
                    | None => (None, p)
                    end)
      end
  end.

(** src/lib.rs:2810-2816 [next_span]; this is [OffsetIter::next] (src/lib.rs:2838-2840), and
    [Parser::next] (2822-2824) drops the range. *)
Definition next_span (src : bytes) (pp : prepass) (p : pstate) : res (option (event * span) * pstate) :=
  let! (o, p) := p_inline src pp p in
  match o with
  | Some r => Ok (Some r, p)
  | None => p_block (S (length (p_blocks p))) src pp p
  end.

(** Run the iterator to its end. *)
Fixpoint p_all (fuel : nat) (src : bytes) (pp : prepass) (p : pstate) : res (list (event * span)) :=
  match fuel with
  | O => Fuel
  | S f =>
      let! (o, p) := next_span src pp p in
      match o with
      | None => Ok []
      | Some r => let! rest := p_all f src pp p in Ok (r :: rest)
      end
  end.

(** Upper bound on the number of events. *)
Definition all_fuel (src : bytes) (p : pstate) : nat := S (S (length (p_blocks p))) * (4 * S (length src)).

(** [Parser::new(src).into_offset_iter().collect()] *)
Definition parse_spans (src : bytes) : res (list (event * span)) :=
  let! (pp, p) := p_new src in p_all (all_fuel src p) src pp p.
(** [Parser::new(src).collect()] *)
Definition parse (src : bytes) : res (list event) :=
  let! l := parse_spans src in Ok (map fst l).
