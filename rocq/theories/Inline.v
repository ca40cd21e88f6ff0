(** * Inline: model of src/inline.rs

    [src] is passed to every function.  [Vec]s and [VecDeque]s are lists in the same order.  A method
    that returns [Option<ControlFlow>] and mutates [self] becomes a function returning both; state
    changes made before a [None] persist, as in Rust.  [CowStrIndex] and [AttributesIndex] ([u32]
    indices) are [nat]s: the model does not exhibit the truncation of more than 2^32 entries. *)
From Verif Require Import Base Lex Attr.
Local Open Scope nat_scope.

(** src/inline.rs:51-54 [QuoteType] *)
Inductive quote_type := QSingle | QDouble.

(** src/inline.rs:14-25 [Atom] *)
Inductive iatom :=
| IFootnoteReference (label : bytes) | ISymbol (s : bytes) | ISoftbreak | IHardbreak | IEscape
| INbsp | IEllipsis | IEnDash | IEmDash | IQuote (ty : quote_type) (left : bool).

(** src/inline.rs:28-46 [Container] *)
Inductive icont :=
| CSpan | CSubscript | CSuperscript | CInsert | CDelete | CEmphasis | CStrong | CMark
| CVerbatim | CRawFormat (format : bytes) | CInlineMath | CDisplayMath
| CReferenceLink (i : nat) | CReferenceImage (i : nat) | CInlineLink (i : nat) | CInlineImage (i : nat)
| CAutolink (url : bytes).

(** src/inline.rs:57-68 [EventKind] *)
Inductive ikind :=
| IEnter (c : icont) | IExit (c : icont) | IAtom (a : iatom) | IStr | IEmpty
| IAttributes (container : bool) (attrs : nat) | IPlaceholder.

(** src/inline.rs:73-76 [Event] *)
Record iev := IE { ik : ikind; isp : span }.

(** src/inline.rs:79-91 [Input] *)
Record input := In {
  i_lex : lexer;
  i_complete : bool;
  i_line : span;
  i_ahead : list span;
  i_span : span
}.

Definition in_set_lex (i : input) (l : lexer) : input := In l (i_complete i) (i_line i) (i_ahead i) (i_span i).
Definition in_set_span (i : input) (s : span) : input := In (i_lex i) (i_complete i) (i_line i) (i_ahead i) s.
Definition in_set_ahead (i : input) (a : list span) : input := In (i_lex i) (i_complete i) (i_line i) a (i_span i).
Definition in_set_complete (i : input) (c : bool) : input := In (i_lex i) c (i_line i) (i_ahead i) (i_span i).

(** src/inline.rs:94-103 [Input::new] *)
Definition in_new : input := In (lex_new []) false (Sp 0 0) [] (Sp 0 0).

(** src/inline.rs:120-124 [set_current_line] *)
Definition set_current_line (src : bytes) (i : input) (line : span) : res input :=
  let! b := bsub src line "inline.rs:121" in
  Ok (In (lex_new b) (i_complete i) line (i_ahead i) (Sp (ss line) (ss line))).

(** src/inline.rs:105-118 [Input::feed_line] *)
Definition in_feed_line (src : bytes) (i : input) (line : span) (last : bool) : res input :=
  let! _ := assert (negb (i_complete i)) "inline.rs:106" in
  let i := in_set_complete i last in
  let! ah := lex_ahead (i_lex i) in
  match ah with
  | [] => match i_ahead i with
          | next :: rest => set_current_line src (in_set_ahead i (rest ++ [line])) next
          | [] => set_current_line src i line
          end
  | _ => Ok (in_set_ahead i (i_ahead i ++ [line]))
  end.

(** src/inline.rs:126-130 [Input::reset] *)
Definition in_reset (i : input) : input := In (lex_new []) false (i_line i) [] (i_span i).

(** src/inline.rs:132-134 [last] *)
Definition in_last (i : input) : bool := i_complete i && match i_ahead i with [] => true | _ => false end.

(** src/inline.rs:136-142 [eat] *)
Definition in_eat (i : input) : res (option token * input) :=
  let! (t, l) := lex_next (i_lex i) in
  let i := in_set_lex i l in
  Ok (t, match t with
         | Some t => in_set_span i (Sp (ss (i_span i)) (se (i_span i) + tlen t))
         | None => i
         end).

(** src/inline.rs:144-146 [peek] *)
Definition in_peek (i : input) : option token * input :=
  let (t, l) := lex_peek (i_lex i) in (t, in_set_lex i l).

(** src/inline.rs:148-150 [reset_span] *)
Definition in_reset_span (i : input) : input := in_set_span i (Sp (se (i_span i)) (se (i_span i))).

(** [iter().take_while(..).count()] with a stop set: the number of bytes before the first byte in
    [stop], and that byte. *)
Definition scan_until (stop : ascii -> bool) (l : bytes) : nat * option ascii :=
  let n := count_while (fun c => negb (stop c)) l in (n, nth_error l n).
Definition stopped_at (o : option ascii) (c : ascii) : bool :=
  match o with Some d => beq d c | None => false end.

Definition peek_is_open (t : option token) (d : delim) : bool :=
  match t, d with
  | Some (Tok (LOpen Brace) _), Brace => true
  | Some (Tok (LOpen BraceEqual) _), BraceEqual => true
  | _, _ => false
  end.

(** src/inline.rs:152-188 [ahead_raw_format]: the range of the format, if any. *)
Definition ahead_raw_format (i : input) : res (option span * input) :=
  let (t, i) := in_peek i in
  if peek_is_open t BraceEqual then
    let! ah := lex_ahead (i_lex i) in
    let (len, stop) := scan_until (fun c => beq c "{" || beq c "}" || is_ws c) (skipn 2 ah) in
    if Nat.ltb 0 len && stopped_at stop "}" then
      let! (t, i) := in_eat i in
      let! _ := assert (match t with Some (Tok (LOpen BraceEqual) 2) => true | _ => false end)
                       "inline.rs:175" in
      let! l := lex_skip_ahead (i_lex i) (len + 1) in
      Ok (Some (Sp (se (i_span i)) (se (i_span i) + len)), in_set_lex i l)
    else Ok (None, i)
  else Ok (None, i).

(** src/inline.rs:192-197 [VerbatimState] *)
Record vstate := VS {
  vs_opener : nat;
  vs_len : nat;
  vs_nonws : bool;
  vs_last : option (lkind * nat)
}.

(** src/inline.rs:208-211 [AttributesElementType] *)
Inductive elem_type := ElemContainer (e_placeholder : nat) | ElemWord.

(** src/inline.rs:200-205 [AttributesState] *)
Record attr_state := AS { as_elem : elem_type; as_end : nat; as_lines : nat; as_val : astate }.

Inductive directionality := Uni | Bi.
Inductive span_type := SpImage | SpGeneral.

(** src/inline.rs:1039-1055 [Opener] *)
Inductive opener :=
| OpSpan (t : span_type) | OpStrong (d : directionality) | OpEmphasis (d : directionality)
| OpSuperscript (d : directionality) | OpSubscript (d : directionality) | OpMark | OpDelete | OpInsert
| OpSingleQuoted | OpDoubleQuoted
| OpLink (event_span : nat) (image inline : bool).

(** src/inline.rs:214-229 [Parser] *)
Record istate := IS {
  s_in : input;
  s_openers : list (opener * nat);
  s_events : list iev;
  s_verb : option vstate;
  s_attr : option attr_state;
  s_cow : list bytes;
  s_attrs : list attrs
}.

Definition s_set_in (s : istate) (i : input) : istate :=
  IS i (s_openers s) (s_events s) (s_verb s) (s_attr s) (s_cow s) (s_attrs s).
Definition s_set_openers (s : istate) (o : list (opener * nat)) : istate :=
  IS (s_in s) o (s_events s) (s_verb s) (s_attr s) (s_cow s) (s_attrs s).
Definition s_set_events (s : istate) (e : list iev) : istate :=
  IS (s_in s) (s_openers s) e (s_verb s) (s_attr s) (s_cow s) (s_attrs s).
Definition s_set_verb (s : istate) (v : option vstate) : istate :=
  IS (s_in s) (s_openers s) (s_events s) v (s_attr s) (s_cow s) (s_attrs s).
Definition s_set_attr (s : istate) (a : option attr_state) : istate :=
  IS (s_in s) (s_openers s) (s_events s) (s_verb s) a (s_cow s) (s_attrs s).
Definition s_set_cow (s : istate) (c : list bytes) : istate :=
  IS (s_in s) (s_openers s) (s_events s) (s_verb s) (s_attr s) c (s_attrs s).
Definition s_set_attrs (s : istate) (a : list attrs) : istate :=
  IS (s_in s) (s_openers s) (s_events s) (s_verb s) (s_attr s) (s_cow s) a.

Definition s_span (s : istate) : span := i_span (s_in s).
Definition s_set_span (s : istate) (sp : span) : istate := s_set_in s (in_set_span (s_in s) sp).
Definition s_set_lex (s : istate) (l : lexer) : istate := s_set_in s (in_set_lex (s_in s) l).

(** src/inline.rs:231-241 [ControlFlow] *)
Inductive flow := FContinue | FNext | FMore | FDone.

(** src/inline.rs:244-254 [Parser::new] *)
Definition i_new : istate := IS in_new [] [] None None [] [].

(** src/inline.rs:256-258 [Parser::feed_line] *)
Definition i_feed_line (src : bytes) (s : istate) (line : span) (last : bool) : res istate :=
  let! i := in_feed_line src (s_in s) line last in Ok (s_set_in s i).

Definition is_none {A} (o : option A) : bool := match o with None => true | Some _ => false end.
Definition is_nil {A} (l : list A) : bool := match l with [] => true | _ => false end.

(** src/inline.rs:260-268 [Parser::reset] *)
Definition i_reset (s : istate) : res istate :=
  let! _ := assert (is_nil (s_events s)) "inline.rs:261" in
  let! _ := assert (is_none (s_attr s)) "inline.rs:264" in
  let! _ := assert (is_none (s_verb s)) "inline.rs:265" in
  Ok (IS (in_reset (s_in s)) [] (s_events s) None None [] []).

(** src/inline.rs:270-272 [push_sp], 274-277 [push] *)
Definition push_sp (s : istate) (k : ikind) (sp : span) : istate :=
  s_set_events s (s_events s ++ [IE k sp]).
Definition push (s : istate) (k : ikind) : istate := push_sp s k (s_span s).

Definition s_peek (s : istate) : option token * istate :=
  let (t, i) := in_peek (s_in s) in (t, s_set_in s i).

(** Replace the kind of event [i] ([self.events[i].kind = k]). *)
Definition set_kind (evs : list iev) (i : nat) (k : ikind) (w : string) : res (list iev) :=
  let! e := get_at evs i w in Ok (upd evs i (IE k (isp e))).
(** [self.events[i].span.end = x] *)
Definition set_end (evs : list iev) (i : nat) (x : nat) (w : string) : res (list iev) :=
  let! e := get_at evs i w in Ok (upd evs i (IE (ik e) (Sp (ss (isp e)) x))).

Definition is_verb_cont (c : icont) : bool :=
  match c with CVerbatim | CRawFormat _ | CInlineMath | CDisplayMath => true | _ => false end.

(** src/inline.rs:468-502: the loop of [resume_attributes].  [res] is the validator's last answer.
    [inl (line_next, line_end, st)]: the loop was left by [break]; [inr st]: more lines are needed. *)
Fixpoint attr_scan (fuel : nat) (src : bytes) (ahead : list span) (complete : bool)
         (res : option nat) (line_next line_start line_end : nat) (st : attr_state)
  : Base.res ((nat * nat * attr_state) + attr_state) :=
  match fuel with
  | O => Fuel
  | S f =>
      match res with
      | Some O => Ok (inl (line_next, line_end, st))
      | Some len =>
          let end_attr := line_start + len in
          let st := AS (as_elem st) end_attr line_next (as_val st) in
          let! r := ssub src (Sp end_attr (length src)) "inline.rs:475" in
          if starts_c r "{" then
            let! l := ssub src (Sp end_attr line_end) "inline.rs:480" in
            let! (res', v) := validator_parse AStart l in
            attr_scan f src ahead complete res' line_next end_attr line_end
                      (AS (as_elem st) end_attr line_next v)
          else Ok (inl (line_next, line_end, st))
      | None =>
          match nth_error ahead line_next with
          | Some l =>
              let! b := ssub src l "inline.rs:488" in
              let! (res', v) := validator_parse (as_val st) b in
              attr_scan f src ahead complete res' (line_next + 1) (ss l) (se l)
                        (AS (as_elem st) (as_end st) (as_lines st) v)
          | None => if complete then Ok (inl (line_next, line_end, st)) else Ok (inr st)
          end
      end
  end.

(** src/inline.rs:510-522: run the attribute parser over the pieces of a multi-line attribute set. *)
Fixpoint parse_attr_lines (src : bytes) (end_attr : nat) (ls : list span) (p : aparser) : res attrs :=
  match ls with
  | [] => Ok (ap_attrs p)
  | l :: ls' =>
      let! b := ssub src (Sp (ss l) (Nat.min end_attr (se l))) "inline.rs:518" in
      let! (r, p') := aparser_parse p b in
      match r with
      | AErr _ => Panic "inline.rs:519"
      | AOk _ => parse_attr_lines src end_attr ls' p'
      end
  end.

(** src/inline.rs:524-527: [for _ in 0..line_next { pop_front, set_current_line }] *)
Fixpoint advance_lines (src : bytes) (n : nat) (i : input) : res input :=
  match n with
  | O => Ok i
  | S n' => match i_ahead i with
            | [] => Panic "inline.rs:525"
            | l :: ls => let! i' := set_current_line src (in_set_ahead i ls) l in advance_lines src n' i'
            end
  end.

(** src/inline.rs:531-577: place the attributes [a] read at the current span. *)
Definition place_attrs (src : bytes) (s : istate) (a : attrs) (ty : elem_type) : res istate :=
  match a with
  | [] =>
      match ty with
      | ElemContainer _ =>
          let! last := usub (length (s_events s)) 1 "inline.rs:533" in
          let! evs := set_end (s_events s) last (se (s_span s)) "inline.rs:534" in
          Ok (s_set_events s evs)
      | ElemWord => Ok s
      end
  | _ =>
      let idx := length (s_attrs s) in
      let s := s_set_attrs s (s_attrs s ++ [a]) in
      match ty with
      | ElemContainer p =>
          let! evs := set_at (s_events s) p (IE (IAttributes true idx) (s_span s)) "inline.rs:548" in
          let! last := usub (length evs) 1 "inline.rs:549" in
          let! e1 := get_at evs (p + 1) "inline.rs:550" in
          let! (evs, last) :=
            (match ik e1 with
             | IStr =>
                 let! t := ssub src (isp e1) "inline.rs:552" in
                 let! (evs, p, last) :=
                   (if bytes_eqb t (B "![") then
                      let start := ss (isp e1) in
                      let! evs := insert_at evs p (IE IStr (Sp start (start + 1))) "inline.rs:555" in
                      let! evs := set_at evs (p + 2) (IE (ik e1) (Sp (start + 1) (se (isp e1))))
                                         "inline.rs:564" in
                      Ok (evs, p + 1, last + 1)
                    else Ok (evs, p, last)) in
                 let! evs := set_kind evs (p + 1) (IEnter CSpan) "inline.rs:566" in
                 let! evs := set_kind evs last (IExit CSpan) "inline.rs:567" in
                 Ok (evs, last)
             | _ => Ok (evs, last)
             end) in
          let! evs := set_end evs last (se (s_span s)) "inline.rs:569" in
          Ok (s_set_events s evs)
      | ElemWord =>
          let s := push_sp s (IAttributes false idx) (s_span s) in
          Ok (push s IEmpty)
      end
  end.

(** Bound on the iterations of the attribute loop: each consumes a line or at least two bytes. *)
Definition attr_fuel (src : bytes) (ahead : list span) : nat := S (S (length src + length ahead)) * 2.

(** src/inline.rs:447-580 [resume_attributes] *)
Definition resume_attributes (src : bytes) (s : istate) (st : attr_state) (opener_eaten first : bool)
  : res (option flow * istate) :=
  let! start_attr := usub (se (s_span s)) (if opener_eaten then 1 else 0) "inline.rs:453" in
  let! r := ssub src (Sp start_attr (length src)) "inline.rs:454" in
  let! _ := assert (starts_c r "{") "inline.rs:454" in
  let i := s_in s in
  let! (line_next, line_start, line_end) :=
    (if first then Ok (0, start_attr, se (i_line i))
     else let! last := usub (length (i_ahead i)) 1 "inline.rs:459" in
          let! l := get_at (i_ahead i) last "inline.rs:461" in
          Ok (length (i_ahead i), ss l, se l)) in
  let! b := ssub src (Sp line_start line_end) "inline.rs:467" in
  let! (r0, v) := validator_parse (as_val st) b in
  let! out := attr_scan (attr_fuel src (i_ahead i)) src (i_ahead i) (i_complete i) r0 line_next
                        line_start line_end (AS (as_elem st) (as_end st) (as_lines st) v) in
  match out with
  | inr st' =>
      let s := s_set_attr s (Some st') in
      if opener_eaten then
        let! b := bsub src (Sp start_attr (se (i_line i))) "inline.rs:496" in
        Ok (Some FMore, s_set_lex (s_set_span s (Sp start_attr start_attr)) (lex_new b))
      else Ok (Some FMore, s)
  | inl (line_next, line_end, st') =>
      if Nat.eqb start_attr (as_end st') then Ok (None, s)
      else
        let! a := parse_attr_lines src (as_end st')
                    (Sp start_attr (se (i_line i)) :: firstn (as_lines st') (i_ahead i))
                    (AP [] AStart) in
        let! i' := advance_lines src line_next i in
        let! b := bsub src (Sp (as_end st') line_end) "inline.rs:529" in
        let s := s_set_in s (in_set_lex (in_set_span i' (Sp start_attr (as_end st'))) (lex_new b)) in
        let! s := place_attrs src s a (as_elem st') in
        Ok (Some FContinue, s)
  end.

(** src/inline.rs:433-445 [ahead_attributes] *)
Definition ahead_attributes (src : bytes) (s : istate) (ty : elem_type) (opener_eaten : bool)
  : res (option flow * istate) :=
  let! e := usub (se (s_span s)) (if opener_eaten then 1 else 0) "inline.rs:440" in
  resume_attributes src s (AS ty e 0 AStart) opener_eaten true.

Definition or_continue (r : res (option flow * istate)) : res (option flow * istate) :=
  let! (f, s) := r in
  Ok (match f with Some f => Some f | None => Some FContinue end, s).

(** [src[i]] is the byte [c] ([self.input.src.as_bytes()[i] == c], bounds checked). *)
Definition byte_is (src : bytes) (i : nat) (c : ascii) (w : string) : res bool :=
  let! d := get_at src i w in Ok (beq d c).
(** [i.checked_sub(k).is_none_or(|i| src[i] != '\\')] *)
Definition not_escaped (src : bytes) (i k : nat) (w : string) : res bool :=
  if Nat.leb k i then let! b := byte_is src (i - k) BSL w in Ok (negb b) else Ok true.

(** src/inline.rs:372-401: the type of the verbatim opened by a backtick run, and the number of
    dollar signs taken from the preceding text event. *)
Definition verb_type (src : bytes) (s : istate) : res (icont * nat) :=
  match last_opt (s_events s) with
  | Some (IE IStr sp) =>
      if Nat.eqb (se sp) (ss (s_span s)) then
        let! i := usub (ss sp + sp_len sp) 1 "inline.rs:378" in
        let! d := byte_is src i "$" "inline.rs:378" in
        if d then
          let! ne := not_escaped src (se sp) 2 "inline.rs:382" in
          if ne then
            let! two :=
              (if Nat.ltb 1 (sp_len sp) then
                 let! i := usub (ss sp + sp_len sp) 2 "inline.rs:385" in
                 let! d := byte_is src i "$" "inline.rs:385" in
                 if d then not_escaped src (se sp) 3 "inline.rs:389" else Ok false
               else Ok false) in
            Ok (if two then (CDisplayMath, 2) else (CInlineMath, 1))
          else Ok (CVerbatim, 0)
        else Ok (CVerbatim, 0)
      else Ok (CVerbatim, 0)
  | _ => Ok (CVerbatim, 0)
  end.

(** src/inline.rs:298-418 [parse_verbatim] *)
Definition parse_verbatim (src : bytes) (s : istate) (first : token) : res (option flow * istate) :=
  match s_verb s with
  | Some v =>
      if Nat.eqb (vs_len v) (tlen first)
         && match tk first with LSeq Backtick => true | _ => false end then
        let! (rf, i) := ahead_raw_format (s_in s) in
        let s := s_set_in s i in
        let! s := (match rf with
                   | Some sp =>
                       let! f := ssub src sp "inline.rs:314" in
                       let! evs := set_kind (s_events s) (vs_opener v) (IEnter (CRawFormat f)) "inline.rs:313" in
                       let s := s_set_events s evs in
                       Ok (s_set_span s (Sp (ss (s_span s)) (se sp + 1)))
                   | None => Ok s
                   end) in
        let! e := get_at (s_events s) (vs_opener v) "inline.rs:318" in
        match ik e with
        | IEnter ty =>
            let! _ := assert (is_verb_cont ty) "inline.rs:321" in
            let! s := (match vs_last v with
                       | Some (LSeq Backtick, skip) =>
                           let! _ := assert (Nat.leb skip (length (s_events s))) "inline.rs:327" in
                           Ok (s_set_events s (firstn skip (s_events s)))
                       | _ => Ok s
                       end) in
            let s := push s (IExit ty) in
            let s := s_set_lex s (lex_set_verb (i_lex (s_in s)) false) in
            let s := s_set_verb s None in
            match rf with
            | None =>
                let (t, s) := s_peek s in
                if peek_is_open t Brace then
                  let! p := usub (vs_opener v) 1 "inline.rs:341" in
                  or_continue (ahead_attributes src s (ElemContainer p) false)
                else Ok (Some FContinue, s)
            | Some _ => Ok (Some FContinue, s)
            end
        | _ => Panic "inline.rs:319"
        end
      else
        let! b := bsub src (s_span s) "inline.rs:349" in
        if forallb is_ws b then
          let (t, s) := (if vs_nonws v then (None, s) else s_peek s) in
          if negb (vs_nonws v)
             && match t with
                | Some (Tok (LSeq Backtick) n) => negb (Nat.eqb n (vs_len v))
                | _ => false
                end
          then Ok (Some FContinue, s)
          else Ok (Some FContinue, push s IStr)
        else
          let s := s_set_verb s (Some (VS (vs_opener v) (vs_len v) true
                                          (Some (tk first, length (s_events s) + 1)))) in
          Ok (Some FContinue, push s IStr)
  | None =>
      match tk first with
      | LSeq Backtick =>
          if Nat.ltb (tlen first) 256 then
            let! (ty, dollars) := verb_type src s in
            let s :=
              match dollars, last_opt (s_events s) with
              | S _, Some e =>
                  let border := se (isp e) - dollars in
                  let s := s_set_events s (butlast (s_events s)
                                           ++ [IE (ik e) (Sp (ss (isp e)) border)]) in
                  s_set_span s (Sp border (se (s_span s)))
              | _, _ => s
              end in
            let s := push_sp s IPlaceholder (Sp (ss (s_span s)) (ss (s_span s))) in
            let s := s_set_lex s (lex_set_verb (i_lex (s_in s)) true) in
            let s := s_set_verb s (Some (VS (length (s_events s)) (tlen first) false None)) in
            let s := s_set_attr s None in
            Ok (Some FContinue, push s (IEnter ty))
          else Ok (None, s)
      | _ => Ok (None, s)
      end
  end.

(** src/inline.rs:420-431 [parse_attributes] *)
Definition parse_attributes (src : bytes) (s : istate) (first : token) : res (option flow * istate) :=
  match tk first with
  | LOpen Brace =>
      match s_attr s with
      | Some st => resume_attributes src (s_set_attr s None) st true false
      | None => ahead_attributes src s ElemWord true
      end
  | _ =>
      let! _ := assert (is_none (s_attr s)) "inline.rs:428" in
      Ok (None, s)
  end.

(** src/inline.rs:582-616 [parse_autolink] *)
Definition parse_autolink (src : bytes) (s : istate) (first : token) : res (option flow * istate) :=
  match tk first with
  | LSym Lt =>
      let! ah := lex_ahead (i_lex (s_in s)) in
      let (len, stop) := scan_until (fun c => beq c "<" || beq c ">" || is_ws c) ah in
      let is_url := existsb (fun c => beq c ":" || beq c "@") (firstn len ah) in
      if stopped_at stop ">" && is_url then
        let! l := lex_skip_ahead (i_lex (s_in s)) (len + 1) in
        let s := s_set_lex s l in
        let e := se (s_span s) in
        let! url := ssub src (Sp e (e + len)) "inline.rs:607" in
        let s := push s (IEnter (CAutolink url)) in
        let s := push (s_set_span s (Sp e (e + len))) IStr in
        let s := push (s_set_span s (Sp (e + len) (e + len + 1))) (IExit (CAutolink url)) in
        Ok (Some FContinue, s)
      else Ok (None, s)
  | _ => Ok (None, s)
  end.

(** src/inline.rs:618-646 [parse_symbol] *)
Definition is_symbol_char (c : ascii) : bool := is_alnum c || beq c "-" || beq c "+" || beq c "_".
Definition parse_symbol (src : bytes) (s : istate) (first : token) : res (option flow * istate) :=
  match tk first with
  | LSym Colon =>
      let! ah := lex_ahead (i_lex (s_in s)) in
      let (len, stop) := scan_until (fun c => beq c ":" || is_ws c) ah in
      if stopped_at stop ":" && forallb is_symbol_char (firstn len ah) then
        let! l := lex_skip_ahead (i_lex (s_in s)) (len + 1) in
        let s := s_set_lex s l in
        let e := se (s_span s) in
        let s := s_set_span s (Sp (ss (s_span s)) (e + len + 1)) in
        let! sy := ssub src (Sp e (e + len)) "inline.rs:641" in
        Ok (Some FContinue, push s (IAtom (ISymbol sy)))
      else Ok (None, s)
  | _ => Ok (None, s)
  end.

(** src/inline.rs:648-691 [parse_footnote_reference] *)
Definition parse_footnote_reference (src : bytes) (s : istate) (first : token)
  : res (option flow * istate) :=
  match tk first with
  | LOpen Bracket =>
      let (t, s) := s_peek s in
      match t with
      | Some (Tok (LSym Caret) _) =>
          let! (t, i) := in_eat (s_in s) in
          let! _ := assert (match t with Some (Tok (LSym Caret) 1) => true | _ => false end) "inline.rs:659" in
          let s := s_set_in s i in
          let! ah := lex_ahead (i_lex i) in
          let (len, stop) := scan_until (fun c => beq c "[" || beq c "]" || beq c NL) ah in
          if stopped_at stop "]" then
            let! l := lex_skip_ahead (i_lex i) (len + 1) in
            let s := s_set_lex s l in
            let e := se (s_span s) in
            let! label := ssub src (Sp e (e + len)) "inline.rs:685" in
            let s := s_set_span s (Sp (ss (s_span s)) (e + len + 1)) in
            Ok (Some FContinue, push s (IAtom (IFootnoteReference label)))
          else Ok (None, s)
      | _ => Ok (None, s)
      end
  | _ => Ok (None, s)
  end.

(** src/inline.rs:1058-1083 [Opener::from_token] *)
Definition opener_of (k : lkind) : option opener :=
  match k with
  | LSym Asterisk => Some (OpStrong Bi)
  | LSym Underscore => Some (OpEmphasis Bi)
  | LSym Caret => Some (OpSuperscript Bi)
  | LSym Tilde => Some (OpSubscript Bi)
  | LSym Quote1 => Some OpSingleQuoted
  | LSym Quote2 => Some OpDoubleQuoted
  | LSym ExclaimBracket => Some (OpSpan SpImage)
  | LOpen Bracket => Some (OpSpan SpGeneral)
  | LOpen BraceAsterisk => Some (OpStrong Uni)
  | LOpen BraceUnderscore => Some (OpEmphasis Uni)
  | LOpen BraceCaret => Some (OpSuperscript Uni)
  | LOpen BraceTilde => Some (OpSubscript Uni)
  | LOpen BraceEqual => Some OpMark
  | LOpen BraceHyphen => Some OpDelete
  | LOpen BracePlus => Some OpInsert
  | LOpen BraceQuote1 => Some OpSingleQuoted
  | LOpen BraceQuote2 => Some OpDoubleQuoted
  | _ => None
  end.

(** src/inline.rs:1085-1113 [Opener::closed_by] *)
Definition closed_by (o : opener) (k : lkind) : bool :=
  match o, k with
  | OpSpan _, LClose Bracket
  | OpStrong Bi, LSym Asterisk | OpStrong Uni, LClose BraceAsterisk
  | OpEmphasis Bi, LSym Underscore | OpEmphasis Uni, LClose BraceUnderscore
  | OpSuperscript Bi, LSym Caret | OpSuperscript Uni, LClose BraceCaret
  | OpSubscript Bi, LSym Tilde | OpSubscript Uni, LClose BraceTilde
  | OpMark, LClose BraceEqual | OpDelete, LClose BraceHyphen | OpInsert, LClose BracePlus
  | OpSingleQuoted, LSym Quote1 | OpSingleQuoted, LClose BraceQuote1
  | OpDoubleQuoted, LSym Quote2 | OpDoubleQuoted, LClose BraceQuote2
  | OpLink _ _ false, LClose Bracket | OpLink _ _ true, LClose Paren => true
  | _, _ => false
  end.

(** src/inline.rs:1115-1125 [Opener::bidirectional] *)
Definition bidirectional (o : opener) : bool :=
  match o with
  | OpStrong Bi | OpEmphasis Bi | OpSuperscript Bi | OpSubscript Bi | OpSingleQuoted | OpDoubleQuoted => true
  | _ => false
  end.

(** src/inline.rs:1128-1163 [DelimEventKind] and its [From<Opener>] *)
Inductive delim_kind :=
| DKContainer (c : icont) | DKSpan (t : span_type) | DKQuote (q : quote_type)
| DKLink (event_span : nat) (image inline : bool).
Definition delim_kind_of (o : opener) : delim_kind :=
  match o with
  | OpSpan t => DKSpan t
  | OpStrong _ => DKContainer CStrong
  | OpEmphasis _ => DKContainer CEmphasis
  | OpSuperscript _ => DKContainer CSuperscript
  | OpSubscript _ => DKContainer CSubscript
  | OpMark => DKContainer CMark
  | OpDelete => DKContainer CDelete
  | OpInsert => DKContainer CInsert
  | OpSingleQuoted => DKQuote QSingle
  | OpDoubleQuoted => DKQuote QDouble
  | OpLink e i l => DKLink e i l
  end.

(** src/inline.rs:759-784: the tag of a collapsed reference, from the events of its text. *)
Fixpoint text_tag (src : bytes) (evs : list iev) (sp : span) (spec : bytes) : res bytes :=
  match evs with
  | [] => let! t := ssub src sp "inline.rs:783" in Ok (spec ++ t)
  | e :: evs' =>
      match ik e with
      | IAtom ISoftbreak | IAtom IHardbreak =>
          let! t := ssub src sp "inline.rs:773" in
          text_tag src evs' (Sp (se (isp e)) (se (isp e))) (spec ++ t ++ [SP])
      | IAtom IEscape => text_tag src evs' sp spec
      | IStr | IAtom _ =>
          if Nat.eqb (se sp) (ss (isp e)) then text_tag src evs' (Sp (ss sp) (se (isp e))) spec
          else let! t := ssub src sp "inline.rs:779" in text_tag src evs' (isp e) (spec ++ t)
      | _ => text_tag src evs' sp spec
      end
  end.

(** [s.split('\n')] *)
Fixpoint split_nl (s : bytes) (cur : bytes) : list bytes :=
  match s with
  | [] => [rev cur]
  | c :: s' => if beq c NL then rev cur :: split_nl s' [] else split_nl s' (c :: cur)
  end.

(** src/inline.rs:791-801 [append]: state is (spec, first_part). *)
Definition spec_append (inline : bool) (acc : bytes * bool) (s : bytes) : bytes * bool :=
  fold_left (fun (a : bytes * bool) (p : bytes) =>
               let (spec, first) := a in
               match p with
               | [] => a
               | _ => ((if negb inline && negb first then spec ++ [SP] else spec) ++ p, false)
               end) (split_nl s []) acc.

(** src/inline.rs:785-813: multi-line link destination or tag. *)
Fixpoint multi_spec (src : bytes) (inline : bool) (evs : list iev) (sp : span) (acc : bytes * bool)
  : res bytes :=
  match evs with
  | [] => let! t := ssub src sp "inline.rs:811" in Ok (fst (spec_append inline acc t))
  | e :: evs' =>
      if Nat.eqb (se sp) (ss (isp e)) then multi_spec src inline evs' (Sp (ss sp) (se (isp e))) acc
      else let! t := ssub src sp "inline.rs:807" in
           multi_spec src inline evs' (isp e) (spec_append inline acc t)
  end.

(** src/inline.rs:750-833: close a link or image. *)
Definition close_link (src : bytes) (s : istate) (event_span : nat) (image inline : bool) (e_opener : nat)
  : res istate :=
  let evs := s_events s in
  let! eo := get_at evs e_opener "inline.rs:755" in
  let spec_sp := Sp (se (isp eo)) (ss (s_span s)) in
  let multiline := Nat.ltb (ss (isp eo)) (ss (i_line (s_in s))) in
  let! spec :=
    (if sp_empty spec_sp && negb inline then
       let! n := usub e_opener event_span "inline.rs:764" in
       let! n := usub n 2 "inline.rs:764" in
       text_tag src (firstn n (skipn (event_span + 1) evs)) (Sp 0 0) []
     else if multiline then
       multi_spec src inline (skipn (e_opener + 1) evs) (Sp (se (isp eo)) (se (isp eo))) ([], true)
     else ssub src spec_sp "inline.rs:815") in
  let idx := length (s_cow s) in
  let s := s_set_cow s (s_cow s ++ [spec]) in
  let c := match image, inline with
           | false, false => CReferenceLink idx
           | false, true => CInlineLink idx
           | true, false => CReferenceImage idx
           | true, true => CInlineImage idx
           end in
  let! evs := set_kind evs event_span (IEnter c) "inline.rs:826" in
  let! i := usub e_opener 1 "inline.rs:827" in
  let! ec := get_at evs i "inline.rs:827" in
  let! evs := set_at evs i (IE (IExit c) (Sp (ss (isp ec)) (se spec_sp + 1))) "inline.rs:827" in
  Ok (s_set_events s (firstn e_opener evs)).

(** [self.input.src.as_bytes().get(start.saturating_sub(1)).is_some_and(is_ws)] *)
Definition ws_before (src : bytes) (start : nat) : bool :=
  match nth_error src (start - 1) with Some c => is_ws c | None => false end.

(** src/inline.rs:697-854, the [and_then] closure: try to close opener number [o].
    [None]: not closed (nothing changed). *)
Definition try_close (src : bytes) (s : istate) (o : nat) : res (option flow * istate) :=
  let! (op, e) := get_at (s_openers s) o "inline.rs:698" in
  let! (e_attr, e_opener) :=
    (match op with
     | OpLink es _ _ => let! a := usub es 1 "inline.rs:700" in Ok (a, e)
     | _ => Ok (e, e + 1)
     end) in
  let! last := usub (length (s_events s)) 1 "inline.rs:705" in
  if Nat.eqb e_opener last && match op with OpLink _ _ _ | OpSpan _ => false | _ => true end
  then Ok (None, s)
  else if bidirectional op && ws_before src (ss (s_span s)) then Ok (None, s)
  else
    let s := s_set_openers s (firstn o (s_openers s)) in
    let finish (s : istate) : res (option flow * istate) :=
      let (t, s) := s_peek s in
      if peek_is_open t Brace then
        let ty := match op with
                  | OpDoubleQuoted | OpSingleQuoted => ElemWord
                  | _ => ElemContainer e_attr
                  end in
        or_continue (ahead_attributes src s ty false)
      else Ok (Some FContinue, s) in
    match delim_kind_of op with
    | DKContainer c =>
        let! evs := set_kind (s_events s) e_opener (IEnter c) "inline.rs:724" in
        finish (push (s_set_events s evs) (IExit c))
    | DKQuote q =>
        let! evs := set_kind (s_events s) e_opener (IAtom (IQuote q true)) "inline.rs:728" in
        finish (push (s_set_events s evs) (IAtom (IQuote q false)))
    | DKSpan ty =>
        let (t, s) := s_peek s in
        match t with
        | Some (Tok (LOpen Bracket) _) | Some (Tok (LOpen Paren) _) =>
            let inline := match t with Some (Tok (LOpen Paren) _) => true | _ => false end in
            let image := match ty with SpImage => true | SpGeneral => false end in
            let s := push s IStr in
            let s := s_set_openers s (s_openers s ++ [(OpLink e_opener image inline, length (s_events s))]) in
            let s := s_set_in s (in_reset_span (s_in s)) in
            let! (_, i) := in_eat (s_in s) in
            Ok (Some FContinue, push (s_set_in s i) IStr)
        | _ => finish (push s IStr)
        end
    | DKLink es image inline =>
        let! s := close_link src s es image inline e_opener in
        finish s
    end.

(** src/inline.rs:855-899, the [or_else] closure: try to open a container. *)
Definition try_open (src : bytes) (s : istate) (first : token) : res (option flow * istate) :=
  match opener_of (tk first) with
  | None => Ok (None, s)
  | Some op =>
      let! ah := lex_ahead (i_lex (s_in s)) in
      if bidirectional op && hd_none_or is_ws ah then Ok (None, s)
      else
        let start := ss (s_span s) in
        let! wsb := (if Nat.ltb 0 start
                     then let! c := get_at src (start - 1) "inline.rs:868" in Ok (is_ws c)
                     else Ok false) in
        if match op with OpSingleQuoted => true | _ => false end
           && match last_opt (s_events s) with Some (IE IStr _) => true | _ => false end
           && negb wsb
        then Ok (None, s)
        else
          let s := s_set_openers s (s_openers s ++ [(op, length (s_events s))]) in
          let s := push_sp s IPlaceholder (Sp start start) in
          Ok (Some FContinue,
              push s (match op with
                      | OpSingleQuoted => IAtom (IQuote QSingle false)
                      | OpDoubleQuoted => IAtom (IQuote QDouble true)
                      | _ => IStr
                      end))
  end.

(** src/inline.rs:693-900 [parse_container] *)
Definition iparse_container (src : bytes) (s : istate) (first : token) : res (option flow * istate) :=
  match rposition (fun o => closed_by (fst o) (tk first)) (s_openers s) with
  | Some o =>
      let! (f, s') := try_close src s o in
      match f with
      | Some f => Ok (Some f, s')
      | None => try_open src s' first
      end
  | None => try_open src s first
  end.

(** src/inline.rs:908-915: ellipses for a run of periods. *)
Fixpoint ellipses (fuel : nat) (s : istate) : res istate :=
  match fuel with
  | O => Fuel
  | S f =>
      if Nat.leb 3 (sp_len (s_span s)) then
        let st := ss (s_span s) in
        let s := push_sp s (IAtom IEllipsis) (Sp st (st + 3)) in
        ellipses f (s_set_span s (Sp (st + 3) (se (s_span s))))
      else Ok s
  end.

(** src/inline.rs:922: [(1..).find(|n| (len - 2 * n) % 3 == 0)], the subtraction checked. *)
Fixpoint find_en (fuel : nat) (len n : nat) : res nat :=
  match fuel with
  | O => Fuel
  | S f =>
      let! d := usub len (2 * n) "inline.rs:922" in
      if Nat.eqb (d mod 3) 0 then Ok n else find_en f len (S n)
  end.
(** src/inline.rs:917-924: number of em and en dashes for a run of [len >= 2] hyphens. *)
Definition dash_counts (len : nat) : res (nat * nat) :=
  if Nat.eqb (len mod 3) 0 then Ok (len / 3, 0)
  else if Nat.eqb (len mod 2) 0 then Ok (0, len / 2)
  else let! n := find_en (S len) len 1 in
       let! d := usub len (2 * n) "inline.rs:923" in
       Ok (d / 3, n).

(** src/inline.rs:925-932: push [n] dashes of width [w]. *)
Fixpoint push_dashes (n w : nat) (a : iatom) (s : istate) : istate :=
  match n with
  | O => s
  | S n' =>
      let st := ss (s_span s) in
      let s := push_sp s (IAtom a) (Sp st (st + w)) in
      push_dashes n' w a (s_set_span s (Sp (st + w) (se (s_span s))))
  end.

(** src/inline.rs:902-955 [parse_atom] *)
Definition parse_atom (s : istate) (first : token) : res (option flow * istate) :=
  match tk first with
  | LNewline => Ok (Some FContinue, push s (IAtom ISoftbreak))
  | LHardbreak => Ok (Some FContinue, push s (IAtom IHardbreak))
  | LEscape => Ok (Some FContinue, push s (IAtom IEscape))
  | LNbsp => Ok (Some FContinue, push s (IAtom INbsp))
  | LSeq Period =>
      let! s := ellipses (S (sp_len (s_span s))) s in Ok (None, s)
  | LSeq Hyphen =>
      if Nat.leb 2 (tlen first) then
        let! (m, n) := dash_counts (tlen first) in
        Ok (Some FContinue, push_dashes n 2 IEnDash (push_dashes m 3 IEmDash s))
      else Ok (None, s)
  | LOpen BraceQuote1 => Ok (Some FContinue, push s (IAtom (IQuote QSingle true)))
  | LSym Quote1 | LClose BraceQuote1 => Ok (Some FContinue, push s (IAtom (IQuote QSingle false)))
  | LOpen BraceQuote2 => Ok (Some FContinue, push s (IAtom (IQuote QDouble true)))
  | LSym Quote2 | LClose BraceQuote2 => Ok (Some FContinue, push s (IAtom (IQuote QDouble false)))
  | _ => Ok (None, s)
  end.

(** [r.or_else(f)] *)
Definition or_else (r : res (option flow * istate)) (f : istate -> res (option flow * istate))
  : res (option flow * istate) :=
  let! (o, s) := r in
  match o with Some _ => Ok (o, s) | None => f s end.

(** src/inline.rs:279-296 [parse_event] *)
Definition parse_event (src : bytes) (s : istate) : res (flow * istate) :=
  let s := s_set_in s (in_reset_span (s_in s)) in
  let! (t, i) := in_eat (s_in s) in
  let s := s_set_in s i in
  match t with
  | Some first =>
      let! (o, s) :=
        or_else (or_else (or_else (or_else (or_else (or_else
          (parse_verbatim src s first)
          (fun s => parse_attributes src s first))
          (fun s => parse_autolink src s first))
          (fun s => parse_symbol src s first))
          (fun s => parse_footnote_reference src s first))
          (fun s => iparse_container src s first))
          (fun s => parse_atom s first) in
      Ok (match o with
          | Some f => (f, s)
          | None => (FContinue, push s IStr)
          end)
  | None => Ok (if in_last (s_in s) then FDone else FNext, s)
  end.

Definition is_istr (e : iev) : bool := match ik e with IStr => true | _ => false end.

(** src/inline.rs:1169-1177: the condition of the buffering loop. *)
Definition must_buffer (s : istate) : bool :=
  is_nil (s_events s) || negb (is_nil (s_openers s)) || negb (is_none (s_verb s))
  || negb (is_none (s_attr s))
  || match last_opt (s_events s) with Some e => is_istr e | None => false end.

(** src/inline.rs:1169-1190: parse until the first event may be handed out; [false] if more lines
    are needed ([return None]). *)
Fixpoint fill (fuel : nat) (src : bytes) (s : istate) : res (bool * istate) :=
  match fuel with
  | O => Fuel
  | S f =>
      if must_buffer s then
        let! (fl, s) := parse_event src s in
        match fl with
        | FContinue => fill f src s
        | FDone => Ok (true, s)
        | FNext =>
            match i_ahead (s_in s) with
            | l :: ls => let! i := set_current_line src (in_set_ahead (s_in s) ls) l in
                         fill f src (s_set_in s i)
            | [] => Ok (false, s)
            end
        | FMore => Ok (false, s)
        end
      else Ok (true, s)
  end.

(** Does the queue start with word attributes? *)
Definition front_word_attr (evs : list iev) : bool :=
  match evs with IE (IAttributes false _) _ :: _ => true | _ => false end.

(** src/inline.rs:959-969: merge the following adjacent text events. *)
Fixpoint merge_loop (evs : list iev) (sp : span) : list iev * span :=
  match evs with
  | e :: evs' =>
      if match ik e with IStr | IPlaceholder => true | _ => false end && Nat.eqb (se sp) (ss (isp e))
      then merge_loop evs' (Sp (ss sp) (se (isp e)))
      else (evs, sp)
  | [] => (evs, sp)
  end.

(** src/inline.rs:987-1023 [apply_word_attributes] *)
Definition apply_word_attributes (src : bytes) (evs : list iev) (sp : span) : res (iev * list iev) :=
  let! t := ssub src sp "inline.rs:988" in
  match rposition is_ws t with
  | Some i =>
      let ws := ss sp + i + 1 in
      Ok (IE IStr (Sp (ss sp) ws), IE IStr (Sp ws (se sp)) :: evs)
  | None =>
      match evs with
      | [] => Panic "inline.rs:1004"
      | attr :: evs1 =>
          if negb (sp_empty sp) then
            match evs1 with
            | IE IEmpty _ :: evs2 =>
                Ok (attr, IE (IEnter CSpan) (Sp (ss sp) (ss sp)) :: IE IStr sp
                          :: IE (IExit CSpan) (isp attr) :: evs2)
            | _ => Panic "inline.rs:1007"
            end
          else Ok (attr, evs1)
      end
  end.

(** src/inline.rs:957-985 [merge_str_events] *)
Definition merge_str_events (src : bytes) (evs : list iev) (sp : span) : res (iev * list iev) :=
  let (evs, sp) := merge_loop evs sp in
  if front_word_attr evs then apply_word_attributes src evs sp else Ok (IE IStr sp, evs).

(** src/inline.rs:1193-1203: close an unclosed verbatim. *)
Definition close_verbatim (s : istate) : res istate :=
  match s_verb s with
  | None => Ok s
  | Some v =>
      let s := s_set_verb s None in
      let s := s_set_lex s (lex_set_verb (i_lex (s_in s)) false) in
      let! e := get_at (s_events s) (vs_opener v) "inline.rs:1195" in
      match ik e with
      | IEnter ty =>
          let! _ := assert (is_verb_cont ty) "inline.rs:1198" in
          Ok (push s (IExit ty))
      | _ => Panic "inline.rs:1196"
      end
  end.

(** src/inline.rs:1168-1222 [Iterator::next]; [fuel] bounds the recursion, [fuel_fill] the loop. *)
Fixpoint i_next (fuel fuel_fill : nat) (src : bytes) (s : istate) : res (option iev * istate) :=
  match fuel with
  | O => Fuel
  | S f =>
      let! (go, s) := fill fuel_fill src s in
      if go then
        let! s := close_verbatim s in
        match s_events s with
        | [] => Ok (None, s)
        | e :: evs =>
            let s := s_set_events s evs in
            match ik e with
            | IStr =>
                if sp_empty (isp e) && negb (front_word_attr evs) then i_next f fuel_fill src s
                else let! (e', evs') := merge_str_events src evs (isp e) in
                     Ok (Some e', s_set_events s evs')
            | IPlaceholder => i_next f fuel_fill src s
            | _ => Ok (Some e, s)
            end
        end
      else Ok (None, s)
  end.
