(** * Attr: model of src/attr.rs *)
From Verif Require Import Base.
Local Open Scope nat_scope.

(** src/attr.rs:800-820 [State] *)
Inductive astate :=
| AStart | AWhitespace | ACommentFirst | AComment | ACommentNewline
| AClassFirst | AClass | AIdentifierFirst | AIdentifier | AKey
| AValueFirst | AValue | AValueQuoted | AValueEscape | AValueNewline | AValueContinued
| ADone | AInvalid.

Definition astate_eqb (a b : astate) : bool :=
  match a, b with
  | AStart, AStart | AWhitespace, AWhitespace | ACommentFirst, ACommentFirst
  | AComment, AComment | ACommentNewline, ACommentNewline | AClassFirst, AClassFirst
  | AClass, AClass | AIdentifierFirst, AIdentifierFirst | AIdentifier, AIdentifier
  | AKey, AKey | AValueFirst, AValueFirst | AValue, AValue | AValueQuoted, AValueQuoted
  | AValueEscape, AValueEscape | AValueNewline, AValueNewline
  | AValueContinued, AValueContinued | ADone, ADone | AInvalid, AInvalid => true
  | _, _ => false
  end.

(** src/attr.rs:866-868 [is_name] *)
Definition is_name (c : ascii) : bool := is_alnum c || beq c ":" || beq c "_" || beq c "-".

(** src/attr.rs:822-864 [State::step]; stepping from [Done] or [Invalid] panics (line 861). *)
Definition step (s : astate) (c : ascii) : res astate :=
  match s with
  | AStart => Ok (if beq c "{" then AWhitespace else AInvalid)
  | AWhitespace =>
      Ok (if beq c "}" then ADone
          else if beq c "." then AClassFirst
          else if beq c "#" then AIdentifierFirst
          else if beq c "%" then ACommentFirst
          else if is_name c then AKey
          else if is_ws c then AWhitespace
          else AInvalid)
  | ACommentFirst | AComment | ACommentNewline =>
      Ok (if beq c "%" then AWhitespace
          else if beq c "}" then ADone
          else if beq c NL then ACommentNewline
          else AComment)
  | AClassFirst => Ok (if is_name c then AClass else AInvalid)
  | AIdentifierFirst => Ok (if is_name c then AIdentifier else AInvalid)
  | AClass | AIdentifier | AValue =>
      Ok (if is_name c then s
          else if is_ws c then AWhitespace
          else if beq c "}" then ADone
          else AInvalid)
  | AKey => Ok (if is_name c then AKey else if beq c "=" then AValueFirst else AInvalid)
  | AValueFirst =>
      Ok (if is_name c then AValue else if beq c DQ then AValueQuoted else AInvalid)
  | AValueQuoted =>
      Ok (if beq c DQ then AWhitespace
          else if beq c NL then AValueNewline
          else if beq c BSL then AValueEscape
          else AValueQuoted)
  | AValueEscape => Ok (if beq c NL then AValueNewline else AValueQuoted)
  | AValueNewline | AValueContinued =>
      Ok (if beq c DQ then AWhitespace
          else if beq c NL then AValueNewline
          else AValueContinued)
  | ADone | AInvalid => Panic "attr.rs:861"
  end.

(** src/attr.rs:8-15: the loop of [valid]: bytes consumed so far and state. *)
Fixpoint valid_loop (s : bytes) (n : nat) (st : astate) : res (nat * astate) :=
  match s with
  | [] => Ok (n, st)
  | c :: s' =>
      let! st' := step st c in
      match st' with
      | ADone | AInvalid => Ok (S n, st')
      | _ => valid_loop s' (S n) st'
      end
  end.

(** src/attr.rs:3-22 [valid] *)
Definition attr_valid (s : bytes) : res nat :=
  let! (n, st) := valid_loop s 0 AStart in
  Ok (match st with ADone => n | _ => 0 end).

(** src/attr.rs:707-718 [Validator::parse]: [Some n] if finished (0 = invalid), [None] if more input
    is needed; also returns the validator's new state. *)
Fixpoint validator_loop (s : bytes) (n : nat) (st : astate) : res (option nat * astate) :=
  match s with
  | [] => Ok (None, st)
  | c :: s' =>
      let! st' := step st c in
      match st' with
      | ADone => Ok (Some (S n), st')
      | AInvalid => Ok (Some 0, st')
      | _ => validator_loop s' (S n) st'
      end
  end.
Definition validator_parse (st : astate) (s : bytes) : res (option nat * astate) :=
  validator_loop s 0 st.

(** src/attr.rs:134-189 [AttributeKind] *)
Inductive akind := KClass | KId | KPair (key : bytes) | KComment.

(** An [AttributeElem] (src/attr.rs:279); the value is the [raw] field of [AttributeValue]
    (src/attr.rs:28-31), [Cow] erased. *)
Definition attr_elem := (akind * bytes)%type.
Definition attrs := list attr_elem.

(** src/attr.rs:195-202 [AttributeKind::key] *)
Definition akey (k : akind) : option bytes :=
  match k with
  | KClass => Some (B "class")
  | KId => Some (B "id")
  | KPair key => Some key
  | KComment => None
  end.
Definition akey_is (key : bytes) (k : akind) : bool :=
  match akey k with Some k' => bytes_eqb k' key | None => false end.

(** src/attr.rs:58-75 [AttributeValue::extend_raw] (string concatenation in every branch). *)
Definition extend_raw (v s : bytes) : bytes := v ++ s.
(** src/attr.rs:48-56 [AttributeValue::extend] *)
Definition extend (v s : bytes) : bytes :=
  match s with
  | [] => v
  | _ => extend_raw (match v with [] => v | _ => extend_raw v [SP] end) s
  end.

(** Replace the value of the last element: [self.attrs.0[len - 1].1 = f(...)]
    (src/attr.rs:763-766, 769-770); panics on an empty list. *)
Definition upd_last (a : attrs) (f : bytes -> bytes) (w : string) : res attrs :=
  match last_opt a with
  | None => Panic w
  | Some (k, v) => Ok (butlast a ++ [(k, f v)])
  end.

(** src/attr.rs:753-778: what happens to the attribute list when state [st] is left with text
    [content]. *)
Definition leave (st : astate) (content : bytes) (a : attrs) : res attrs :=
  match st with
  | AClass => Ok (a ++ [(KClass, content)])
  | AIdentifier => Ok (a ++ [(KId, content)])
  | AKey => Ok (a ++ [(KPair content, [])])
  | AValue | AValueContinued => upd_last a (fun v => extend v content) "attr.rs:763"
  | AValueQuoted =>
      match content with
      | [] => Panic "attr.rs:766"
      | _ :: c => upd_last a (fun v => extend v c) "attr.rs:763"
      end
  | AComment => upd_last a (fun v => extend_raw v content) "attr.rs:769"
  | ACommentNewline => upd_last a (fun v => extend_raw v [NL]) "attr.rs:769"
  | ACommentFirst => Ok (a ++ [(KComment, [])])
  | _ => Ok a
  end.

(** src/attr.rs:721-726 [Parser] *)
Record aparser := AP { ap_attrs : attrs; ap_state : astate }.

Inductive aresult := AOk (n : nat) | AErr (pos : nat).

(** src/attr.rs:736-793 [Parser::parse]: the loop over [input.bytes().enumerate()];
    [rest] is [input[pos..]]. *)
Fixpoint aparse_loop (input rest : bytes) (pos pos_prev : nat) (p : aparser)
  : res (aresult * aparser) :=
  match rest with
  | [] => Ok (AOk (length input), p)
  | c :: rest' =>
      let st := ap_state p in
      let! st' := step st c in
      match st' with
      | AInvalid => Ok (AErr pos, p)
      | _ =>
          let skip := astate_eqb st st' || astate_eqb st AValueEscape || astate_eqb st' AValueEscape in
          let! (a', pp') :=
            (if skip then Ok (ap_attrs p, pos_prev)
             else let! content := ssub input (Sp pos_prev pos) "attr.rs:751" in
                  let! a' := leave st content (ap_attrs p) in Ok (a', pos))
          in
          match st' with
          | ADone => if starts_c rest' "{"
                     then aparse_loop input rest' (S pos) pp' (AP a' AStart)
                     else Ok (AOk (S pos), AP a' ADone)
          | _ => aparse_loop input rest' (S pos) pp' (AP a' st')
          end
      end
  end.
Definition aparser_parse (p : aparser) (input : bytes) : res (aresult * aparser) :=
  aparse_loop input input 0 0 p.

(** src/attr.rs:294-304 [Attributes::parse]: parse and append; [inr pos] on error.
    On error the Rust code leaves [self] empty; every caller then panics or discards it. *)
Definition attrs_parse (a : attrs) (input : bytes) : res (attrs + nat) :=
  let input := trim_end_m is_ws input in
  let! (r, p) := aparser_parse (AP a AStart) input in
  Ok (match r with
      | AErr pos => inr pos
      | AOk n => if Nat.eqb n (length input) && astate_eqb (ap_state p) ADone
                 then inl (ap_attrs p) else inr n
      end).

(** src/attr.rs:457-463 [Attributes::try_from] *)
Definition attrs_try_from (s : bytes) : res (attrs + nat) := attrs_parse [] s.

(** src/attr.rs:319-323 [contains_key] *)
Definition contains_key (a : attrs) (key : bytes) : bool := existsb (fun e => akey_is key (fst e)) a.

(** Last element with the given key ([rfind]). *)
Definition rfind_key (a : attrs) (key : bytes) : option bytes :=
  option_map snd (find (fun e => akey_is key (fst e)) (rev a)).

(** src/attr.rs:352-371 [get_value] *)
Definition get_value (a : attrs) (key : bytes) : option bytes :=
  if bytes_eqb key (B "class") then
    match fold_left (fun v e => if akey_is (B "class") (fst e) then extend v (snd e) else v) a [] with
    | [] => None
    | v => Some v
    end
  else rfind_key a key.

(** src/attr.rs:652-687 [AttributePairsIter::next], run to completion; [before] is
    [attrs[..pos]], [rest] is [attrs[pos..]]. *)
Fixpoint pairs_loop (before rest : attrs) : list (bytes * bytes) :=
  match rest with
  | [] => []
  | (k, v) :: rest' =>
      let tail := pairs_loop (before ++ [(k, v)]) rest' in
      match akey k with
      | None => tail
      | Some key =>
          if existsb (fun e => akey_is key (fst e)) before then tail
          else if bytes_eqb key (B "class") then
            (key, fold_left (fun v e => if akey_is (B "class") (fst e) then extend v (snd e) else v)
                            rest' v) :: tail
          else match rfind_key rest' key with
               | Some v' => (key, v') :: tail
               | None => (key, v) :: tail
               end
      end
  end.
(** src/attr.rs:408-413 [unique_pairs] (collected) *)
Definition unique_pairs (a : attrs) : list (bytes * bytes) := pairs_loop [] a.

(** src/attr.rs:107-129 [AttributeValueParts::next] on [ahead]; [acc] is [ahead[..i]] reversed.
    Returns the part and the new [ahead]. The scan over [match_indices('\\')] is a scan over all
    positions that acts only at backslashes. *)
Fixpoint part_scan (acc rest : bytes) : option (bytes * bytes) :=
  match rest with
  | [] => None
  | c :: rest' =>
      if beq c BSL then
        match rest' with
        | d :: rest'' =>
            if beq d BSL then Some (rev (c :: acc), rest'')
            else if is_punct d then Some (rev acc, rest')
            else part_scan (c :: acc) rest'
        | [] => part_scan (c :: acc) rest'
        end
      else part_scan (c :: acc) rest'
  end.
Definition part_next (ahead : bytes) : option (bytes * bytes) :=
  match part_scan [] ahead with
  | Some r => Some r
  | None => match ahead with [] => None | _ => Some (ahead, []) end
  end.
(** All parts, in order ([parts().collect()]); the fuel is the length bound. *)
Fixpoint parts_fuel (fuel : nat) (ahead : bytes) : list bytes :=
  match fuel with
  | O => []
  | S f => match part_next ahead with
           | None => []
           | Some (p, ahead') => p :: parts_fuel f ahead'
           end
  end.
Definition parts (raw : bytes) : list bytes := parts_fuel (S (length raw)) raw.
(** src/attr.rs:96-100 [Display for AttributeValue] *)
Definition value_display (raw : bytes) : bytes := concat (parts raw).

(** src/attr.rs:512-540 [Debug for Attributes] *)
Definition debug_elem (e : attr_elem) : bytes :=
  match fst e with
  | KClass => B "." ++ snd e
  | KId => B "#" ++ snd e
  | KPair key => key ++ B "=" ++ [DQ] ++ snd e ++ [DQ]
  | KComment => B "%" ++ snd e ++ B "%"
  end.
Fixpoint debug_elems (first : bool) (a : attrs) : bytes :=
  match a with
  | [] => []
  | e :: a' => (if first then [] else [SP]) ++ debug_elem e ++ debug_elems false a'
  end.
Definition attrs_debug (a : attrs) : bytes := B "{" ++ debug_elems true a ++ B "}".
