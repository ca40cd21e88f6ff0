(** * SpecMark: how blocks are marked in the source (C40) *)
From Verif Require Import Base Attr Block Doc SpecAttr SpecBlock SpecOpen SpecSrc.
Local Open Scope nat_scope.

(** The attributes [a] are those of the attribute sets at some ranges between [lo] and [hi], in order. *)
Inductive within (src : bytes) : nat -> nat -> attrs -> Prop :=
| wi_nil lo hi : lo <= hi -> within src lo hi []
| wi_set lo sp a b hi : lo <= ss sp -> set_on src sp a -> within src (se sp) hi b -> within src lo hi (a ++ b).

(** The range of a block's start event: first, if the block has attributes, lines with the attribute sets (from the
    first opening brace on), then from [m] on the block's own marker. *)
Definition begun (src : bytes) (a : attrs) (sp : span) (m : nat) : Prop :=
  ss sp <= m /\ m <= se sp /\ within src (ss sp) m a /\ (m = ss sp \/ exists t r, slice src (Sp (ss sp) m) = t ++ r /\ braced t).

Definition bullet_char (b : bullet) : ascii := match b with BuDash => "-" | BuStar => "*" | BuPlus => "+" end%char.
(** The item type that a list of kind [k] begins with. *)
Definition kind_type (k : list_kind) : list_type :=
  match k with
  | LkUnordered b => LUnordered (bullet_char b)
  | LkOrdered nb st v => LOrdered (LN nb v) st
  | LkTask b => LTask (bullet_char b)
  end.
(** The marker [t] of an item [c] in a list of kind [k]. *)
Definition item_mark (k : list_kind) (c : container) (t : bytes) : Prop :=
  match k with
  | LkUnordered b => t = [bullet_char b]
  | LkOrdered _ st _ => exists nb ds v, t = marker_text st ds /\ number_denotes nb ds v
  | LkTask b => exists y, t = [bullet_char b; SP; "["%char; y; "]"%char] /\ (y = SP \/ y = "x"%char \/ y = "X"%char) /\
      c = TaskListItem (negb (beq y SP))
  end.
Definition empty (sp : span) : Prop := ss sp = se sp.
(** A code block between fences: [w] is the word after the opening fence.  No line inside is a closing fence; the
    block is closed by one or by the end of the enclosing block. *)
Definition fenced (src : bytes) (w t : bytes) (M : list (event * span)) (sp' : span) : Prop :=
  exists c n, (c = "`"%char \/ c = "~"%char) /\ 3 <= n /\ fence_text c n w t /\
    Forall (fun c => is_ws c = false /\ c <> "`"%char) w /\
    Forall (fun l => ~ closing_fence c n (slice src (snd l))) M /\ (empty sp' \/ closing_fence c n (slice src sp')).
(** The marker [sp] of a block [c], and the range [sp'] of its end event; [M] are the events between them. *)
Definition marks (src : bytes) (c : container) (sp : span) (M : list (event * span)) (sp' : span) : Prop :=
  let t := slice src sp in
  match c with
  | Paragraph => t = [] /\ empty sp'
  | Heading lv _ _ => t = repeat "#"%char lv /\ empty sp'
  | LinkDefinition l => label_text l t /\ hd_error l <> Some "^"%char /\ empty sp'
  | Footnote l => label_text ("^"%char :: l) t /\ empty sp'
  | CodeBlock w => fenced src w t M sp' /\ hd_error w <> Some "="%char
  | RawBlock f => fenced src ("="%char :: f) t M sp'
  | Blockquote => t = B ">" /\ empty sp'
  | Div w => exists n, 3 <= n /\ fence_text ":"%char n w t /\ Forall (fun c => is_name c = true) w /\
      (empty sp' \/ closing_fence ":"%char n (slice src sp'))
  | ListC k tight => empty sp /\ item_at src (se sp) (kind_type k) /\ empty sp' /\ (tight = false -> exists b, List.In (Blankline, b) M)
  | DescriptionList => empty sp /\ item_at src (se sp) LDescription /\ empty sp'
  | ListItem | TaskListItem _ | DescriptionDetails => empty sp'
  | DescriptionTerm => t = B ":"
  | _ => True
  end.
(** [e] is the end of a line (a line ends after its line break, the last one at the end of the source). *)
Definition line_end (src : bytes) (e : nat) : Prop := e = length src \/ (0 < e /\ nth_error src (e - 1) = Some NL).
(** From [p] on, the line holds nothing but blanks. *)
Definition line_over (src : bytes) (p : nat) : Prop :=
  exists e, p <= e /\ line_end src e /\ blanks_only (slice src (Sp p e)) /\ forall i, p <= i -> S i < e -> nth_error src i <> Some NL.
(** The blocks that are made of lines: such a block, whose marker begins at [m], ends at the end of a line and is not
    empty.  (Lists and sections end where the next block begins, tables rows and cells at a bar; a description's details
    may be empty.) *)
Definition whole (src : bytes) (c : container) (m : nat) (sp' : span) : Prop :=
  match c with
  | Paragraph | Heading _ _ _ | LinkDefinition _ | CodeBlock _ | RawBlock _ | Blockquote | Div _ | Footnote _ | ListItem | TaskListItem _ | Table =>
      line_end src (se sp') /\ m < se sp'
  | DescriptionDetails => line_end src (se sp')
  | _ => True
  end.
(** [P] holds of the text of a marker and of what follows it up to the end of its line. *)
Definition on_line (src : bytes) (sp : span) (P : bytes -> bytes -> Prop) : Prop :=
  exists e, se sp <= e /\ line_end src e /\ (forall i, se sp <= i -> S i < e -> nth_error src i <> Some NL) /\ P (slice src sp) (slice src (Sp (se sp) e)).
(** The first line of a block, from its marker on. *)
Definition begins (src : bytes) (c : container) (sp : span) : Prop :=
  match c with
  | Paragraph => on_line src sp (fun _ r => inked r /\ ~ opener r)
  | Heading _ _ _ | Blockquote | DescriptionTerm => on_line src sp (fun _ r => gapped r)
  | ListItem | TaskListItem _ => on_line src sp item_rest
  | Table => on_line src sp (fun _ r => row_text r)
  | _ => True
  end.
Definition marked (src : bytes) (c : container) (a : attrs) (sp : span) (M : list (event * span)) (sp' : span) : Prop :=
  exists m, begun src a sp m /\ marks src c (Sp m (se sp)) M sp' /\ whole src c m sp' /\ begins src c (Sp m (se sp)).
