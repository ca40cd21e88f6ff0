(** * SpecApart: which events may follow the end of a block
    (the syntax reference: a paragraph ends at a blank line or with its container; consecutive lines marked
    as a heading or quote belong to the same one; a list goes on until an item of another kind). *)
From Verif Require Import Base Block Doc.
Local Open Scope nat_scope.

(** The text of an event begins with an attribute set: attributes written in front of the block. *)
Definition attributed (src : bytes) (sp : span) : Prop := starts_c (slice src sp) "{" = true.
(** Sections without attributes have no text of their own: their begin and end are not looked at. *)
Definition shown (src : bytes) (e : event * span) : bool :=
  match fst e with
  | End_ (Section_ _) => false
  | Start (Section_ _) _ => starts_c (slice src (snd e)) "{"
  | _ => true
  end.
(** [e] (with range [sp]) may directly follow the end of the block [c]. *)
Definition after_block (src : bytes) (c : container) (e : event) (sp : span) : Prop :=
  (exists c', e = End_ c') \/
  match c with
  | Paragraph => e = Blankline
  | Heading lv _ _ => attributed src sp \/ forall c' a, e = Start c' a -> c' <> Paragraph /\ forall h i, c' <> Heading lv h i
  | Blockquote => attributed src sp \/ forall c' a, e = Start c' a -> c' <> Paragraph /\ c' <> Blockquote
  | Table => attributed src sp \/ forall a, e <> Start Table a
  | ListC (LkOrdered _ _ _) _ => True
  | ListC k _ => attributed src sp \/ forall t a, e <> Start (ListC k t) a
  | DescriptionList => attributed src sp \/ forall a, e <> Start DescriptionList a
  | _ => True
  end.
