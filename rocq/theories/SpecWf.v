(** * SpecWf: well-formed HTML, and the names in events (C23)

    HTML as a tree and its text; nothing here refers to the renderer. *)
From Verif Require Import Base Attr Block Inline Doc SpecAttr.
Local Open Scope nat_scope.

Inductive html :=
| HText (t : bytes)
| HVoid (name : bytes) (a : list (bytes * bytes)) (slash : bool)               (* <name a> or <name a/> *)
| HElem (name : bytes) (a : list (bytes * bytes)) (children : list html).      (* <name a> .. </name> *)

Definition attr_text (kv : bytes * bytes) : bytes := [SP] ++ fst kv ++ B "=" ++ [DQ] ++ snd kv ++ [DQ].
Definition start_tag (name : bytes) (a : list (bytes * bytes)) : bytes := B "<" ++ name ++ flat_map attr_text a ++ B ">".
Definition end_tag (name : bytes) : bytes := B "</" ++ name ++ B ">".
Fixpoint html_text (h : html) : bytes :=
  match h with
  | HText t => t
  | HVoid n a slash => B "<" ++ n ++ flat_map attr_text a ++ (if slash then B "/>" else B ">")
  | HElem n a hs => start_tag n a ++ flat_map html_text hs ++ end_tag n
  end.

(** Tag names: letters and digits, first a letter.  Attribute names ([gname]): letters, digits, ':', '_', '-'.
    Attribute values contain no quotes; text contains no angle brackets. *)
Definition is_letter (c : ascii) : bool := is_lower c || is_upper c.
Definition tag_name (n : bytes) : Prop := match n with c :: r => is_letter c = true /\ forallb is_alnum r = true | [] => False end.
Definition attrs_ok (a : list (bytes * bytes)) : Prop := Forall (fun kv => gname (fst kv) /\ ~ List.In DQ (snd kv)) a.
Definition text_ok (t : bytes) : Prop := ~ List.In "<"%char t /\ ~ List.In ">"%char t.
Definition void_names : list bytes := [B "br"; B "hr"; B "img"; B "input"].

Inductive html_ok : html -> Prop :=
| ho_text t : text_ok t -> html_ok (HText t)
| ho_void n a slash : List.In n void_names -> attrs_ok a -> html_ok (HVoid n a slash)
| ho_elem n a hs : tag_name n -> ~ List.In n void_names -> attrs_ok a -> Forall html_ok hs -> html_ok (HElem n a hs).

(** The text of a sequence of well-formed elements and text. *)
Definition well_formed (o : bytes) : Prop := exists hs, Forall html_ok hs /\ o = flat_map html_text hs.

(** ** The names in events *)
(** Attribute keys and div classes are made of name characters, symbols have no markup characters and no
    container holds raw HTML. *)
Definition keys_ok (a : attrs) : Prop := forall k v, List.In (KPair k, v) a -> gname k.
Definition event_names (e : event) : Prop :=
  match e with
  | Start c a => keys_ok a /\ match c with
                              | Div class => Forall name_char class
                              | RawBlock f | RawInline f => f <> B "html"
                              | _ => True
                              end
  | ThematicBreak a => keys_ok a
  | Symbol n => Forall (fun c => name_char c \/ c = "+"%char) n
  | _ => True
  end.
