(** * PWf2: proofs for C23: the tags of containers *)
From Verif Require Import Base Lex Attr Block Inline Doc Html Lib SpecAttr SpecDoc SpecHtml SpecWf PHtml PHtml2 PHtml4 PHtml5 PHtml6 PIds PCan14 PWf.
Local Open Scope nat_scope.

(** The elements of a container, innermost first; [tight]: in a tight list. *)
Definition cn (tight : bool) (c : container) : list bytes :=
  match c with
  | Document | Footnote _ | LinkDefinition _ | RawBlock _ | RawInline _ | Image _ _ => []
  | Blockquote => [B "blockquote"]
  | ListC (LkOrdered _ _ _) _ => [B "ol"]
  | ListC _ _ => [B "ul"]
  | ListItem | TaskListItem _ => [B "li"]
  | DescriptionList => [B "dl"]
  | DescriptionDetails => [B "dd"]
  | Table => [B "table"]
  | TableRow _ => [B "tr"]
  | Section_ _ => [B "section"]
  | Div _ => [B "div"]
  | Paragraph => if tight then [] else [B "p"]
  | Heading level _ _ => [B "h" ++ dec (N.of_nat level)]
  | TableCell _ false => [B "td"]
  | TableCell _ true => [B "th"]
  | Caption => [B "caption"]
  | DescriptionTerm => [B "dt"]
  | CodeBlock _ => [B "code"; B "pre"]
  | Span_ | Math _ => [B "span"]
  | Link _ _ => [B "a"]
  | Verbatim => [B "code"]
  | Subscript => [B "sub"]
  | Superscript => [B "sup"]
  | Insert => [B "ins"]
  | Delete => [B "del"]
  | Strong => [B "strong"]
  | Emphasis => [B "em"]
  | Mark => [B "mark"]
  end.

Lemma h_name n : tag_name (B "h" ++ dec n) /\ ~ List.In (B "h" ++ dec n) void_names.
Proof.
  split; [split; [reflexivity|exact (dec_alnum n)]|]. intros H. pose proof (dec_digits n) as Hd. pose proof (dec_nonempty n) as Hn.
  destruct (dec n) as [|c r]; [congruence|]. cbn [forallb] in Hd. apply andb_prop in Hd as [Hd _].
  repeat (destruct H as [H|H]; [injection H; intros; subst; try discriminate|]). destruct H.
Qed.
Ltac nv := (let H := fresh in intros H; cbn in H; repeat (destruct H as [H|H]; [discriminate H|]); exact H).
Ltac st_tag H al Ha n := exact (opens_start _ _ (B n) al H (conj eq_refl eq_refl) ltac:(nv) Ha).

Lemma open_inl s c s' : open_tag s c = Ok (inl s') -> cn (tight_top s) c = [] /\ (r_img s = 0 -> is_img c = false).
Proof.
  destruct c; cbn [open_tag cn]; intros H; try discriminate H; try (split; reflexivity).
  - destruct (tight_top s); [split; reflexivity|discriminate H].
  - destruct head; discriminate H.
  - split; [reflexivity|]. intros E. rewrite E in H. cbn in H. discriminate H.
Qed.

Lemma open_inr s c s' o2 s'' o3 a ns x : plains (ind_of s) -> r_img s = 0 ->
  open_tag s c = Ok (inr (s', o2)) -> close_open_tag s' c = Ok (s'', o3) -> cont_ok c -> keys_ok a -> opens ns x ->
  if is_img c then alt ns (x ++ o2 ++ write_attrs c a ++ o3) else opens (cn (tight_top s) c ++ ns) (x ++ o2 ++ write_attrs c a ++ o3).
Proof.
  intros Hind Himg H2 H3 Hc Hk Hx. destruct (write_attrs_ok c a Hc Hk) as (al & -> & Ha).
  destruct c; cbn [is_img cn]; cbn [open_tag] in H2; try discriminate H2; try (injection H2 as <- <-); try (injection H3 as <- <-).
  - st_tag Hx al Ha "blockquote"%string.
  - destruct k as [?|nb ? ?|?]; [st_tag Hx al Ha "ul"%string| |st_tag Hx al Ha "ul"%string]. destruct (ol_attrs_ok nb start) as (al' & -> & Ha').
    pose proof (opens_start _ _ (B "ol") (al' ++ al) Hx (conj eq_refl eq_refl) ltac:(nv) (aok_app _ _ Ha' Ha)) as K.
    unfold start_tag in K. rewrite flat_map_app, <- !app_assoc in K. rewrite <- ?app_assoc. exact K.
  - st_tag Hx al Ha "li"%string.
  - cbn [close_open_tag] in H3. apply bind_ok in H3 as ([s1 w] & H3 & H4). injection H4 as <- <-. pose proof (gap_block _ _ _ _ H3) as Hg. apply (gap_plain _ _ Hind) in Hg.
    pose proof (opens_plain _ _ w (opens_start _ _ (B "li") al Hx (conj eq_refl eq_refl) ltac:(nv) Ha) Hg) as K.
    assert (Hh : html_ok (HVoid (B "input") ([(B "disabled", []); (B "type", B "checkbox")] ++ (if checked then [(B "checked", [])] else [])) true)).
    { constructor; [cbn; auto|]. destruct checked; repeat (apply aok_cons; [gn|apply plains_dq, plains_b; reflexivity|]); constructor. }
    apply (opens_html _ _ _ K) in Hh. unfold start_tag in Hh. cbn [html_text] in Hh. destruct checked; rewrite <- !app_assoc in Hh; rewrite <- ?app_assoc; exact Hh.
  - st_tag Hx al Ha "dl"%string.
  - st_tag Hx al Ha "dd"%string.
  - st_tag Hx al Ha "table"%string.
  - st_tag Hx al Ha "tr"%string.
  - st_tag Hx al Ha "section"%string.
  - st_tag Hx al Ha "div"%string.
  - destruct (tight_top s); [discriminate H2|]. injection H2 as <- <-. st_tag Hx al Ha "p"%string.
  - destruct (h_name (N.of_nat level)) as [Hn Hv]. pose proof (opens_start _ _ (B "h" ++ dec (N.of_nat level)) al Hx Hn Hv Ha) as K.
    unfold start_tag in K. rewrite <- ?app_assoc in K. rewrite <- ?app_assoc. exact K.
  - assert (E : o2 = (if head then B "<th" else B "<td")) by (destruct head; injection H2 as <- <-; reflexivity). subst o2.
    assert (E3 : exists al', o3 = flat_map attr_text al' ++ B ">" /\ attrs_ok al').
    { assert (K : forall v, forallb plainb v = true -> exists al', quoted (B "style") v ++ B ">" = flat_map attr_text al' ++ B ">" /\ attrs_ok al').
      { intros v Hv. exists [(B "style", v)]. cbn [flat_map]. rewrite app_nil_r. split; [reflexivity|apply aok_cons; [gn|apply plains_dq, plains_b, Hv|constructor]]. }
      cbn [close_open_tag] in H3. destruct a0.
      - assert (E : o3 = B ">") by congruence. rewrite E. exists (@nil (bytes * bytes)); split; [reflexivity|apply Forall_nil].
      - assert (E : o3 = quoted (B "style") (B "text-align: left;") ++ B ">") by congruence. rewrite E. apply K. reflexivity.
      - assert (E : o3 = quoted (B "style") (B "text-align: center;") ++ B ">") by congruence. rewrite E. apply K. reflexivity.
      - assert (E : o3 = quoted (B "style") (B "text-align: right;") ++ B ">") by congruence. rewrite E. apply K. reflexivity. }
    destruct E3 as (al' & -> & Ha'). pose proof (aok_app _ _ Ha Ha') as Ha2.
    destruct head.
    + pose proof (opens_start _ _ (B "th") (al ++ al') Hx (conj eq_refl eq_refl) ltac:(nv) Ha2) as K. unfold start_tag in K. rewrite flat_map_app, <- ?app_assoc in K. exact K.
    + pose proof (opens_start _ _ (B "td") (al ++ al') Hx (conj eq_refl eq_refl) ltac:(nv) Ha2) as K. unfold start_tag in K. rewrite flat_map_app, <- ?app_assoc in K. exact K.
  - st_tag Hx al Ha "caption"%string.
  - st_tag Hx al Ha "dt"%string.
  - pose proof (opens_start _ _ (B "pre") al Hx (conj eq_refl eq_refl) ltac:(nv) Ha) as K.
    destruct language as [|l0 language].
    + pose proof (opens_start _ _ (B "code") [] K (conj eq_refl eq_refl) ltac:(nv) ltac:(constructor)) as K2.
      unfold start_tag in K2. rewrite <- ?app_assoc in K2. exact K2.
    + set (w := write_attr (l0 :: language)) in *. assert (Hw : attrs_ok [(B "class", B "language-" ++ w)]).
      { apply aok_cons; [gn| |constructor]. apply nodq_app; [apply plains_dq, plains_b; reflexivity|apply text_dq]. }
      pose proof (opens_start _ _ (B "code") _ K (conj eq_refl eq_refl) ltac:(nv) Hw) as K2.
      unfold start_tag in K2. cbn [flat_map] in K2. unfold attr_text at 2 in K2. cbn [fst snd] in K2. rewrite app_nil_r, <- !app_assoc in K2. exact K2.
  - st_tag Hx al Ha "span"%string.
  - assert (K0 : forall al', attrs_ok al' -> opens ([B "a"] ++ ns) (x ++ (B "<a" ++ flat_map attr_text al') ++ flat_map attr_text al ++ B ">")).
    { intros al' Ha'. pose proof (opens_start _ _ (B "a") (al' ++ al) Hx (conj eq_refl eq_refl) ltac:(nv) (aok_app _ _ Ha' Ha)) as K. unfold start_tag in K. rewrite flat_map_app, <- ?app_assoc in K. rewrite <- ?app_assoc. exact K. }
    assert (K : forall v, ~ List.In DQ v -> opens ([B "a"] ++ ns) (x ++ (B "<a href=" ++ [DQ] ++ v ++ [DQ]) ++ flat_map attr_text al ++ B ">")).
    { intros v Hv. specialize (K0 [(B "href", v)]). cbn [flat_map] in K0. rewrite app_nil_r in K0. apply K0. apply aok_cons; [gn|exact Hv|constructor]. }
    destruct ty as [[]| |]; try (exact (K _ (text_dq dst))).
    + exact (K0 [] (Forall_nil _)).
    + refine (K (B "mailto:" ++ write_attr dst) _). apply nodq_app; [apply plains_dq, plains_b; reflexivity|apply text_dq].
  - rewrite Himg in H2. cbn in H2. injection H2 as <- <-. cbn [Nat.eqb r_img r_set_img].
    exists x, al, []. repeat (split; [assumption|]). split; [intros []|reflexivity].
  - st_tag Hx al Ha "code"%string.
  - pose proof (opens_start _ _ (B "span") al Hx (conj eq_refl eq_refl) ltac:(nv) Ha) as K.
    apply (opens_lit _ _ (if display then B "\[" else B "\(")) in K; [|destruct display; reflexivity].
    destruct display; unfold start_tag in K; rewrite <- ?app_assoc in K; exact K.
  - st_tag Hx al Ha "sub"%string.
  - st_tag Hx al Ha "sup"%string.
  - st_tag Hx al Ha "ins"%string.
  - st_tag Hx al Ha "del"%string.
  - st_tag Hx al Ha "strong"%string.
  - st_tag Hx al Ha "em"%string.
  - st_tag Hx al Ha "mark"%string.
Qed.
