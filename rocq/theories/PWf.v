(** * PWf: proofs for C23: partial HTML, start and end tags *)
From Verif Require Import Base Lex Attr Block Inline Doc Html Lib SpecAttr SpecDoc SpecHtml SpecWf PHtml PHtml2 PHtml5 PHtml6 PIds PCan14.
Local Open Scope nat_scope.

(** ** Characters *)
Definition plain (c : ascii) : Prop := c <> "<"%char /\ c <> ">"%char /\ c <> DQ.
Definition plains (t : bytes) : Prop := Forall plain t.
Definition plainb (c : ascii) : bool := negb (beq c "<") && negb (beq c ">") && negb (beq c DQ).
Lemma plainb_ok c : plainb c = true -> plain c.
Proof. unfold plainb. intros H. apply andb_prop in H as [H H3]. apply andb_prop in H as [H1 H2]. apply negb_true_iff in H1, H2, H3. apply beq_neq in H1, H2, H3. split; [|split]; assumption. Qed.
Lemma plains_b t : forallb plainb t = true -> plains t.
Proof. intros H. apply Forall_forall. intros c Hc. rewrite forallb_forall in H. apply plainb_ok, H, Hc. Qed.
Lemma plains_text t : plains t -> text_ok t.
Proof. intros H. unfold plains in H. rewrite Forall_forall in H. split; intros Hc; apply H in Hc; destruct Hc as (A1 & A2 & A3); congruence. Qed.
Lemma plains_dq t : plains t -> ~ List.In DQ t.
Proof. intros H Hc. unfold plains in H. rewrite Forall_forall in H. apply H in Hc. destruct Hc as (A1 & A2 & A3); congruence. Qed.
Lemma nodq_app a b : ~ List.In DQ a -> ~ List.In DQ b -> ~ List.In DQ (a ++ b).
Proof. intros H1 H2 H. apply in_app_iff in H. tauto. Qed.
Lemma name_plain c : name_char c -> plain c.
Proof.
  intros [H|[->|[->| ->]]]; try (apply plainb_ok; reflexivity).
  apply plainb_ok. revert H. clear. destruct c as [[][][][][][][][]]; intros H; try discriminate H; reflexivity.
Qed.
Lemma names_plain l : Forall name_char l -> plains l.
Proof. intros H. eapply Forall_impl; [|exact H]. apply name_plain. Qed.
Lemma dec_plain n : plains (dec n).
Proof. apply plains_b. pose proof (dec_digits n) as H. rewrite forallb_forall in *. intros c Hc. specialize (H c Hc). revert H. clear. destruct c as [[][][][][][][][]]; intros H; try discriminate H; reflexivity. Qed.
Lemma dec_alnum n : forallb is_alnum (dec n) = true.
Proof. pose proof (dec_digits n) as H. rewrite forallb_forall in *. intros c Hc. specialize (H c Hc). unfold is_alnum. rewrite H. reflexivity. Qed.
Lemma text_dq t : ~ List.In DQ (write_attr t).
Proof. destruct (inert_escape true t) as (_ & _ & H & _). auto. Qed.
Lemma text_ok_esc t : text_ok (write_text t).
Proof. destruct (inert_escape false t) as (H1 & H2 & _). split; assumption. Qed.
Lemma gap_plain ind w : plains ind -> gap ind w -> plains w.
Proof. intros Hi. induction 1; [constructor| |apply Forall_app; auto]. constructor; [apply plainb_ok; reflexivity|assumption]. Qed.

(** ** Partial documents: the names of the open elements, innermost first *)
Inductive opens : list bytes -> bytes -> Prop :=
| op_nil hs : Forall html_ok hs -> opens [] (flat_map html_text hs)
| op_push ns x n a hs : opens ns x -> tag_name n -> ~ List.In n void_names -> attrs_ok a -> Forall html_ok hs ->
    opens (n :: ns) (x ++ start_tag n a ++ flat_map html_text hs).

Lemma opens_html ns x h : opens ns x -> html_ok h -> opens ns (x ++ html_text h).
Proof.
  intros H Hh. destruct H as [hs Hs|ns x n a hs H Hn Hv Ha Hs].
  - replace (flat_map html_text hs ++ html_text h) with (flat_map html_text (hs ++ [h])) by (rewrite flat_map_app; cbn [flat_map]; rewrite app_nil_r; reflexivity).
    apply op_nil. apply Forall_app. auto.
  - replace ((x ++ start_tag n a ++ flat_map html_text hs) ++ html_text h) with (x ++ start_tag n a ++ flat_map html_text (hs ++ [h]))
      by (rewrite flat_map_app; cbn [flat_map]; rewrite app_nil_r, <- !app_assoc; reflexivity).
    apply op_push; auto. apply Forall_app. auto.
Qed.
Lemma opens_text ns x t : opens ns x -> text_ok t -> opens ns (x ++ t).
Proof. intros H Ht. exact (opens_html ns x (HText t) H (ho_text t Ht)). Qed.
Lemma opens_plain ns x t : opens ns x -> plains t -> opens ns (x ++ t).
Proof. intros H Ht. apply opens_text; [exact H|apply plains_text, Ht]. Qed.
Lemma opens_lit ns x t : opens ns x -> forallb plainb t = true -> opens ns (x ++ t).
Proof. intros H Ht. apply opens_plain; [exact H|apply plains_b, Ht]. Qed.
Lemma opens_start ns x n a : opens ns x -> tag_name n -> ~ List.In n void_names -> attrs_ok a -> opens (n :: ns) (x ++ start_tag n a).
Proof. intros. rewrite <- (app_nil_r (start_tag n a)). apply (op_push ns x n a []); auto. Qed.
Lemma opens_end ns x n : opens (n :: ns) x -> opens ns (x ++ end_tag n).
Proof.
  intros H. inversion H as [|ns' x' n' a hs H1 H2 H3 H4 H5]; subst. rewrite <- !app_assoc.
  change (start_tag n a ++ flat_map html_text hs ++ end_tag n) with (html_text (HElem n a hs)). apply opens_html; [exact H1|]. constructor; assumption.
Qed.
Lemma opens_done x : opens [] x -> well_formed x.
Proof. intros H. inversion H; subst. exists hs. auto. Qed.

(** An image whose text is being written. *)
Definition alt (ns : list bytes) (x : bytes) : Prop :=
  exists x0 a v, opens ns x0 /\ attrs_ok a /\ ~ List.In DQ v /\ x = x0 ++ B "<img" ++ flat_map attr_text a ++ B " alt=" ++ [DQ] ++ v.
Lemma alt_add ns x t : alt ns x -> ~ List.In DQ t -> alt ns (x ++ t).
Proof. intros (x0 & a & v & H1 & H2 & H3 & ->) Ht. exists x0, a, (v ++ t). repeat (split; [auto; fail|]). split; [apply nodq_app; assumption|]. rewrite <- !app_assoc. reflexivity. Qed.
Lemma gname_b n : n <> [] -> forallb is_name n = true -> gname n.
Proof.
  intros H1 H2. split; [exact H1|]. apply Forall_forall. intros c Hc. rewrite forallb_forall in H2. specialize (H2 c Hc). unfold is_name in H2.
  apply orb_prop in H2 as [H2|H2]; [|apply beq_eq in H2; unfold name_char; auto]. apply orb_prop in H2 as [H2|H2]; [|apply beq_eq in H2; unfold name_char; auto].
  apply orb_prop in H2 as [H2|H2]; [left; exact H2|apply beq_eq in H2; unfold name_char; auto].
Qed.
Ltac gn := apply gname_b; [discriminate|reflexivity].
Lemma aok_cons k v a : gname k -> ~ List.In DQ v -> attrs_ok a -> attrs_ok ((k, v) :: a).
Proof. intros. constructor; auto. Qed.
Lemma aok_app a b : attrs_ok a -> attrs_ok b -> attrs_ok (a ++ b).
Proof. intros. apply Forall_app. auto. Qed.
Lemma alt_close ns x src : alt ns x ->
  opens ns (x ++ (match src with [] => [] | _ => [DQ] ++ B " src=" ++ [DQ] ++ write_attr src end) ++ [DQ] ++ B ">").
Proof.
  intros (x0 & a & v & H1 & H2 & H3 & ->). destruct src as [|c src].
  - replace ((x0 ++ B "<img" ++ flat_map attr_text a ++ B " alt=" ++ [DQ] ++ v) ++ [] ++ [DQ] ++ B ">") with (x0 ++ html_text (HVoid (B "img") (a ++ [(B "alt", v)]) false)).
    + apply opens_html; [exact H1|]. constructor; [cbn; auto|]. apply aok_app; [exact H2|]. apply aok_cons; [gn|exact H3|constructor].
    + cbn [html_text]. rewrite flat_map_app. cbn [flat_map]. unfold attr_text at 2. cbn [fst snd]. rewrite <- !app_assoc. reflexivity.
  - set (w := write_attr (c :: src)).
    replace ((x0 ++ B "<img" ++ flat_map attr_text a ++ B " alt=" ++ [DQ] ++ v) ++ ([DQ] ++ B " src=" ++ [DQ] ++ w) ++ [DQ] ++ B ">")
      with (x0 ++ html_text (HVoid (B "img") (a ++ [(B "alt", v); (B "src", w)]) false)).
    + apply opens_html; [exact H1|]. constructor; [cbn; auto|]. apply aok_app; [exact H2|]. apply aok_cons; [gn|exact H3|]. apply aok_cons; [gn|apply text_dq|constructor].
    + cbn [html_text]. rewrite flat_map_app. cbn [flat_map]. unfold attr_text at 2 3. cbn [fst snd]. rewrite <- !app_assoc. reflexivity.
Qed.

(** ** Attributes *)
Lemma quoted_is n v : quoted n v = attr_text (n, v).
Proof. reflexivity. Qed.
Lemma pairs_keys a : forall before, keys_ok a -> forall kv, List.In kv (pairs_loop before a) -> gname (fst kv).
Proof.
  induction a as [|[k v] a IH]; intros before Hk kv Hin; [destruct Hin|]. cbn [pairs_loop] in Hin.
  assert (Hk' : keys_ok a) by (intros k0 v0 H0; apply (Hk k0 v0); right; exact H0).
  destruct (akey k) as [key|] eqn:Ek; [|eauto].
  assert (Hkey : gname key).
  { destruct k; cbn in Ek; try discriminate Ek; injection Ek as <-; [gn|gn|]. apply (Hk _ v). left. reflexivity. }
  destruct (existsb (fun e => akey_is key (fst e)) before); [eauto|]. destruct (bytes_eqb key (B "class")).
  - destruct Hin as [<-|Hin]; eauto.
  - destruct (rfind_key a key); destruct Hin as [<-|Hin]; eauto.
Qed.
Lemma write_pairs extra ps : (forall kv, List.In kv ps -> gname (fst kv)) -> (forall k, ~ List.In DQ (extra k)) ->
  exists al, concat (map (write_pair extra) ps) = flat_map attr_text al /\ attrs_ok al.
Proof.
  intros Hk He. induction ps as [|[k v] ps IH]; [exists []; split; [reflexivity|constructor]|].
  destruct IH as (al & E & Ha); [intros kv H; apply Hk; right; exact H|]. cbn [map concat].
  exists ((k, concat (map write_attr (parts v)) ++ extra k) :: al). split.
  - cbn [flat_map]. rewrite E. f_equal. unfold write_pair, attr_text. cbn [fst snd]. rewrite <- !app_assoc. reflexivity.
  - apply aok_cons; [apply (Hk (k, v)); left; reflexivity| |exact Ha]. apply nodq_app; [|apply He]. unfold write_attr. 
    induction (parts v) as [|p l IHl]; [intros []|]. cbn [map concat]. apply nodq_app; [apply text_dq|exact IHl].
Qed.
Definition cont_ok (c : container) : Prop := match c with Div class => Forall name_char class | RawBlock f | RawInline f => f <> B "html" | _ => True end.
Lemma write_class_ok c b : cont_ok c -> ~ List.In DQ (write_class c b).
Proof.
  intros H. destruct c; try (intros []; fail).
  - destruct k; [intros []|intros []|]. cbn. intros Hin. repeat (destruct Hin as [Hin|Hin]; [discriminate Hin|]). exact Hin.
  - cbn [write_class app]. destruct class as [|c class]; [intros []|]. apply nodq_app; [destruct b; cbn; [intros [E|[]]; discriminate E|tauto]|]. apply plains_dq, names_plain, H.
  - destruct display; cbn; intros Hin; repeat (destruct Hin as [Hin|Hin]; [discriminate Hin|]); exact Hin.
Qed.
Lemma write_attrs_ok c a : cont_ok c -> keys_ok a -> exists al, write_attrs c a = flat_map attr_text al /\ attrs_ok al.
Proof.
  intros Hc Hk. unfold write_attrs. cbv zeta.
  destruct (write_pairs (fun k => if bytes_eqb k (B "class") then write_class c true else []) (unique_pairs a)) as (al & E & Ha).
  { apply pairs_keys, Hk. }
  { intros k. destruct (bytes_eqb k (B "class")); [apply write_class_ok, Hc|intros []]. }
  match goal with |- context [concat ?x ++ _] => replace (concat x) with (flat_map attr_text al) by (symmetry; exact E) end. clear E.
  assert (H1 : forall n v, gname n -> ~ List.In DQ v -> exists al', flat_map attr_text al ++ quoted n v = flat_map attr_text al' /\ attrs_ok al').
  { intros n v Hn Hv. exists (al ++ [(n, v)]). rewrite flat_map_app. cbn [flat_map]. rewrite app_nil_r. split; [reflexivity|]. apply aok_app; [exact Ha|]. apply aok_cons; [exact Hn|exact Hv|constructor]. }
  assert (H0 : exists al', flat_map attr_text al ++ [] = flat_map attr_text al' /\ attrs_ok al') by (exists al; rewrite app_nil_r; auto).
  assert (Hif : forall b n v, gname n -> ~ List.In DQ v -> exists al', flat_map attr_text al ++ (if b : bool then [] else quoted n v) = flat_map attr_text al' /\ attrs_ok al').
  { intros [] n v Hn Hv; auto. }
  destruct c; try exact H0.
  - destruct k; try exact H0. apply Hif; [gn|apply write_class_ok, Hc].
  - apply Hif; [gn|apply text_dq].
  - destruct class as [|c0 class]; [exact H0|]. apply Hif; [gn|apply write_class_ok, Hc].
  - destruct has_section; [exact H0|]. apply Hif; [gn|apply text_dq].
  - apply Hif; [gn|apply write_class_ok, Hc].
Qed.
Lemma ol_attrs_ok nb start : exists al, ol_attrs nb start = flat_map attr_text al /\ attrs_ok al.
Proof.
  unfold ol_attrs.
  assert (H1 : exists al, (if N.ltb 1 start then quoted (B "start") (dec start) else []) = flat_map attr_text al /\ attrs_ok al).
  { destruct (N.ltb 1 start); [|exists []; split; [reflexivity|constructor]]. exists [(B "start", dec start)]. cbn [flat_map]. rewrite app_nil_r. split; [reflexivity|].
    apply aok_cons; [gn|apply plains_dq, dec_plain|constructor]. }
  destruct H1 as (al & E & Ha). match goal with |- context [?x ++ match nb with Decimal => _ | _ => _ end] => replace x with (flat_map attr_text al) by (symmetry; exact E) end.
  assert (H2 : forall v, forallb plainb v = true -> exists al', flat_map attr_text al ++ quoted (B "type") v = flat_map attr_text al' /\ attrs_ok al').
  { intros v Hv. exists (al ++ [(B "type", v)]). rewrite flat_map_app. cbn [flat_map]. rewrite app_nil_r. split; [reflexivity|]. apply aok_app; [exact Ha|]. apply aok_cons; [gn|apply plains_dq, plains_b, Hv|constructor]. }
  destruct nb; try (apply H2; reflexivity). exists al. rewrite app_nil_r. auto.
Qed.
