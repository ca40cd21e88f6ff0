(** * PropsIds: automatic heading ids (C11) and reference resolution (C13) *)
From Verif Require Import Base Lex Attr Block Inline Doc Lib PSafe SpecBlock PIds.
Local Open Scope nat_scope.

(** ** C11 *)
(** Whatever ids are in use, a new one is found; it is unused and not empty. *)
Theorem C11_fresh : forall used id, exists id', unique_id used id = Ok id' /\ ~ List.In id' used /\ id' <> [].
Proof. exact unique_id_ok. Qed.
Print Assumptions C11_fresh.

Definition pre_inv (used : list bytes) (heads : list heading) : Prop :=
  used = rev (map h_auto heads) /\ NoDup used /\ ~ List.In [] used.
Lemma pre_loop_inv f : forall src blocks s ap used defs heads s' defs' heads',
  pre_inv used heads -> pre_loop f src blocks s ap used defs heads = Ok (s', defs', heads') ->
  exists used', pre_inv used' heads'.
Proof.
  induction f as [|f IH]; intros src blocks s ap used defs heads s' defs' heads' Hi H; [discriminate|].
  cbn [pre_loop] in H. destruct blocks as [|e bl]; [injection H as _ _ <-; eauto|].
  destruct (bk e) as [[c|l]| |[c|l]|a|]; try (eapply IH; eauto; fail).
  - destruct l; try (eapply IH; eauto; fail).
    + apply bind_ok in H. destruct H as (a & _ & H). apply bind_ok in H. destruct H as (s1 & _ & H).
      apply bind_ok in H. destruct H as ([[[s2 id] text] bl'] & _ & H). apply bind_ok in H. destruct H as (id' & Eid & H).
      eapply IH; [|exact H]. destruct (unique_id_ok used id) as (id2 & E2 & H1 & H2). rewrite Eid in E2. injection E2 as <-.
      destruct Hi as (-> & Hn & H0). split; [rewrite map_app, rev_app_distr; reflexivity|]. split; [constructor; auto|].
      intros [E|E]; auto.
    + apply bind_ok in H. destruct H as (a & _ & H). apply bind_ok in H. destruct H as ([url bl'] & _ & H). eapply IH; eauto.
  - destruct c; eapply IH; eauto.
  - destruct a; eapply IH; eauto.
Qed.
(** In every document the automatic ids of the headings are pairwise different and none is empty. *)
Theorem C11_unique : forall src pp p, p_new src = Ok (pp, p) ->
  NoDup (map h_auto (pp_heads pp)) /\ ~ List.In [] (map h_auto (pp_heads pp)).
Proof.
  intros src pp p H. unfold p_new in H. apply bind_ok in H. destruct H as (blocks & _ & H).
  apply bind_ok in H. destruct H as ([pp' i] & H & E). injection E as -> _. unfold pre_new in H.
  apply bind_ok in H. destruct H as ([[s defs] heads] & H & E). injection E as <- _. cbn [pp_heads].
  assert (H0 : pre_inv [] []) by (split; [reflexivity|split; [constructor|auto]]).
  destruct (pre_loop_inv _ _ _ _ _ _ _ _ _ _ _ H0 H) as (used & -> & H1 & H2).
  split.
  - rewrite <- (rev_involutive (map h_auto heads)). apply NoDup_rev. auto.
  - intros Hin. apply H2, in_rev. rewrite rev_involutive. auto.
Qed.
Print Assumptions C11_unique.
(** Headings with the same text, and one without text. *)
Example C11_ex : match p_new (B "# a" ++ [NL; NL] ++ B "# a" ++ [NL; NL] ++ B "# !" ++ [NL; NL] ++ B "# a-1") with
  | Ok (pp, _) => map h_auto (pp_heads pp) = [B "a"; B "a-1"; B "s-1"; B "a-1-1"]
  | _ => False end.
Proof. vm_compute. reflexivity. Qed.

(** ** C13 *)
(** The result of resolving [label] with the definitions [defs] (in document order: label, URL and
    attributes) and the headings [heads]. *)
Inductive resolves (defs : list (bytes * (bytes * attrs))) (heads : list heading) (label : bytes)
  : bytes * span_link * attrs -> Prop :=
| rv_def d1 d2 u a : defs = d1 ++ (label, (u, a)) :: d2 -> ~ List.In label (map fst d2) ->
    resolves defs heads label (u, LReference, a)
| rv_head h : ~ List.In label (map fst defs) -> List.In h heads -> h_text h = label ->
    resolves defs heads label (B "#" ++ heading_id h, LReference, [])
| rv_none : ~ List.In label (map fst defs) -> (forall h, List.In h heads -> h_text h <> label) ->
    resolves defs heads label (label, LUnresolved, []).
Lemma find_rev_last (defs : list (bytes * (bytes * attrs))) label :
  match find (fun d => bytes_eqb (fst d) label) (rev defs) with
  | Some d => exists d1 d2, defs = d1 ++ d :: d2 /\ fst d = label /\ ~ List.In label (map fst d2)
  | None => ~ List.In label (map fst defs)
  end.
Proof.
  induction defs as [|d defs IH] using rev_ind; [cbn; auto|]. rewrite rev_app_distr. cbn [rev app find].
  destruct (bytes_eqb (fst d) label) eqn:E.
  - apply bytes_eqb_eq in E. exists defs, []. cbn. auto.
  - apply bytes_eqb_neq in E. destruct (find _ (rev defs)) as [d0|].
    + destruct IH as (d1 & d2 & -> & H1 & H2). exists d1, (d2 ++ [d]). rewrite <- app_assoc. split; [auto|]. split; [auto|].
      rewrite map_app, in_app_iff. cbn. intros [H|[H|[]]]; auto.
    + rewrite map_app, in_app_iff. cbn. intros [H|[H|[]]]; auto.
Qed.
Theorem C13_resolve : forall defs heads label,
  resolves defs heads label (resolve (PP (rev defs) heads (sort_heads heads)) label).
Proof.
  intros defs heads label. unfold resolve, lookup_def. cbn [pp_defs]. pose proof (find_rev_last defs label) as H.
  destruct (find _ (rev defs)) as [[l [u a]]|]; cbn [option_map snd].
  - destruct H as (d1 & d2 & -> & E & H). cbn in E. subst l. econstructor; eauto.
  - pose proof (by_tag_ok heads (rev defs) label) as Ht. destruct (heading_id_by_tag _ _) as [id|].
    + destruct Ht as (h & H1 & H2 & ->). apply rv_head; auto.
    + apply rv_none; auto.
Qed.
Print Assumptions C13_resolve.
(** Two definitions of one label and two headings of one text. *)
Example C13_ex :
  let h (t id : string) := Hd 0 (B id) (B t) None in
  let pp := PP (rev [(B "x", (B "u1", [])); (B "y", (B "u2", [])); (B "x", (B "u3", []))])
               [h "b" "b"; h "a" "a"; h "b" "b-1"; h "x" "x"]%string
               (sort_heads [h "b" "b"; h "a" "a"; h "b" "b-1"; h "x" "x"])%string in
  resolve pp (B "x") = (B "u3", LReference, []) /\ resolve pp (B "a") = (B "#a", LReference, []) /\
  resolve pp (B "z") = (B "z", LUnresolved, []).
Proof. vm_compute. auto. Qed.
