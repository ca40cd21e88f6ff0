(** * PHtml: proofs about the renderer: escaping, composition, footnotes, definitions *)
From Verif Require Import Base Attr Block Inline Doc Html Lib SpecHtml.
Local Open Scope nat_scope.

(** ** Escaping *)
Definition special (q : bool) (c : ascii) : bool :=
  beq c "<" || beq c ">" || beq c "&" || (q && beq c DQ).
Lemma entity_none q c : entity q c = None <-> special q c = false.
Proof. unfold entity, special. destruct (beq c "<"), (beq c ">"), (beq c "&"), (q && beq c DQ); simpl; split; congruence. Qed.

Lemma decode_other c s : c <> "&"%char -> decode (c :: s) = c :: decode s.
Proof. intros H. cbn [decode]. destruct c as [[] [] [] [] [] [] [] []]; try reflexivity. congruence. Qed.
Lemma decode_escape q s : decode (escape q s) = s.
Proof.
  induction s as [|c s IH]; [reflexivity|]. cbn [escape]. unfold entity.
  destruct (beq c "<") eqn:E1; [apply beq_eq in E1; subst c; cbn; rewrite IH; reflexivity|].
  destruct (beq c ">") eqn:E2; [apply beq_eq in E2; subst c; cbn; rewrite IH; reflexivity|].
  destruct (beq c "&") eqn:E3; [apply beq_eq in E3; subst c; cbn; rewrite IH; reflexivity|].
  destruct (q && beq c DQ) eqn:E4.
  - apply andb_prop in E4. destruct E4 as [_ E4]. apply beq_eq in E4; subst c; cbn; rewrite IH; reflexivity.
  - cbn [app]. rewrite decode_other by (apply beq_neq; auto). rewrite IH. reflexivity.
Qed.
Lemma escape_app q a b : escape q (a ++ b) = escape q a ++ escape q b.
Proof. induction a; cbn [escape app]; auto. rewrite IHa, app_assoc. reflexivity. Qed.

Lemma inert_nil q : inert q [].
Proof. repeat split; simpl; auto. intros [|] ? H; discriminate. Qed.
Lemma app_cons_split {A} (x y a b : list A) c :
  x ++ y = a ++ c :: b -> (exists b', x = a ++ c :: b' /\ b = b' ++ y) \/ (exists a', a = x ++ a' /\ y = a' ++ c :: b).
Proof.
  revert a; induction x as [|d x IH]; intros a H; [right; exists a; auto|].
  destruct a as [|e a]; cbn [app] in H.
  - injection H as <- <-. left. exists x. auto.
  - injection H as <- H. destruct (IH a H) as [(b' & -> & ->)|(a' & -> & ->)]; [left|right]; eexists; split; reflexivity.
Qed.
Lemma is_ref_app s t : is_ref s -> is_ref (s ++ t).
Proof. intros (r & H). exists (r ++ t). destruct H as [->|[->|[->| ->]]]; rewrite <- app_assoc; auto. Qed.
Lemma inert_app q a b : inert q a -> inert q b -> inert q (a ++ b).
Proof.
  intros (A1 & A2 & A3 & A4) (B1 & B2 & B3 & B4).
  split; [rewrite in_app_iff; tauto|]. split; [rewrite in_app_iff; tauto|].
  split; [intros Hq; rewrite in_app_iff; specialize (A3 Hq); specialize (B3 Hq); tauto|].
  intros x y H. apply app_cons_split in H. destruct H as [(b' & -> & ->)|(a' & -> & ->)].
  - rewrite app_comm_cons. apply is_ref_app. eapply A4; reflexivity.
  - eapply B4; reflexivity.
Qed.
Lemma inert_escape q s : inert q (escape q s).
Proof.
  induction s as [|c s IH]; [apply inert_nil|]. cbn [escape]. apply inert_app; auto. clear.
  assert (Href : forall e, (e = B "&lt;" \/ e = B "&gt;" \/ e = B "&amp;" \/ e = B "&quot;") -> inert q e).
  { intros e He. repeat split.
    - destruct He as [->|[->|[->| ->]]]; intros Hin; vm_compute in Hin; intuition discriminate.
    - destruct He as [->|[->|[->| ->]]]; intros Hin; vm_compute in Hin; intuition discriminate.
    - intros _. destruct He as [->|[->|[->| ->]]]; intros Hin; vm_compute in Hin; intuition discriminate.
    - intros a b E. exists [].
      destruct a as [|x a].
      + simpl in E. rewrite <- E, !app_nil_r. exact He.
      + exfalso. assert (Hin : List.In "&"%char (tl e)).
        { rewrite E. simpl. apply in_app_iff. right. left. reflexivity. }
        destruct He as [->|[->|[->| ->]]]; vm_compute in Hin; intuition discriminate. }
  unfold entity.
  destruct (beq c "<") eqn:E1; [apply Href; auto|].
  destruct (beq c ">") eqn:E2; [apply Href; auto|].
  destruct (beq c "&") eqn:E3; [apply Href; auto|].
  destruct (q && beq c DQ) eqn:E4; [apply Href; auto|].
  apply beq_neq in E1, E2, E3.
  repeat split; simpl; try (intuition congruence).
  - intros -> [->|[]]. rewrite beq_refl in E4. discriminate.
  - intros [|x a] b E; simpl in E; injection E; [congruence|]. intros E' _. destruct a; discriminate.
Qed.

(** ** Composition *)
Lemma render_events_app s a b :
  render_events s (a ++ b) =
  (let! (s1, o1) := render_events s a in let! (s2, o2) := render_events s1 b in Ok (s2, o1 ++ o2)).
Proof.
  revert s; induction a as [|e a IH]; intros s.
  - simpl. destruct (render_events s b) as [[s2 o2]| |]; reflexivity.
  - cbn [app render_events]. destruct (render_event s e) as [[s1 o1]| |]; cbn [bind]; auto.
    rewrite IH. destruct (render_events s1 a) as [[s2 o2]| |]; cbn [bind]; auto.
    destruct (render_events s2 b) as [[s3 o3]| |]; cbn [bind]; auto. rewrite app_assoc. reflexivity.
Qed.

(** ** A view of [render_body] with its cases separated *)
Definition rmain (epilogue : rstate -> res (rstate * bytes)) (s : rstate) (e : event) : res (rstate * bytes) :=
        let ret (s : rstate) (o : bytes) := Ok (r_set_first s false, o) in
        match e with
        | Start c a =>
            let! (s, o1) := (if is_block c
                             then w_block s (if is_block_container c then DUp else DSame)
                             else Ok (s, [])) in
            if Nat.ltb 0 (r_img s) && match c with Image _ _ => false | _ => true end then Ok (s, o1)
            else
              let! t := open_tag s c in
              match t with
              | inl s => Ok (s, o1)
              | inr (s, o2) =>
                  let! (s, o3) := close_open_tag s c in
                  ret s (o1 ++ o2 ++ write_attrs c a ++ o3)
              end
        | End_ c =>
            let! (s, o1) := (if is_block_container c then w_block s DDown else Ok (s, [])) in
            if Nat.ltb 0 (r_img s) && match c with Image _ _ => false | _ => true end then Ok (s, o1)
            else
              let! t := close_tag s c in
              match t with
              | inl (inl _) => let! (s, o) := epilogue s in Ok (s, o1 ++ o)
              | inl (inr s) => Ok (s, o1)
              | inr (s, o2) => ret s (o1 ++ o2)
              end
        | Str t =>
            ret s (match r_raw s with
                   | RawNone => if Nat.ltb 0 (r_img s) then write_attr t else write_text t
                   | RawHtml => t
                   | RawOther => []
                   end)
        | FootnoteReference label =>
            let (f, n) := foot_reference (r_foot s) label in
            let d := dec (N.of_nat n) in
            ret (r_set_foot s f)
                (if Nat.eqb (r_img s) 0
                 then B "<a id=" ++ [DQ] ++ B "fnref" ++ d ++ [DQ] ++ B " href=" ++ [DQ] ++ B "#fn" ++ d
                      ++ [DQ] ++ B " role=" ++ [DQ] ++ B "doc-noteref" ++ [DQ] ++ B "><sup>" ++ d
                      ++ B "</sup></a>"
                 else [])
        | Symbol sy => ret s (B ":" ++ sy ++ B ":")
        | LeftSingleQuote => ret s (B "‘")
        | RightSingleQuote => ret s (B "’")
        | LeftDoubleQuote => ret s (B "“")
        | RightDoubleQuote => ret s (B "”")
        | Ellipsis => ret s (B "…")
        | EnDash => ret s (B "–")
        | EmDash => ret s (B "—")
        | NonBreakingSpace => ret s (B "&nbsp;")
        | Hardbreak => let! (s, o) := w_block s DSame in ret s (B "<br>" ++ o)
        | Softbreak => ret s ([NL] ++ w_indent s)
        | Escape | Blankline | Attributes _ => ret s []
        | ThematicBreak a =>
            let! (s, o) := w_block s DSame in
            ret s (o ++ B "<hr" ++ concat (map (write_pair (fun _ => [])) (unique_pairs a)) ++ B ">")
        end.

Inductive ekind := KFStart (l : bytes) | KFEnd | KDStart | KDEnd | KOther.
Definition kind_of (e : event) : ekind :=
  match e with
  | Start (Footnote l) _ => KFStart l
  | End_ (Footnote _) => KFEnd
  | Start (LinkDefinition _) _ => KDStart
  | End_ (LinkDefinition _) => KDEnd
  | _ => KOther
  end.
Definition set_open (s : rstate) (o : list (bytes * list event)) : rstate :=
  r_set_foot s (FN o (f_refs (r_foot s)) (f_events (r_foot s)) (f_number (r_foot s))).
Definition rview epi (s : rstate) (e : event) : res (rstate * bytes) :=
  match kind_of e, f_open (r_foot s) with
  | KFStart l, o => Ok (set_open s ((l, []) :: o), [])
  | KFEnd, (l, evs) :: o =>
      Ok (r_set_foot s (FN o (f_refs (r_foot s)) ((l, evs) :: map_remove (f_events (r_foot s)) l) (f_number (r_foot s))), [])
  | _, (l, evs) :: o => Ok (set_open s ((l, evs ++ [e]) :: o), [])
  | KDStart, [] => Ok (r_set_ignore s true, [])
  | KDEnd, [] => Ok (r_set_ignore s false, [])
  | _, [] => if r_ignore s then Ok (s, []) else rmain epi s e
  end.
Lemma render_body_view epi s e : render_body epi s e = rview epi s e.
Proof.
  unfold render_body, rview, set_open, foot_end.
  destruct e as [c a|c| | | | | | | | | | | | | | | | |]; try destruct c; cbn [kind_of];
    destruct (f_open (r_foot s)) as [|[l evs] o] eqn:E; try rewrite E; reflexivity.
Qed.

(** ** The epilogue is only used by the end of the document *)
Definition doc_end (e : event) : bool := match e with End_ Document => true | _ => false end.

Lemma close_tag_doc s c u : close_tag s c = Ok (inl (inl u)) -> c = Document.
Proof.
  destruct c; simpl; try discriminate; auto; try (destruct head; discriminate).
  - destruct (tight_top s); discriminate.
  - intros H. destruct (usub _ _ _) as [n| |]; simpl in H; discriminate.
Qed.
Lemma rmain_epi epi1 epi2 s e : doc_end e = false -> rmain epi1 s e = rmain epi2 s e.
Proof.
  intros H. unfold rmain. destruct e; try reflexivity.
  destruct (if is_block_container c then w_block s DDown else Ok (s, [])) as [[s1 o1]| |]; cbn [bind]; auto.
  destruct (_ && _); auto. destruct (close_tag s1 c) as [[[u|s2]|[s2 o2]]| |] eqn:E; cbn [bind]; auto.
  apply close_tag_doc in E. subst c. discriminate.
Qed.
Lemma render_body_epi epi1 epi2 s e : doc_end e = false -> render_body epi1 s e = render_body epi2 s e.
Proof.
  intros H. rewrite !render_body_view. unfold rview. rewrite (rmain_epi epi1 epi2) by auto. reflexivity.
Qed.
Definition rbody (s : rstate) (e : event) : res (rstate * bytes) := rview (fun _ => Fuel) s e.
Lemma render_event_body s e : doc_end e = false -> render_event s e = rbody s e.
Proof. intros H. unfold render_event. cbn [render_f]. rewrite (render_body_epi _ (fun _ => Fuel)) by auto. apply render_body_view. Qed.
Lemma render_f_body n s e : doc_end e = false -> render_f (S n) s e = rbody s e.
Proof. intros H. cbn [render_f].  rewrite (render_body_epi _ (fun _ => Fuel)) by auto. apply render_body_view. Qed.
