(** * PCan11: inline content as a whole *)
From Verif Require Import Base Lex Attr Inline Block Doc Lib PSafe PCan1 PCan2 PCan3 PCan4 PCan5 PCan6 PCan7 PCan8 PCan9 PCan10.
From Verif Require Import SpecCanon.
Local Open Scope nat_scope.

(** ** Text in runs *)
Definition par (c : ascii) : Prop := (c = "(" \/ c = ")" \/ c = "|")%char.
Lemma text_byte_cases c : text_byte c = true -> plain c = true \/ (plain c = false /\ par c).
Proof. unfold par. destruct c as [[][][][][][][][]]; intros H; try discriminate H; auto. Qed.

Definition put (c : ascii) (l : list inl) : list inl :=
  if plain c then match l with
                  | TText x :: l' => if forallb plain x then TText (c :: x) :: l' else TText [c] :: l
                  | _ => TText [c] :: l
                  end
  else TText [c] :: l.
Fixpoint norm (l : list inl) : list inl :=
  match l with
  | [] => []
  | TText t :: l' => fold_right put (norm l') t
  | x :: l' => x :: norm l'
  end.

Lemma put_src c l : inls_src (put c l) = c :: inls_src l.
Proof. unfold put. destruct (plain c); [|reflexivity]. destruct l as [|[] l]; try reflexivity. destruct (forallb plain t); reflexivity. Qed.
Lemma norm_src l : inls_src (norm l) = inls_src l.
Proof.
  induction l as [|x l IH]; [reflexivity|]. destruct x; cbn [norm inls_src flat_map] in *; try (f_equal; exact IH).
  cbn [inl_src]. induction t as [|c t IHt]; cbn [fold_right app]; [exact IH|]. rewrite put_src. f_equal. exact IHt.
Qed.
Lemma put_evs c l post : join (flat_map inl_evs (put c l) ++ post) = join (Str [c] :: flat_map inl_evs l ++ post).
Proof.
  unfold put. destruct (plain c); [|reflexivity]. destruct l as [|[] l]; try reflexivity. destruct (forallb plain t); [|reflexivity].
  cbn [flat_map inl_evs app]. symmetry. apply join_str_str.
Qed.
Lemma norm_evs l post : forallb inl_ok l = true -> join (flat_map inl_evs (norm l) ++ post) = join (flat_map inl_evs l ++ post).
Proof.
  revert post. induction l as [|x l IH]; intros post H; [reflexivity|]. cbn in H. apply andb_prop in H as [Hx H].
  assert (G : join (flat_map inl_evs (x :: norm l) ++ post) = join (flat_map inl_evs (x :: l) ++ post)).
  { cbn [flat_map]. rewrite <- !app_assoc. apply join_app_r. apply IH, H. }
  destruct x; try exact G. rewrite <- G. clear G IH. cbn [norm flat_map inl_evs app]. apply andb_prop in Hx as [Hx _].
  destruct t as [|c t]; [discriminate Hx|]. clear Hx. revert c. induction t as [|c' t IHt]; intros c.
  - apply put_evs.
  - change (fold_right put (norm l) (c :: c' :: t)) with (put c (fold_right put (norm l) (c' :: t))).
    rewrite put_evs. rewrite (join_cons (Str [c]) _ _ (IHt c')). rewrite join_str_str. reflexivity.
Qed.

(** ** Normal lists *)
Definition noplain (l : list inl) : Prop := match l with TText x :: _ => forallb plain x = false | _ => True end.
Definition clashes (x : inl) (l : list inl) : bool := match l with y :: _ => clash x y | [] => false end.
Fixpoint normal (l : list inl) : Prop :=
  match l with
  | [] => True
  | x :: l' => match x with
               | TText t => (exists c, t = [c] /\ par c) \/ (forallb plain t = true /\ t <> [] /\ noplain l')
               | _ => inl_ok x = true
               end /\ clashes x l' = false /\ normal l'
  end.
Lemma par_not_plain c : par c -> plain c = false.
Proof. intros [->|[->| ->]]; reflexivity. Qed.
Lemma put_normal c l : text_byte c = true -> normal l -> normal (put c l).
Proof.
  intros Hc Hl. unfold put. destruct (text_byte_cases c Hc) as [Hp|[Hp Hq]]; rewrite Hp.
  - assert (G : noplain l -> normal (TText [c] :: l)).
    { intros G. cbn. split; [|split; [|exact Hl]].
      - right. rewrite Hp. split; [reflexivity|]. split; [discriminate|exact G].
      - destruct l as [|[] l]; reflexivity. }
    destruct l as [|[] l]; try (apply G; exact I).
    destruct (forallb plain t) eqn:Ht; [|apply G; exact Ht].
    destruct Hl as [[(c' & -> & K)|(K1 & K2 & K3)] [H2 H3]].
    + cbn in Ht. rewrite (par_not_plain _ K) in Ht. discriminate Ht.
    + cbn [normal]. split; [|split; auto]. right. cbn. rewrite Hp. split; [exact Ht|]. split; [discriminate|exact K3].
  - cbn. split; [left; eauto|]. split; [destruct l as [|[] l]; reflexivity|exact Hl].
Qed.
Lemma put_head c l : exists t l', put c l = TText t :: l'.
Proof. unfold put. destruct (plain c); [|eauto]. destruct l as [|[] l]; eauto. destruct (forallb plain t); eauto. Qed.
Lemma no_clash_cons x l : no_clash (x :: l) = negb (clashes x l) && no_clash l.
Proof. destruct l as [|y l]; reflexivity. Qed.
Lemma clash_text x t : clash x (TText t) = false.
Proof. destruct x; reflexivity. Qed.
Lemma clashes_norm x l : forallb inl_ok l = true -> clashes x l = false -> clashes x (norm l) = false.
Proof.
  intros Hl H. destruct l as [|y l]; [reflexivity|]. destruct y; try exact H.
  cbn [forallb inl_ok] in Hl. destruct t as [|c t]; [discriminate Hl|]. cbn [norm fold_right].
  destruct (put_head c (fold_right put (norm l) t)) as (t' & l' & ->). apply clash_text.
Qed.
Lemma norm_normal l : inls_ok l = true -> normal (norm l).
Proof.
  unfold inls_ok. intros H. apply andb_prop in H as [Hc H]. revert Hc H. induction l as [|x l IH]; intros Hc H; [exact I|].
  rewrite no_clash_cons in Hc. apply andb_prop in Hc as [Hc1 Hc2]. cbn [forallb] in H. apply andb_prop in H as [Hx H].
  apply negb_true_iff in Hc1. specialize (IH Hc2 H).
  assert (G : match x with TText _ => False | _ => True end -> normal (x :: norm l)).
  { intros G. cbn [normal]. split; [destruct x; [destruct G|exact Hx..]|]. split; [apply clashes_norm; auto|exact IH]. }
  destruct x; try (apply G; exact I). cbn [norm]. cbn [inl_ok] in Hx. apply andb_prop in Hx as [_ Hx]. clear - IH Hx.
  induction t as [|c t IHt]; [exact IH|]. cbn in *. apply andb_prop in Hx as [Hx1 Hx2]. apply put_normal; auto.
Qed.

Lemma put_uses w c l : existsb (uses w) (put c l) = existsb (uses w) l.
Proof. unfold put. destruct (plain c); [|reflexivity]. destruct l as [|[] l]; try reflexivity. destruct (forallb plain t); reflexivity. Qed.
Lemma norm_uses w l : existsb (uses w) (norm l) = existsb (uses w) l.
Proof.
  induction l as [|x l IH]; [reflexivity|]. destruct x; cbn [norm existsb]; try (rewrite IH; reflexivity).
  cbn [uses orb]. rewrite <- IH. induction t as [|c t IHt]; [reflexivity|]. cbn [fold_right]. rewrite put_uses. exact IHt.
Qed.
Lemma last_cons {A} (c : A) t d : last (c :: t) d = last t c.
Proof. revert c d. induction t as [|x t IH]; intros c d; [reflexivity|]. change (last (c :: x :: t) d) with (last (x :: t) d). rewrite (IH x d), (IH x c). reflexivity. Qed.
Lemma ends_cons x l : l <> [] -> ends_word (x :: l) = ends_word l.
Proof. destruct l; [congruence|reflexivity]. Qed.
Lemma put_ne c l : put c l <> [].
Proof. destruct (put_head c l) as (t & l' & ->). discriminate. Qed.
Lemma put_ends c l : ends_word l = true -> ends_word (put c l) = true.
Proof.
  intros H. assert (l <> []) by (intros ->; discriminate H). unfold put. destruct (plain c); [|rewrite ends_cons; auto].
  destruct l as [|x l]; [congruence|]. destruct x; try (rewrite ends_cons; auto).
  destruct (forallb plain t); [|rewrite ends_cons; auto]. destruct l as [|y l]; [|exact H].
  cbn [ends_word] in *. destruct t as [|d t]; [discriminate H|]. rewrite last_cons. exact H.
Qed.
Lemma norm_ends l : ends_word l = true -> ends_word (norm l) = true /\ norm l <> [].
Proof.
  induction l as [|x l IH]; [discriminate|]. destruct l as [|y l].
  - destruct x; try discriminate; try (intros _; split; [reflexivity|discriminate]). cbn [ends_word norm]. destruct t as [|c t]; [discriminate|]. revert c.
    induction t as [|d t IHt]; intros c H.
    + cbn [fold_right]. split; [|apply put_ne]. unfold put. destruct (plain c); exact H.
    + change (fold_right put [] (c :: d :: t)) with (put c (fold_right put [] (d :: t))). split; [|apply put_ne]. apply put_ends, IHt.
      rewrite last_cons in H. exact H.
  - intros H. rewrite ends_cons in H by discriminate. destruct (IH H) as [A1 A2].
    destruct x; try (cbn [norm]; split; [rewrite ends_cons by exact A2; exact A1|discriminate]).
    change (norm (TText t :: y :: l)) with (fold_right put (norm (y :: l)) t).
    induction t as [|c t IHt]; [auto|]. split; [apply put_ends, IHt|apply put_ne].
Qed.

(** ** What the text starts with *)
Inductive closer : bytes -> Prop :=
| cl_end : closer []
| cl_wrap w r : closer (wclose w ++ r)
| cl_link r : closer (B "](" ++ r).

(** No white space before a line break. *)
Definition tidy (R : bytes) : Prop :=
  forall a b, R = a ++ b -> hd_is is_blank b = true -> hd_is (fun c => beq c NL) (skipn (count_while is_blank b) b) = false.
Lemma tidy_app a b : tidy (a ++ b) -> tidy b.
Proof. intros H x y ->. apply (H (a ++ x) y). apply app_assoc. Qed.

(** The two first bytes of the rest, as far as they matter. *)
Definition starts (o : option inl) (R : bytes) : Prop :=
  match o with
  | None => closer R
  | Some (TText t) => exists c t' r, t = c :: t' /\ R = c :: r /\ text_byte c = true /\ (plain c = false \/ forallb plain t = true)
  | Some TSoft => exists r, R = NL :: r
  | Some THard | Some TNbsp | Some (TEsc _) => exists c r, R = BSL :: c :: r /\ is_ws c || is_punct c = true
  | Some (TDots _) => exists r, R = "."%char :: r
  | Some (TDash _) => exists r, R = "-"%char :: r
  | Some (TWrap w _) => exists r, R = wopen w ++ r
  | Some (TCode _) => exists r, R = "`"%char :: r
  | Some (TSym _) => exists r, R = ":"%char :: r
  | Some (TAuto _) => exists r, R = "<"%char :: r
  | Some (TNote _) | Some (TLink _ _) => exists r, R = "["%char :: r
  | Some (TImage _ _) => exists r, R = B "![" ++ r
  end.
Lemma plain_text c : plain c = true -> text_byte c = true.
Proof. destruct c as [[][][][][][][][]]; intros H; try discriminate H; reflexivity. Qed.
Lemma par_text c : par c -> text_byte c = true.
Proof. intros [->|[->| ->]]; reflexivity. Qed.
Lemma starts_src l T : normal l -> closer T -> starts (hd_error l) (inls_src l ++ T).
Proof.
  intros H HT. destruct l as [|x l]; [exact HT|]. destruct H as [H _]. cbn [inls_src flat_map hd_error].
  rewrite <- app_assoc. change (flat_map inl_src l) with (inls_src l). generalize (inls_src l ++ T). intros R.
  destruct x; cbn [starts inl_src]; try (eexists; reflexivity); try (rewrite <- app_assoc; eexists; reflexivity).
  - destruct H as [(c & -> & K)|(K1 & K2 & _)].
    + exists c, [], R. repeat split; auto using par_text, par_not_plain.
    + destruct t as [|c t]; [congruence|]. exists c, t, (t ++ R). repeat split; auto. cbn in K1. apply andb_prop in K1 as [K1 _]. apply plain_text, K1.
  - exists NL, R. split; reflexivity.
  - exists SP, R. split; reflexivity.
  - exists c, R. split; [reflexivity|]. cbn in H. apply andb_prop in H as [-> _]. apply orb_true_r.
  - destruct n; [discriminate H|]. eexists. cbn. reflexivity.
  - destruct n; [discriminate H|]. eexists. cbn. reflexivity.
Qed.
Lemma closer_cases T : closer T -> T = [] \/ (exists w r, T = wclose w ++ r) \/ (exists r, T = B "](" ++ r).
Proof. intros []; eauto. Qed.

Lemma kind_special c r : is_special c = true -> kind (c :: r) = Some (tk (fst (special_token false c r))).
Proof. intros H. unfold kind. rewrite scan_special by exact H. destruct (special_token false c r). reflexivity. Qed.
Lemma kind_text_byte c r : text_byte c = true -> kind (c :: r) = Some LText \/ kind (c :: r) = Some (LOpen Paren)
  \/ kind (c :: r) = Some (LClose Paren) \/ kind (c :: r) = Some (LSym Pipe).
Proof.
  intros H. destruct (text_byte_cases c H) as [Hp|[_ [->|[->| ->]]]].
  - left. unfold kind. rewrite scan_plain; [reflexivity|]. cbn. unfold plain in Hp. apply andb_prop in Hp as [-> _]. reflexivity.
  - right. left. rewrite kind_special by reflexivity. reflexivity.
  - right. right. left. rewrite kind_special by reflexivity. reflexivity.
  - right. right. right. rewrite kind_special by reflexivity. reflexivity.
Qed.
Lemma kind_bsl c r : is_ws c || is_punct c = true -> kind (BSL :: c :: r) = Some LEscape.
Proof. intros H. rewrite kind_special by reflexivity. unfold special_token. cbn [beq]. change (beq BSL NL) with false. change (beq BSL BSL) with true.
  cbn [hd_is]. rewrite H. reflexivity. Qed.
Ltac start_cases H :=
  match type of H with starts ?o ?R =>
    destruct o as [[?t| | | |?c|?n|?n|w ?l|?t|?n|?l|?u|?l ?d|?l ?d]|]; cbn [starts] in H;
    [ destruct H as (?c & ?t' & ?r & ?E & -> & ?Hb & ?Hp) | destruct H as (?r & ->) | destruct H as (?c & ?r & -> & ?Hb)
    | destruct H as (?c & ?r & -> & ?Hb) | destruct H as (?c & ?r & -> & ?Hb)
    | destruct H as (?r & ->) .. | destruct (closer_cases _ H) as [-> |[(?w & ?r & ->)|(?r & ->)]] ]
  end.
Ltac kinds := try (rewrite kind_bsl by assumption; discriminate);
  try (match goal with w : wrap |- _ => destruct w end);
  try (match goal with Hb : text_byte ?c = true |- context [kind (?c :: ?r)] =>
        destruct (kind_text_byte c r Hb) as [K|[K|[K|K]]]; rewrite K; discriminate end);
  try (unfold wopen, wclose, B; cbn -[kind]; rewrite kind_special by reflexivity; discriminate); try discriminate;
  try (unfold wopen, wclose, B; cbn -[kind]; rewrite kind_special by reflexivity;
    match goal with |- context [special_token false ?x ?y] => unfold special_token, maybe_close; destruct (hd_is (fun c => beq c "}") y) end; discriminate);
  try (rewrite kind_special by reflexivity; match goal with |- context [special_token _ _ ?r] => destruct (special_token false "-"%char r) eqn:E; cbn in E; destruct (hd_is (fun c => beq c "}") r); injection E as <- <- end; discriminate).
Lemma not_brace o R : starts o R -> kind R <> Some (LOpen Brace).
Proof. intros H. start_cases H; kinds. 
Qed.
Lemma not_brace_eq o R : starts o R -> match o with Some (TWrap WMark _) => False | _ => True end -> kind R <> Some (LOpen BraceEqual).
Proof. intros H G. start_cases H; try destruct w; try destruct G; kinds. Qed.
Lemma not_caret o R : starts o R -> kind R <> Some (LSym Caret).
Proof. intros H. start_cases H; kinds. Qed.
Lemma not_text o R : starts o R -> match o with Some (TText x) => forallb plain x = false | _ => True end ->
  kind R <> Some LText /\ hd_is (fun c => negb (is_special c)) R = false.
Proof.
  intros H G. start_cases H; try (split; [kinds|first [reflexivity|destruct w; reflexivity]]).
  - destruct Hp as [Hp|Hp]; [|congruence]. destruct (text_byte_cases c Hb) as [K|[_ K]]; [congruence|].
    destruct K as [->|[->| ->]]; (split; [kinds|reflexivity]); rewrite kind_special by reflexivity; discriminate.
Qed.
Definition no_head (c : ascii) (R : bytes) : Prop := hd_is (fun d => beq d c) R = false.
Lemma text_byte_no c d : text_byte c = true -> List.In d syntax_bytes -> beq c d = false.
Proof.
  intros H K. destruct (beq c d) eqn:E; [|reflexivity]. apply beq_eq in E as ->. unfold text_byte in H. apply negb_true_iff in H.
  assert (existsb (beq d) syntax_bytes = true) as G. { apply existsb_exists. exists d. split; [exact K|]. apply beq_refl. }
  congruence.
Qed.
Lemma hd_not o R d : starts o R -> List.In d (["`"; BSL; "."; "}"]%char) ->
  match o with
  | Some (TCode _) => beq d "`" = false
  | Some (TDots _) => beq d "." = false
  | Some THard | Some TNbsp | Some (TEsc _) => beq d BSL = false
  | _ => True end -> no_head d R.
Proof.
  intros H Hd G. unfold no_head.
  assert (Ht : forall c r, text_byte c = true -> hd_is (fun x => beq x d) (c :: r) = false).
  { intros c r Hc. cbn. apply text_byte_no; [exact Hc|]. cbn in *. intuition. }
  start_cases H; auto; cbn in Hd; destruct Hd as [<-|[<-|[<-|[<-|[]]]]]; try reflexivity; try discriminate G; try (destruct w; reflexivity); try (destruct w0; reflexivity).
Qed.
Lemma hyphen_none o R : starts o R -> match o with Some (TDash _) => False | _ => True end -> hyphen_run R = 0.
Proof.
  intros H G. start_cases H; try reflexivity; try destruct G; try (destruct w; reflexivity); try (destruct w0; reflexivity).
  cbn. rewrite (text_byte_no c "-" Hb) by (cbn; auto 30). reflexivity.
Qed.

Section Canon.
Variables (src : bytes) (pp : prepass).
Notation From := (PCan3.From src pp). Notation FromB := (PCan4.FromB src pp). Notation Out := (PCan2.Out src pp).

Lemma vbytes t : forallb (fun c => negb (beq c "`") && negb (beq c NL)) t = true -> forallb vbyte t = true.
Proof. auto. Qed.

Lemma nonempty_src x : inl_ok x = true -> 1 <= length (inl_src x).
Proof.
  destruct x; cbn [inl_ok inl_src]; intros H; try (cbn; lia); try (destruct w; cbn; lia).
  - destruct t; [discriminate H|]. cbn. lia.
  - rewrite repeat_length. apply Nat.leb_le in H. exact H.
  - rewrite repeat_length. apply Nat.leb_le in H. exact H.
Qed.

Lemma From_list n : forall b l T cow0 O E0 pre post ne,
  length (inls_src l) < n -> normal l -> closer T -> tidy (inls_src l ++ T) -> top O E0 pre -> nolink O ->
  (forall w, bare w = true -> existsb (uses w) l = true -> forall o, List.In o O -> fst o <> wrap_opener w) ->
  (b = true -> ends_word l = true) ->
  FromB b (LV false) cow0 O E0 T pre post true -> l <> [] ->
  From (LV false) cow0 O E0 (inls_src l ++ T) pre (flat_map inl_evs l ++ post) ne.
Proof.
  induction n as [|n IH]; intros b l T cow0 O E0 pre post ne Hn Hl HT Htidy Htop HO HU Hend HF Hne; [lia|].
  destruct l as [|x l]; [congruence|]. clear Hne. destruct Hl as (Hx & Hc & Hl).
  assert (Hlen : length (inls_src (x :: l)) = length (inl_src x) + length (inls_src l)) by (cbn [inls_src flat_map]; apply app_length).
  assert (Hsrc : inls_src (x :: l) ++ T = inl_src x ++ inls_src l ++ T) by (cbn [inls_src flat_map]; rewrite <- app_assoc; reflexivity).
  assert (Hevs : flat_map inl_evs (x :: l) ++ post = inl_evs x ++ flat_map inl_evs l ++ post) by (cbn [flat_map]; rewrite <- app_assoc; reflexivity).
  rewrite Hevs. rewrite Hsrc in *.
  (* the rest of the list *)
  set (b' := match l with [] => b | _ => false end).
  assert (HrestB : 1 <= length (inl_src x) -> FromB b' (LV false) cow0 O E0 (inls_src l ++ T) pre (flat_map inl_evs l ++ post) true).
  { intros Hx1. destruct l as [|y l]; [exact HF|]. unfold b'. apply From_B. apply (IH b); auto; [lia| | |discriminate].
    - eapply tidy_app, Htidy.
    - intros w' Hw Hu. apply HU; [exact Hw|]. cbn [existsb]. cbn [existsb] in Hu. rewrite Hu. apply orb_true_r. }
  assert (Hb' : match x with TText _ | TWrap _ _ | TCode _ | TSym _ | TNote _ | TAuto _ | TLink _ _ | TImage _ _ => True | _ => b' = false end).
  { unfold b'. destruct x; try exact I; (destruct l; [|reflexivity]); (destruct b; [specialize (Hend eq_refl); discriminate Hend|reflexivity]). }
  assert (Hrest : b' = false -> 1 <= length (inl_src x) -> From (LV false) cow0 O E0 (inls_src l ++ T) pre (flat_map inl_evs l ++ post) true).
  { intros Eb Hx1. specialize (HrestB Hx1). rewrite Eb in HrestB. apply FromB_From, HrestB. }
  pose proof (starts_src l T Hl HT) as Hst.
  destruct x; cbn [inl_src inl_evs] in *.
  - (* text *)
    assert (Ht : t <> []) by (destruct Hx as [(c & -> & _)|(_ & K & _)]; [discriminate|exact K]).
    assert (H1 : 1 <= length t) by (destruct t; [congruence|cbn; lia]).
    destruct Hx as [(c & -> & Hp)|(Hp & _ & Hnp)].
    + apply (From_par src pp b'); auto.
    + destruct (not_text _ _ Hst) as [K1 K2]; [destruct l as [|[] l]; exact Hnp|].
      apply (From_text src pp b'); auto. intros Eb. unfold b' in Eb. destruct l; [|discriminate Eb]. specialize (Hend Eb). cbn in Hend.
      destruct t as [|c t]; [congruence|]. rewrite last_cons. apply negb_true_iff, Hend.
  - apply (From_soft src pp); auto.
  - apply (From_bsl src pp); auto. apply (From_hard src pp); auto. apply Hrest; [exact Hb'|]. cbn. lia.
  - apply (From_bsl src pp); auto. apply (From_nbsp src pp); auto; [apply Hrest; [exact Hb'|cbn; lia]|].
    exact (Htidy [BSL] _ eq_refl eq_refl).
  - (* escapes *)
    apply andb_prop in Hx as [Hx1 Hx2]. apply negb_true_iff in Hx2.
    assert (Hcd : c <> "$"%char) by (intros ->; discriminate Hx2).
    assert (Hcb : is_ws c || is_punct c = true) by (rewrite Hx1; apply orb_true_r).
    assert (Hcase : noplain l \/ exists t l', l = TText t :: l' /\ forallb plain t = true).
    { destruct l as [|[] l]; cbn; auto. destruct (forallb plain t) eqn:Et; [right; exists t, l; auto|left; reflexivity]. }
    destruct Hcase as [Hnp|(t & l' & -> & Hp)].
    + apply (From_bsl src pp); auto. destruct (not_text _ _ Hst) as [K1 K2]; [destruct l as [|[] l]; exact Hnp|].
      apply (From_esc src pp false _ _ _ c []); auto; [|discriminate]. apply From_B, Hrest; [exact Hb'|]. cbn. lia.
    + destruct Hl as (Ht & Hc' & Hl').
      destruct Ht as [(c' & -> & K)|(_ & Ht & Hnp)]; [cbn in Hp; rewrite (par_not_plain _ K) in Hp; discriminate Hp|].
      assert (Hlt : Datatypes.length (inls_src l') < n).
      { rewrite Hlen in Hn. change (inls_src (TText t :: l')) with (t ++ inls_src l') in Hn. rewrite app_length in Hn. cbn [Datatypes.length] in Hn. lia. }
      clear Hlen Hn Hsrc Hevs.
      apply From_join with (post := Escape :: Str (c :: t) :: flat_map inl_evs l' ++ post).
      { cbn [flat_map inl_evs app]. apply join_cons. symmetry. apply (join_str_str [c] t). }
      cbn [inls_src flat_map inl_src app] in *. rewrite <- app_assoc in *. change (flat_map inl_src l') with (inls_src l') in *.
      apply (From_bsl src pp); auto.
      pose proof (starts_src l' T Hl' HT) as Hst'.
      destruct (not_text _ _ Hst') as [K1 K2]; [destruct l' as [|[] l']; exact Hnp|].
      destruct l' as [|y l'].
      * apply (From_esc src pp b _ _ _ c t); auto. intros Eb. specialize (Hend Eb). cbn in Hend. destruct t as [|d t]; [discriminate Hend|].
        rewrite !last_cons. apply negb_true_iff, Hend.
      * apply (From_esc src pp false _ _ _ c t); auto; [|discriminate]. apply From_B. apply (IH b); auto.
        -- eapply (tidy_app (BSL :: c :: t)); exact Htidy.
        -- discriminate.
  - apply (From_dots src pp); auto.
    + apply Hrest; [exact Hb'|]. rewrite repeat_length. apply Nat.leb_le in Hx. lia.
    + apply Nat.leb_le, Hx.
    + apply (hd_not _ _ _ Hst); [cbn; auto|]. destruct l as [|[] l]; try exact I; try reflexivity. discriminate Hc.
  - apply (From_dash src pp); auto.
    + apply Hrest; [exact Hb'|]. rewrite repeat_length. apply Nat.leb_le in Hx. lia.
    + apply Nat.leb_le, Hx.
    + apply (hyphen_none _ _ Hst). destruct l as [|[] l]; try exact I; try reflexivity. discriminate Hc.
    + apply (hd_not _ _ _ Hst); [cbn; auto|]. destruct l as [|[] l]; try exact I; try reflexivity.
  - (* wraps *)
    apply andb_prop in Hx as [Hx Hbare]. apply andb_prop in Hx as [Hx1 Hx3]. apply andb_prop in Hx1 as [Hx1 Hx2].
    assert (Hok : inls_ok l0 = true) by (unfold inls_ok; rewrite Hx2; exact Hx3).
    change (flat_map inl_src l0) with (inls_src l0) in *.
    rewrite <- !app_assoc in *. rewrite <- (norm_src l0) in *. cbn [app].
    apply From_join with (post := Start (wrap_cont w) [] :: flat_map inl_evs (norm l0) ++ End_ (wrap_cont w) :: flat_map inl_evs l ++ post).
    { rewrite <- app_assoc. apply join_cons. apply norm_evs, Hx3. }
    apply (From_wrap src pp b'); auto.
    + apply HrestB. clear. destruct w; cbn; lia.
    + apply (not_brace _ _ Hst).
    + apply (hd_not _ _ _ Hst); [cbn; auto|]. destruct l as [|[] l]; try exact I; try reflexivity.
    + intros Ew. unfold bare_ok in Hbare. rewrite Ew in Hbare. apply andb_prop in Hbare as [Hbare _]. apply andb_prop in Hbare as [Hb1 _]. split.
      * pose proof (starts_src (norm l0) (wclose w ++ inls_src l ++ T) (norm_normal _ Hok) (cl_wrap _ _)) as Hst0.
        assert (Hnb : no_head "}" (inls_src (norm l0) ++ wclose w ++ inls_src l ++ T)).
        { apply (hd_not _ _ _ Hst0); [cbn; auto|]. destruct (norm l0) as [|[] l1]; try exact I; try reflexivity. }
        rewrite norm_src in *. change (flat_map inl_src l0) with (inls_src l0) in Hb1. unfold no_head in Hnb.
        destruct (inls_src l0) as [|c0 r0]; [discriminate Hb1|]. cbn in *. rewrite Hnb. exact Hb1.
      * apply HU; [exact Ew|]. cbn [existsb uses]. destruct w; try discriminate Ew; reflexivity.
    + intros cow0' O' E0' pre' Htop' HO' HF'. apply (IH (bare w)); auto.
      * rewrite !app_length in Hlen. assert (1 <= length (wopen w)) by (clear; destruct w; cbn; lia). clear - Hlen Hn H. lia.
      * apply norm_normal, Hok.
      * apply cl_wrap.
      * eapply tidy_app, Htidy.
      * intros o Ho. apply (HO' (fun op => match op with OpLink _ _ _ => false | _ => true end = true)); auto. destruct w; reflexivity.
      * intros w' Hw' Hu o Ho. rewrite norm_uses in Hu. apply (HO' (fun op => op <> wrap_opener w')); auto.
        -- apply HU; [exact Hw'|]. cbn [existsb uses]. rewrite Hu, orb_true_r. reflexivity.
        -- intros K. assert (w = w') as <- by (destruct w', w; try discriminate Hw'; try discriminate K; reflexivity).
           unfold bare_ok in Hbare. rewrite Hw', Hu in Hbare. rewrite andb_false_r in Hbare. discriminate Hbare.
      * intros Ew. unfold bare_ok in Hbare. rewrite Ew in Hbare. apply andb_prop in Hbare as [Hbare _]. apply andb_prop in Hbare as [_ Hb1].
        apply norm_ends, Hb1.
      * intros K. destruct l0 as [|y l0]; [discriminate Hx1|]. apply (f_equal inls_src) in K. rewrite norm_src in K. cbn in Hx3.
        apply andb_prop in Hx3 as [Hx3 _]. apply nonempty_src in Hx3. cbn [inls_src flat_map] in K. destruct (inl_src y); [cbn in Hx3; lia|discriminate K].
  - (* verbatim *)
    apply andb_prop in Hx as [Hx1 Hx2]. rewrite <- !app_assoc in *.
    apply (From_code src pp b'); auto.
    + apply HrestB. unfold B. cbn. lia.
    + apply (not_brace _ _ Hst).
    + apply (not_brace_eq _ _ Hst). destruct l as [|[] l]; try exact I. destruct w; try exact I. discriminate Hc.
    + apply (hd_not _ _ _ Hst); [cbn; auto|]. destruct l as [|[] l]; try exact I; try reflexivity. discriminate Hc.
    + apply (hd_not _ _ _ Hst); [cbn; auto|]. destruct l as [|[] l]; try exact I; try reflexivity; discriminate Hc.
    + destruct t; [discriminate Hx1|discriminate].
  - apply andb_prop in Hx as [Hx1 Hx2]. rewrite <- !app_assoc in *. apply (From_sym src pp b'); auto. apply HrestB. unfold B. cbn. lia.
  - rewrite <- !app_assoc in *. apply (From_note src pp b'); auto. apply HrestB. unfold B. cbn. lia.
  - apply andb_prop in Hx as [Hx1 Hx2]. rewrite <- !app_assoc in *. apply (From_auto src pp b'); auto. apply HrestB. unfold B. cbn. lia.
  - (* links *)
    apply andb_prop in Hx as [Hx1 Hx3]. assert (Hok : inls_ok l0 = true) by exact Hx1. apply andb_prop in Hx1 as [Hx1 Hx2].
    rewrite <- !app_assoc in *. change (flat_map inl_src l0) with (inls_src l0) in *. rewrite <- (norm_src l0) in *. cbn [app].
    apply From_join with (post := Start (Link dest (LSpan LInline)) [] :: flat_map inl_evs (norm l0) ++ End_ (Link dest (LSpan LInline)) :: flat_map inl_evs l ++ post).
    { rewrite <- app_assoc. apply join_cons. apply norm_evs, Hx2. }
    assert (Hcl : closer (B "](" ++ dest ++ B ")" ++ inls_src l ++ T)) by apply cl_link.
    apply (From_link src pp b' false); auto.
    + apply HrestB. unfold B. cbn. lia.
    + apply (not_brace _ _ Hst).
    + eapply not_caret. apply starts_src; [apply norm_normal, Hok|exact Hcl].
    + intros cow0' O' E0' pre' Htop' HO' HF'. destruct (norm l0) as [|y l1] eqn:El; [exact HF'|]. rewrite <- El in *.
      apply (IH false); auto.
      * rewrite !app_length in Hlen. change (Datatypes.length (B "[")) with 1 in Hlen. lia.
      * apply norm_normal, Hok.
      * eapply tidy_app, Htidy.
      * intros o Ho. apply (HO' (fun op => match op with OpLink _ _ _ => false | _ => true end = true)); auto.
      * intros w' Hw' Hu o Ho. rewrite norm_uses in Hu. apply (HO' (fun op => op <> wrap_opener w')); auto.
        -- apply HU; [exact Hw'|]. cbn [existsb uses]. rewrite Hu. reflexivity.
        -- destruct w'; discriminate.
      * discriminate.
      * apply From_B, From_ne, HF'.
      * rewrite El. discriminate.
  - apply andb_prop in Hx as [Hx1 Hx3]. assert (Hok : inls_ok l0 = true) by exact Hx1. apply andb_prop in Hx1 as [Hx1 Hx2].
    rewrite <- !app_assoc in *. change (flat_map inl_src l0) with (inls_src l0) in *. rewrite <- (norm_src l0) in *. cbn [app].
    apply From_join with (post := Start (Image dest LInline) [] :: flat_map inl_evs (norm l0) ++ End_ (Image dest LInline) :: flat_map inl_evs l ++ post).
    { rewrite <- app_assoc. apply join_cons. apply norm_evs, Hx2. }
    assert (Hcl : closer (B "](" ++ dest ++ B ")" ++ inls_src l ++ T)) by apply cl_link.
    apply (From_link src pp b' true); auto.
    + apply HrestB. unfold B. cbn. lia.
    + apply (not_brace _ _ Hst).
    + eapply not_caret. apply starts_src; [apply norm_normal, Hok|exact Hcl].
    + intros cow0' O' E0' pre' Htop' HO' HF'. destruct (norm l0) as [|y l1] eqn:El; [exact HF'|]. rewrite <- El in *.
      apply (IH false); auto.
      * rewrite !app_length in Hlen. change (Datatypes.length (B "![")) with 2 in Hlen. lia.
      * apply norm_normal, Hok.
      * eapply tidy_app, Htidy.
      * intros o Ho. apply (HO' (fun op => match op with OpLink _ _ _ => false | _ => true end = true)); auto.
      * intros w' Hw' Hu o Ho. rewrite norm_uses in Hu. apply (HO' (fun op => op <> wrap_opener w')); auto.
        -- apply HU; [exact Hw'|]. cbn [existsb uses]. rewrite Hu. reflexivity.
        -- destruct w'; discriminate.
      * discriminate.
      * apply From_B, From_ne, HF'.
      * rewrite El. discriminate.
Qed.
End Canon.
