(** * PropsAttr: theorems C15 to C20 (attributes) *)
From Verif Require Import Base Attr Lib SpecAttr PAttr PAttr2 PAttr3 PAttr4 PAttr5.
Local Open Scope nat_scope.
Local Open Scope char_scope.

(** ** C15: [Attributes::try_from] accepts exactly the attribute syntax. *)
Theorem C15_try_from_exact : forall s, utf8 s ->
  (forall a, attrs_try_from s = Ok (inl a) <-> exists t, stripped s t /\ gsets t a) /\
  (forall pos, attrs_try_from s = Ok (inr pos) -> exists t, stripped s t /\ pos <= length t /\
     viable (firstn pos t) /\ (pos < length t -> ~ viable (firstn (S pos) t))
     /\ (pos = length t -> forall a, ~ gsets t a)) /\
  exists r, attrs_try_from s = Ok r.
Proof. exact try_from_exact. Qed.

Example C15_ok : attrs_try_from (B "{.a #b k=v q=""x y"" %c%}{.d}  ")
  = Ok (inl [(KClass, B "a"); (KId, B "b"); (KPair (B "k"), B "v"); (KPair (B "q"), B "x y");
             (KComment, B "c"); (KClass, B "d")]).
Proof. vm_compute. reflexivity. Qed.
Example C15_err : attrs_try_from (B "{.a $}") = Ok (inr 4) /\ attrs_try_from (B "{.a") = Ok (inr 3)
  /\ attrs_try_from (B "{.a} x") = Ok (inr 4).
Proof. vm_compute. auto. Qed.
Lemma utf8_ascii s : forallb (fun c => N.leb (code c) 127) s = true -> utf8 s.
Proof.
  induction s as [|c s IH]; intros H; [constructor|]. simpl in H. apply andb_prop in H. destruct H as [H1 H2].
  apply u_1; auto. split; [lia|apply N.leb_le; auto].
Qed.
Example C15_utf8 : utf8 (B "{.a $}") /\ utf8 ["{"; "a"; "="; DQ; "195"; "169"; DQ; "}"].
Proof.
  split; [apply utf8_ascii; reflexivity|].
  repeat (apply u_1; [vm_compute; split; discriminate|]).
  apply u_2; [vm_compute; split; discriminate|vm_compute; split; discriminate|].
  repeat (apply u_1; [vm_compute; split; discriminate|]). apply u_nil.
Qed.

(** ** C16: the recogniser. *)
(** Splitting does not matter. *)
Theorem C16_split_independent : forall chunks,
  feed AStart chunks = validator_parse AStart (concat chunks).
Proof. intros. apply feed_concat. split; discriminate. Qed.
(** It finds the shortest prefix that is an attribute set; it rejects exactly when no continuation
    can start with one; otherwise it asks for more. *)
Theorem C16_recogniser_exact : forall s,
  exists r st, validator_parse AStart s = Ok (r, st) /\
  match r with
  | Some 0 => forall t j a, ~ gset (firstn j (s ++ t)) a
  | Some n => n <= length s /\ (exists a, gset (firstn n s) a) /\ (forall j a, j < n -> ~ gset (firstn j s) a)
  | None => (forall j a, ~ gset (firstn j s) a) /\ (exists t a, gset (s ++ t) a)
  end.
Proof. exact recogniser_spec. Qed.
(** The one-shot recogniser gives the same answer, 0 if undecided. *)
Theorem C16_valid_agrees : forall s,
  attr_valid s = (let! (r, _) := validator_parse AStart s in Ok (match r with Some k => k | None => 0 end)).
Proof. exact attr_valid_validator. Qed.
(** Whatever is recognised, the parser accepts, line by line (lines end in a newline), with the
    elements the grammar gives to the whole text: "should be valid" cannot fail. *)
Theorem C16_accepted_parses : forall lines l n st,
  Forall utf8 (lines ++ [l]) -> Forall (fun l => exists l', l = l' ++ [NL]) lines -> l <> [] ->
  validator_parse AStart (concat (lines ++ [l])) = Ok (Some n, st) -> n = length (concat (lines ++ [l])) ->
  exists a, gset (concat (lines ++ [l])) a /\
            parse_chunks (lines ++ [l]) (AP [] AStart) = Ok (AP a ADone).
Proof.
  intros lines l n st Hu. apply accepted_parses. eapply Forall_impl; [|exact Hu]. apply utf8_wfb.
Qed.
Example C16_case : let ls := [B "{.a k=""x" ++ [NL]] in let l := B "y"" #i}" in
  validator_parse AStart (concat (ls ++ [l])) = Ok (Some 15, ADone) /\ length (concat (ls ++ [l])) = 15
  /\ feed AStart (ls ++ [l]) = Ok (Some 15, ADone)
  /\ parse_chunks (ls ++ [l]) (AP [] AStart)
     = Ok (AP [(KClass, B "a"); (KPair (B "k"), B "x y"); (KId, B "i")] ADone).
Proof. vm_compute. auto. Qed.

(** ** C17: queries. *)
Theorem C17_contains_key : forall a key,
  contains_key a key = true <-> exists e, In e a /\ elem_key e = Some key.
Proof. exact contains_key_spec. Qed.
Theorem C17_unique_pairs : forall a,
  unique_pairs a = map (fun k => (k, combined k (values_of a k))) (keys_of a)
  /\ NoDup (keys_of a) /\ (forall k, In k (keys_of a) <-> contains_key a k = true).
Proof. intros a. split; [apply unique_pairs_spec|apply keys_of_spec]. Qed.
Theorem C17_get_value : forall a key,
  get_value a key =
  (if list_eq_dec ascii_dec key (B "class")
   then match join_sp (values_of a key) with [] => None | v => Some v end
   else match values_of a key with [] => None | vs => Some (last vs []) end).
Proof. exact get_value_spec. Qed.
Example C17_case :
  let a := [(KClass, B "x"); (KPair (B "k"), B "1"); (KComment, B "c"); (KClass, B "y"); (KPair (B "k"), B "2")] in
  unique_pairs a = [(B "class", B "x y"); (B "k", B "2")] /\ get_value a (B "class") = Some (B "x y")
  /\ get_value a (B "k") = Some (B "2") /\ get_value a (B "z") = None.
Proof. vm_compute. auto. Qed.

(** ** C18: display. *)
Theorem C18_display : forall raw, value_display raw = unescape raw.
Proof. exact display_unescape. Qed.
Example C18_case : value_display ["a"; BSL; BSL; BSL; DQ; BSL; "b"] = ["a"; BSL; DQ; BSL; "b"].
Proof. vm_compute. reflexivity. Qed.

(** ** C19: print and parse. The full claim (no condition on values) is refuted below: a value taken
    from a continuation line may end in a backslash, which then escapes the closing quote. *)
Theorem C19_debug_roundtrip : forall s a, utf8 s -> attrs_try_from s = Ok (inl a) ->
  (forall k v, In (KPair k, v) a -> Nat.even (trailing_bsl v) = true) ->
  attrs_try_from (attrs_debug a) = Ok (inl a).
Proof. exact debug_roundtrip. Qed.
Theorem C19_roundtrip_refuted : exists s a, utf8 s /\ attrs_try_from s = Ok (inl a) /\
  attrs_try_from (attrs_debug a) <> Ok (inl a).
Proof.
  exists (B "{a=""b" ++ [NL] ++ B "c\""}"), [(KPair (B "a"), B "b c\")].
  split; [apply utf8_ascii; reflexivity|]. split; [vm_compute; reflexivity|]. vm_compute. discriminate.
Qed.
Example C19_case : let a := [(KClass, B "x"); (KPair (B "k"), ["v"; BSL; DQ]); (KComment, B "c")] in
  attrs_try_from (attrs_debug a) = Ok (inl a)
  /\ forallb (fun e => Nat.even (trailing_bsl (snd e))) a = true.
Proof. vm_compute. auto. Qed.

(** ** C20: quoted values, without a backslash before the first line break ([C20_quoted_value]) and
    with one ([C20_escaped_break]: the text before it is dropped). *)
Lemma name_utf8 n : gname n -> utf8 n.
Proof.
  intros [_ H]. apply utf8_ascii. induction H; auto. simpl. rewrite IHForall, andb_true_r.
  apply name_char_is in H. revert H. all_bytes x.
Qed.
Theorem C20_quoted_value : forall k q ls s,
  gname k -> qtext q -> Forall qline ls ->
  s = "{" :: k ++ "=" :: DQ :: join_nl (q :: ls) ++ [DQ; "}"] -> utf8 s ->
  attrs_try_from s = Ok (inl [(KPair k, join_sp (q :: ls))]).
Proof.
  intros k q ls s Hk Hq Hl -> Hu. apply (proj1 (try_from_exact _ Hu)).
  set (x := join_nl (q :: ls)).
  assert (Hx : gquoted x (join_sp (q :: ls))).
  { destruct ls as [|l ls].
    - assert (E : join_sp [q] = q) by (destruct q; reflexivity). rewrite E. apply gq_line; auto.
    - apply gq_lines; auto. discriminate. }
  eexists. split.
  - exists []. rewrite app_nil_r. split; [reflexivity|]. split; [constructor|].
    change ("{" :: k ++ "=" :: DQ :: x ++ [DQ; "}"]) with (("{" :: k) ++ ["="; DQ] ++ x ++ [DQ] ++ ["}"]).
    rewrite !app_assoc, rev_app_distr. reflexivity.
  - apply gs_one. apply (gi_quoted k x (join_sp (q :: ls)) ["}"] []); auto. constructor.
Qed.
(** With a backslash directly before the first line break, the value is only what follows it. *)
Theorem C20_escaped_break : forall k q ls s,
  gname k -> qtext q -> ls <> [] -> Forall qline ls ->
  s = "{" :: k ++ "=" :: DQ :: q ++ BSL :: NL :: join_nl ls ++ [DQ; "}"] -> utf8 s ->
  attrs_try_from s = Ok (inl [(KPair k, join_sp ls)]).
Proof.
  intros k q ls s Hk Hq Hn Hl -> Hu. apply (proj1 (try_from_exact _ Hu)).
  set (x := q ++ BSL :: NL :: join_nl ls).
  assert (Hx : gquoted x (join_sp ls)) by (apply gq_esc_lines; auto).
  assert (E : q ++ BSL :: NL :: join_nl ls ++ [DQ; "}"] = x ++ [DQ; "}"]) by (unfold x; rewrite <- app_assoc; reflexivity).
  rewrite E. eexists. split.
  - exists []. rewrite app_nil_r. split; [reflexivity|]. split; [constructor|].
    change ("{" :: k ++ "=" :: DQ :: x ++ [DQ; "}"]) with (("{" :: k) ++ ["="; DQ] ++ x ++ [DQ] ++ ["}"]).
    rewrite !app_assoc, rev_app_distr. reflexivity.
  - apply gs_one. apply (gi_quoted k x (join_sp ls) ["}"] []); auto. constructor.
Qed.
Theorem C20_text_lost_refuted : exists s a, utf8 s /\
  s = B "{k=""abc\" ++ [NL] ++ B "def""}" /\
  attrs_try_from s = Ok (inl a) /\ a = [(KPair (B "k"), B "def")].
Proof.
  eexists. eexists. split; [|split; [reflexivity|split; [vm_compute; reflexivity|reflexivity]]].
  apply utf8_ascii; reflexivity.
Qed.
Example C20_case : attrs_try_from (B "{k=""a b" ++ [NL] ++ B "c""}") = Ok (inl [(KPair (B "k"), B "a b c")]).
Proof. vm_compute. reflexivity. Qed.

Print Assumptions C15_try_from_exact.
Print Assumptions C16_split_independent.
Print Assumptions C16_recogniser_exact.
Print Assumptions C16_valid_agrees.
Print Assumptions C16_accepted_parses.
Print Assumptions C17_contains_key.
Print Assumptions C17_unique_pairs.
Print Assumptions C17_get_value.
Print Assumptions C18_display.
Print Assumptions C19_debug_roundtrip.
Print Assumptions C19_roundtrip_refuted.
Print Assumptions C20_quoted_value.
Print Assumptions C20_escaped_break.
Print Assumptions C20_text_lost_refuted.
