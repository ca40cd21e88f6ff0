(** * PCan3: states of the inline parser inside known text *)
From Verif Require Import Base Lex Attr Inline Block Doc Lib PSafe PCan1 PCan2.
From Verif Require Import SpecCanon.
Local Open Scope nat_scope.

(** ** Lines *)
Definition no_nl (r : bytes) : Prop := ~ List.In NL r.
Lemma no_nl_app a b : no_nl (a ++ b) <-> no_nl a /\ no_nl b.
Proof. unfold no_nl. rewrite in_app_iff. intuition. Qed.
Lemma no_nl_cons c b : no_nl (c :: b) <-> c <> NL /\ no_nl b.
Proof. unfold no_nl. cbn. intuition. Qed.

Lemma slice_prefix src p e x r : slice src (Sp p e) = x ++ r -> p <= e ->
  slice src (Sp p (p + length x)) = x /\ slice src (Sp (p + length x) e) = r /\ p + length x <= e.
Proof.
  intros H L. assert (length x + length r <= e - p) as Hl.
  { rewrite <- app_length, <- H. unfold slice. cbn. rewrite firstn_length. lia. }
  assert (K : slice src (Sp p (p + length x)) ++ slice src (Sp (p + length x) e) = x ++ r)
    by (rewrite slice_app; auto; lia).
  assert (length (slice src (Sp p (p + length x))) = length x) as Hx.
  { apply (f_equal (@length ascii)) in H. rewrite app_length in H. unfold slice in *. cbn [ss se] in *.
    rewrite firstn_length in *. lia. }
  destruct (app_eq_app _ _ _ _ K) as (l & [[A1 A2]|[A1 A2]]);
    pose proof (f_equal (@length ascii) A1) as A3; rewrite app_length in A3;
    assert (l = []) as -> by (apply length_zero_iff_nil; lia); rewrite ?app_nil_r in *; cbn [app] in *;
    (split; [congruence|split; [congruence|lia]]).
Qed.

Section Canon.
Variables (src : bytes) (pp : prepass).

Definition cat (ls : list span) : bytes := concat (map (slice src) ls).
(** Every line but the last ends in its only line break. *)
Fixpoint lns (r : bytes) (ls : list span) : Prop :=
  match ls with
  | [] => no_nl r
  | l :: ls' => (exists r0, r = r0 ++ [NL] /\ no_nl r0) /\ lns (slice src l) ls'
  end.

Lemma lns_skip x r ls : no_nl x -> lns (x ++ r) ls -> lns r ls.
Proof.
  intros Hx. destruct ls as [|l ls]; cbn.
  - rewrite no_nl_app. intuition.
  - intros [(r0 & E & H0) H]. split; [|exact H].
    destruct (rev_case r) as [-> |(r1 & c & ->)].
    + exfalso. rewrite app_nil_r in E. subst x. apply Hx. apply in_or_app. right. left. reflexivity.
    + rewrite app_assoc in E. apply app_inj_tail in E as [<- ->]. exists r1. split; [reflexivity|].
      apply no_nl_app in H0. tauto.
Qed.
Lemma lns_split x T r ls : lns r ls -> x ++ T = r ++ cat ls -> no_nl x ->
  exists r', r = x ++ r' /\ T = r' ++ cat ls /\ lns r' ls.
Proof.
  intros H E Hx. destruct (app_eq_app _ _ _ _ E) as (l & [[A1 A2]|[A1 A2]]).
  - destruct l as [|c l].
    + rewrite app_nil_r in A1. subst r. cbn in A2. exists []. rewrite app_nil_r. repeat split; auto.
      apply (lns_skip x); auto. rewrite app_nil_r. exact H.
    + exfalso. destruct ls as [|l1 ls]; [cbn in A2; discriminate A2|].
      cbn in H. destruct H as [(r0 & -> & H0) _]. subst x. apply Hx. rewrite <- app_assoc. apply in_or_app. right. left. reflexivity.
  - subst r. exists l. repeat split; auto. apply (lns_skip x); auto.
Qed.
Lemma lns_nil ls : lns [] ls -> ls = [].
Proof. destruct ls; cbn; auto. intros [(r0 & E & _) _]. destruct r0; discriminate E. Qed.
Lemma lns_hd r ls f : lns r ls -> hd_is f (r ++ cat ls) = hd_is f r.
Proof. intros H. destruct r as [|c r]; [|reflexivity]. apply lns_nil in H. subst. reflexivity. Qed.
(** At a line break, the line is finished. *)
Lemma lns_nl r ls T : lns r ls -> NL :: T = r ++ cat ls ->
  exists l ls', ls = l :: ls' /\ r = [NL] /\ T = cat ls /\ lns (slice src l) ls'.
Proof.
  intros H E. destruct ls as [|l ls].
  - exfalso. cbn in *. rewrite app_nil_r in E. subst r. apply H. left. reflexivity.
  - cbn in H. destruct H as [(r0 & -> & H0) H]. exists l, ls. destruct r0 as [|c r0].
    + cbn in E. injection E as ->. repeat split; auto.
    + cbn in E. injection E as <- E. exfalso. apply H0. left. reflexivity.
Qed.

(** ** States *)
Definition mk lx cpl line sp O E cow : istate := IS (In lx cpl line [] sp) O E None None cow [].
Definition pos (s : istate) : nat := se (s_span s).
(** The parser stands before the text [T], which is the rest of the line and the lines [ls]. *)
Definition St (L : lexer -> bytes -> Prop) (O : list (opener * nat)) (E : list iev) (cow : list bytes) (s : istate) (ls : list span) (T : bytes) : Prop :=
  exists lx line sp r,
    s = IS (In lx (is_nil ls) line [] sp) O E None None cow [] /\ L lx r
    /\ slice src (Sp (se sp) (se line)) = r /\ ss line <= se sp /\ se sp <= se line
    /\ lns r ls /\ T = r ++ cat ls.

(** A last text event does not end in a dollar sign. *)
Definition lastok (E : list iev) : Prop :=
  match last_opt E with
  | Some e => match ik e with
              | IStr => ss (isp e) <= se (isp e) /\ nth_error src (se (isp e) - 1) <> Some "$"%char
              | IPlaceholder => False
              | _ => True
              end
  | None => True
  end.
Lemma lastok_push E e : match ik e with
                        | IStr => ss (isp e) <= se (isp e) /\ nth_error src (se (isp e) - 1) <> Some "$"%char
                        | IPlaceholder => False
                        | _ => True
                        end -> lastok (E ++ [e]).
Proof. unfold lastok. rewrite last_opt_app. auto. Qed.

(** From every state before [T] with openers [O] and events [E0 ++ R], the events handed out are
    those of [R] between [pre] and [post]. *)
Definition From (L : lexer -> bytes -> Prop) (cow0 : list bytes) (O : list (opener * nat)) (E0 : list iev) (T : bytes)
           (pre post : list event) (ne : bool) : Prop :=
  forall s ls R D w,
    St L O (E0 ++ R) (cow0 ++ w) s ls T -> Den src pp (cow0 ++ w) R D -> chain (E0 ++ R) (pos s) -> lastok (E0 ++ R) ->
    (O <> [] -> ne = true -> R <> []) ->
    Out src pp s ls (join (pre ++ D ++ post)).

Lemma From_ne L cow0 O E0 T pre post ne : From L cow0 O E0 T pre post false -> From L cow0 O E0 T pre post ne.
Proof. intros H s ls R D w H1 H2 H3 H4 H5. eapply H; eauto. discriminate. Qed.
Lemma From_join L cow0 O E0 T pre post post' ne : join post = join post' ->
  From L cow0 O E0 T pre post ne -> From L cow0 O E0 T pre post' ne.
Proof.
  intros E H s ls R D w H1 H2 H3 H4 H5. rewrite (join_app_r pre (D ++ post') (D ++ post)); [eapply H; eauto|].
  apply join_app_r. auto.
Qed.

(** The buffer may be assumed to be waiting for more. *)
Lemma From_wlog L cow0 O E0 T pre post ne : (O = [] -> E0 = [] /\ pre = []) ->
  (forall s ls R D w, must_buffer s = true ->
    St L O (E0 ++ R) (cow0 ++ w) s ls T -> Den src pp (cow0 ++ w) R D -> chain (E0 ++ R) (pos s) -> lastok (E0 ++ R) ->
    (O <> [] -> ne = true -> R <> []) ->
    Out src pp s ls (join (pre ++ D ++ post))) ->
  From L cow0 O E0 T pre post ne.
Proof.
  intros Htop H s ls R D w H1 H2 H3 H4 H5. destruct (must_buffer s) eqn:M; [eauto|].
  destruct H1 as (lx & line & sp & r & -> & A2 & A3 & A4 & A5 & A6 & A7).
  assert (O = []) as HO. { destruct O; [reflexivity|]. unfold must_buffer in M. cbn in M. rewrite orb_true_r in M. discriminate M. }
  destruct (Htop HO) as [-> ->]. subst O. cbn [app] in *.
  eapply (flush_mid src pp lx (is_nil ls) line (se sp)); eauto.
  - intros A e ->. unfold must_buffer in M. cbn [s_events s_openers s_verb s_attr] in M. rewrite last_opt_app in M.
    unfold lastok in H4. rewrite last_opt_app in H4. unfold strl. unfold is_istr in M. destruct (ik e); auto; try contradiction.
    rewrite !orb_true_r in M. discriminate M.
  - intros sp' Hp. change (join post) with (join ([] ++ [] ++ post)). apply (H _ _ [] [] w); cbn [app]; auto.
    + exists lx, line, sp', r. rewrite Hp. repeat split; auto.
    + constructor.
    + exact I.
    + exact I.
Qed.

(** ** The next line *)
Lemma chain_any E q q' : (forall A e, E = A ++ [e] -> strl e = false) -> chain E q -> chain E q'.
Proof.
  induction E as [|a E IH]; intros H C; [exact I|]. destruct C as [C1 C2]. split.
  - destruct E; auto. intros X. rewrite (H [] a eq_refl) in X. discriminate X.
  - apply IH; auto. intros A e ->. apply (H (a :: A) e). reflexivity.
Qed.

Lemma From_line cow0 O E0 T pre post ne : (O = [] -> E0 = [] /\ pre = []) -> From (LV false) cow0 O E0 T pre post ne ->
  forall lx line sp R D w l ls,
    LX false false lx [] -> lns (slice src l) ls -> T = cat (l :: ls) ->
    Den src pp (cow0 ++ w) R D -> chain (E0 ++ R) (se sp) -> (forall A e, E0 ++ R = A ++ [e] -> strl e = false) ->
    (O <> [] -> ne = true -> R <> []) ->
    Out src pp (IS (In lx false line [] sp) O (E0 ++ R) None None (cow0 ++ w) []) (l :: ls) (join (pre ++ D ++ post)).
Proof.
  intros Htop HF.
  (* with a full buffer *)
  assert (Main : forall lx line sp R D w l ls,
    LX false false lx [] -> lns (slice src l) ls -> T = cat (l :: ls) ->
    Den src pp (cow0 ++ w) R D -> chain (E0 ++ R) (se sp) -> (forall A e, E0 ++ R = A ++ [e] -> strl e = false) ->
    (O <> [] -> ne = true -> R <> []) ->
    must_buffer (IS (In lx false line [] sp) O (E0 ++ R) None None (cow0 ++ w) []) = true ->
    Out src pp (IS (In lx false line [] sp) O (E0 ++ R) None None (cow0 ++ w) []) (l :: ls) (join (pre ++ D ++ post))).
  { intros lx line sp R D w l ls HL Hl HT HD HC Hlast Hne M.
    eapply (Out_feed src pp) with (s1 := IS (In lx false line [] (Sp (se sp) (se sp))) O (E0 ++ R) None None (cow0 ++ w) []).
    - intros [|n] nf; [apply pc_fuel|]. destruct nf as [|nf]; [apply pc_fuel|]. cbn [i_next fill]. rewrite M, pe_eq, (lex_end_same _ _ HL). cbn. apply pc_ok. reflexivity.
    - intros s2 E. unfold i_feed_line, in_feed_line in E. cbn [s_in i_complete negb assert bind in_set_complete i_lex i_ahead] in E.
      rewrite (lex_ahead_is false lx []) in E by (left; exact HL). cbn [bind] in E.
      apply bind_ok in E as (i & E1 & E2). unfold set_current_line in E1. apply bind_ok in E1 as (b & E3 & E4).
      apply bsub_ok in E3 as (L1 & L2 & ->). cbn in E4, E2. injection E4 as <-. injection E2 as <-.
      eapply HF with (w := w); eauto.
      + exists (lex_new (slice src l)), l, (Sp (ss l) (ss l)), (slice src l). cbn [s_set_in].
        split; [reflexivity|]. split; [left; apply LX_new|]. cbn. destruct l as [a b]. cbn in *. repeat split; auto.
      + eapply chain_any; eauto.
      + unfold lastok. destruct (last_opt (E0 ++ R)) as [e|] eqn:El; [|exact I]. apply last_opt_some in El as (A & El).
        specialize (Hlast _ _ El). unfold strl in Hlast. destruct (ik e); auto; discriminate. }
  intros lx line sp R D w l ls HL Hl HT HD HC Hlast Hne.
  destruct (must_buffer (IS (In lx false line [] sp) O (E0 ++ R) None None (cow0 ++ w) [])) eqn:M; [apply Main; auto|].
  assert (O = []) as HO. { destruct O; [reflexivity|]. unfold must_buffer in M. cbn in M. rewrite orb_true_r in M. discriminate M. }
  destruct (Htop HO) as [-> ->]. subst O. cbn [app] in *.
  eapply (flush_mid src pp lx false line (se sp)); eauto.
  intros sp' Hp. change (join post) with (join ([] ++ [] ++ post)).
  apply (Main lx line sp' [] [] w l ls HL Hl HT); cbn [app]; auto.
  - constructor.
  - exact I.
  - intros A e K. destruct A; discriminate K.
Qed.

(** ** Steps *)
Definition result (r : res (option flow * istate)) : res (flow * istate) :=
  let! (o, s) := r in Ok (match o with Some f => (f, s) | None => (FContinue, push s IStr) end).

Definition here (ls : list span) (T r' : bytes) (line : span) (p : nat) (x : bytes) : Prop :=
  T = r' ++ cat ls /\ lns r' ls /\ slice src (Sp p (p + length x)) = x
  /\ slice src (Sp (p + length x) (se line)) = r' /\ ss line <= p /\ p + length x <= se line.

Lemma step_gen L L' O E cow s ls x T t X :
  St L O E cow s ls (x ++ T) -> must_buffer s = true -> no_nl x -> tlen t = length x ->
  (forall lx r', L lx (x ++ r') -> T = r' ++ cat ls -> lns r' ls ->
     pc (fun y => fst y = Some t /\ L' (snd y) r') (lex_next lx)) ->
  (forall l' line r', L' l' r' -> here ls T r' line (pos s) x ->
     pc (fun y => fst y = FContinue /\ Out src pp (snd y) ls X)
        (result (handle src (IS (In l' (is_nil ls) line [] (Sp (pos s) (pos s + length x))) O E None None cow []) t))) ->
  Out src pp s ls X.
Proof.
  intros (lx & line & sp & r & -> & A2 & A3 & A4 & A5 & A6 & A7) M Hx Hl Hlex H.
  destruct (lns_split _ _ _ _ A6 A7 Hx) as (r' & Er & ET & Hr).
  destruct (slice_prefix _ _ _ _ _ (eq_trans A3 Er) A5) as (B1 & B2 & B3).
  apply Out_step; [exact M|]. rewrite pe_eq. rewrite Er in A2.
  eapply pc_bind; [apply (Hlex lx r' A2 ET Hr)|].
  intros [t1 l'] [C1 C2]. cbn in C1. subst t1. cbn [snd] in C2. rewrite Hl in *.
  apply (H l' line r' C2). repeat split; auto.
Qed.

(** A token other than text. *)
Lemma step_tok O E cow s ls x T t e X :
  St (LV false) O E cow s ls (x ++ T) -> must_buffer s = true -> no_nl x -> is_text (Some t) = false -> tlen t = length x ->
  (forall r', T = r' ++ cat ls -> lns r' ls -> scan false false (x ++ r') = (Some t, e)) ->
  (forall l' line r', LX false e l' r' -> here ls T r' line (pos s) x ->
     pc (fun y => fst y = FContinue /\ Out src pp (snd y) ls X)
        (result (handle src (IS (In l' (is_nil ls) line [] (Sp (pos s) (pos s + length x))) O E None None cow []) t))) ->
  Out src pp s ls X.
Proof.
  intros HS M Hx Ht Hl Hscan H. eapply step_gen; eauto.
  intros lx r' A2 ET Hr.
  destruct (lex_special _ _ _ _ _ A2 (Hscan r' ET Hr) Ht) as (l' & C1 & C2).
  rewrite C1. apply pc_ok. cbn [fst snd]. rewrite Hl, skipn_app, skipn_all, Nat.sub_diag in C2. split; [reflexivity|exact C2].
Qed.

(** A run of text. *)
Lemma step_text O E cow s ls x T X :
  St (LV false) O E cow s ls (x ++ T) -> must_buffer s = true -> no_nl x ->
  forallb (fun c => negb (is_special c)) x = true -> x <> [] ->
  (forall r', T = r' ++ cat ls -> lns r' ls -> is_text (fst (scan false false r')) = false) ->
  hd_is (fun c => negb (is_special c)) T = false ->
  (forall l' line r', LV false l' r' -> here ls T r' line (pos s) x ->
     pc (fun y => fst y = FContinue /\ Out src pp (snd y) ls X)
        (result (handle src (IS (In l' (is_nil ls) line [] (Sp (pos s) (pos s + length x))) O E None None cow [])
                            (Tok LText (length x))))) ->
  Out src pp s ls X.
Proof.
  intros HS M Hx Hp Hne Hnt Hhd H. eapply step_gen; eauto; [reflexivity|].
  intros lx r' A2 ET Hr.
  assert (Hc : count_while (fun c => negb (is_special c)) (x ++ r') = length x).
  { rewrite ET, lns_hd in Hhd by exact Hr. destruct r' as [|c r'].
    - rewrite app_nil_r. apply count_while_all. exact Hp.
    - cbn in Hhd. rewrite count_while_stop; auto. }
  assert (Hs : scan false false (x ++ r') = (Some (Tok LText (length x)), false)).
  { rewrite scan_plain; [rewrite Hc; reflexivity|]. destruct x; [congruence|]. cbn in *. apply andb_prop in Hp as [Hp _]. exact Hp. }
  eapply pc_weaken.
  - eapply lex_text; [exact A2|exact Hs|reflexivity|]. rewrite skipn_app, skipn_all, Nat.sub_diag. cbn [app skipn]. auto.
  - intros y [C1 C2]. rewrite skipn_app, skipn_all, Nat.sub_diag in C2. auto.
Qed.

(** A line break. *)
Lemma step_nl L O E cow s ls T t X :
  St L O E cow s ls (NL :: T) -> must_buffer s = true -> tlen t = 1 ->
  (forall lx, L lx [NL] -> exists l', lex_next lx = Ok (Some t, l') /\ LX false false l' []) ->
  (forall l' line l ls', LX false false l' [] -> ls = l :: ls' -> T = cat ls -> lns (slice src l) ls' ->
     pc (fun y => fst y = FContinue /\ Out src pp (snd y) ls X)
        (result (handle src (IS (In l' false line [] (Sp (pos s) (pos s + 1))) O E None None cow []) t))) ->
  Out src pp s ls X.
Proof.
  intros (lx & line & sp & r & -> & A2 & A3 & A4 & A5 & A6 & A7) M Hl Hlex H.
  destruct (lns_nl _ _ _ A6 A7) as (l & ls' & -> & -> & -> & Hr).
  apply Out_step; [exact M|]. rewrite pe_eq.
  destruct (Hlex lx A2) as (l' & C1 & C2). rewrite C1. cbn [bind]. rewrite Hl.
  apply (H l' line l ls'); auto.
Qed.

Lemma St_mk O E cow ls T r' line p x (L : lexer -> bytes -> Prop) l' a : here ls T r' line p x -> L l' r' ->
  St L O E cow (IS (In l' (is_nil ls) line [] (Sp a (p + length x))) O E None None cow []) ls T.
Proof.
  intros (H1 & H2 & H3 & H4 & H5 & H6) HL. exists l', line, (Sp a (p + length x)), r'. cbn. repeat split; auto. lia.
Qed.

Lemma rpos_none k (O : list (opener * nat)) : (forall o, List.In o O -> closed_by (fst o) k = false) ->
  rposition (fun o => closed_by (fst o) k) O = None.
Proof.
  induction O as [|o O IH]; intros H; [reflexivity|]. cbn. rewrite IH by (intros; apply H; right; auto).
  rewrite H by (left; auto). reflexivity.
Qed.
Lemma rpos_last {A} (f : A -> bool) l x : f x = true -> rposition f (l ++ [x]) = Some (length l).
Proof. intros H. induction l as [|y l IH]; cbn; [rewrite H; reflexivity|]. rewrite IH. reflexivity. Qed.
End Canon.
