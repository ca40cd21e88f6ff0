(** * PAttr3: exactness, error positions, independence of splitting *)
From Verif Require Import Base Attr Lib SpecAttr PAttr PAttr2.
Local Open Scope nat_scope.
Local Open Scope char_scope.

Ltac lv := split; discriminate.

Lemma gsep_app s r : gsep s -> gsep (s ++ r).
Proof. destruct s; simpl; tauto. Qed.

(** ** Completeness *)
Lemma gitems_acc s a1 : gitems s a1 -> forall r pend a, acc (s ++ r) AWhitespace pend a = after r (a ++ a1).
Proof.
  induction 1; intros r pend b.
  - simpl app. rewrite acc_close by reflexivity. simpl. rewrite app_nil_r. reflexivity.
  - simpl app. assert (E : pstep AWhitespace c = AWhitespace) by (revert H; all_bytes c).
    rewrite (acc_to c _ _ _ _ AWhitespace); [|auto|lv].
    unfold nattr. rewrite E, skips_same. apply IHgitems.
  - cbn [app]. rewrite (acc_to "." _ _ _ _ AClassFirst); [|reflexivity|lv].
    rewrite <- app_assoc. rewrite (acc_name1 n _ AClassFirst AClass) by auto.
    rewrite acc_sep; [|exact I|apply gsep_app; auto].
    rewrite IHgitems. rewrite nattr_pl by reflexivity. simpl pl. rewrite <- app_assoc. reflexivity.
  - cbn [app]. rewrite (acc_to "#" _ _ _ _ AIdentifierFirst); [|reflexivity|lv].
    rewrite <- app_assoc. rewrite (acc_name1 n _ AIdentifierFirst AIdentifier) by auto.
    rewrite acc_sep; [|exact I|apply gsep_app; auto].
    rewrite IHgitems. rewrite nattr_pl by reflexivity. simpl pl. rewrite <- app_assoc. reflexivity.
  - rewrite <- app_assoc. cbn [app]. rewrite <- app_assoc.
    rewrite (acc_name1 k _ AWhitespace AKey) by auto.
    rewrite (acc_to "=" _ _ _ _ AValueFirst); [|reflexivity|lv].
    rewrite (acc_name1 v _ AValueFirst AValue) by auto.
    rewrite acc_sep; [|exact I|apply gsep_app; auto].
    rewrite IHgitems. rewrite nattr_pl by reflexivity. simpl pl. rewrite updl_app, <- app_assoc.
    destruct v; reflexivity.
  - rewrite <- app_assoc. cbn [app]. rewrite <- app_assoc.
    rewrite (acc_name1 k _ AWhitespace AKey) by auto.
    rewrite (acc_to "=" _ _ _ _ AValueFirst); [|reflexivity|lv].
    rewrite (acc_to DQ _ _ _ _ AValueQuoted); [|reflexivity|lv].
    rewrite nattr_pl, npend_1 by reflexivity. rewrite (nattr_pl AKey) by reflexivity. simpl pl. cbn [app].
    rewrite (acc_quoted _ _ H0). rewrite IHgitems, <- app_assoc. reflexivity.
  - cbn [app]. rewrite <- app_assoc. cbn [app].
    rewrite (acc_to "%" _ _ _ _ ACommentFirst); [|reflexivity|lv].
    rewrite acc_comment_first by auto. unfold term. simpl (beq _ _). cbv iota.
    rewrite IHgitems, <- app_assoc. reflexivity.
  - cbn [app]. rewrite <- app_assoc. cbn [app].
    rewrite (acc_to "%" _ _ _ _ ACommentFirst); [|reflexivity|lv].
    rewrite acc_comment_first by auto. reflexivity.
Qed.

Lemma after_open s a : after ("{" :: s) a = acc s AWhitespace ["{"] a.
Proof.
  unfold after. simpl (beq _ _). cbv iota.
  rewrite (acc_to "{" _ _ _ _ AWhitespace); [|reflexivity|lv]. reflexivity.
Qed.
Lemma acc_start s pend a : acc ("{" :: s) AStart pend a = acc s AWhitespace ["{"] a.
Proof. rewrite (acc_to "{" _ _ _ _ AWhitespace); [|reflexivity|lv]. reflexivity. Qed.

Lemma gsets_after s a1 : gsets s a1 -> forall a, after s a = Some (a ++ a1).
Proof.
  induction 1; intros b.
  - rewrite after_open. rewrite <- (app_nil_r s). rewrite (gitems_acc _ _ H). reflexivity.
  - rewrite after_open. rewrite (gitems_acc _ _ H), IHgsets, <- app_assoc. reflexivity.
Qed.
Lemma gsets_open s a : gsets s a -> exists t, s = "{" :: t.
Proof. destruct 1; eauto. Qed.
Lemma gsets_acc s a1 : gsets s a1 -> forall pend a, acc s AStart pend a = Some (a ++ a1).
Proof.
  intros H pend a. pose proof (gsets_after _ _ H a) as E. destruct (gsets_open _ _ H) as [t ->].
  rewrite acc_start. rewrite <- E. rewrite after_open. reflexivity.
Qed.

(** ** Soundness *)
Lemma name_split r : exists n t, r = n ++ t /\ Forall name_char n /\ hd_is is_name t = false.
Proof.
  induction r as [|c r (n & t & -> & Hn & Ht)].
  - exists [], []. auto.
  - destruct (is_name c) eqn:E.
    + exists (c :: n), t. repeat split; auto. constructor; auto. apply name_char_is; auto.
    + exists [], (c :: n ++ t). repeat split; auto.
Qed.

Lemma gitems_nonempty s a : gitems s a -> s <> [].
Proof.
  destruct 1; try discriminate; destruct H as [Hk _]; destruct k; try congruence; discriminate.
Qed.

Lemma acc_gitems n : forall rest pend a out, length rest <= n ->
  acc rest AWhitespace pend a = Some out ->
  exists s r a1, rest = s ++ r /\ gitems s a1 /\ after r (a ++ a1) = Some out.
Proof.
  induction n as [|n IH]; intros rest pend a out Hl H.
  { destruct rest; [discriminate|simpl in Hl; lia]. }
  destruct rest as [|c rest]; [discriminate|]. simpl in Hl.
  destruct (beq c "}") eqn:E1.
  { beqs; subst c. rewrite acc_close in H by reflexivity. simpl pl in H.
    exists ["}"], rest, []. rewrite app_nil_r. repeat split; auto. constructor. }
  destruct (beq c ".") eqn:E2.
  { beqs; subst c. rewrite (acc_to "." _ _ _ _ AClassFirst) in H; [|reflexivity|lv].
    rewrite nattr_pl in H by reflexivity. simpl pl in H.
    destruct (name_split rest) as (m & t & -> & Hm & Ht).
    destruct m as [|d m].
    { exfalso. simpl app in H. destruct t as [|e t]; [discriminate|]. rewrite acc_inv in H; [discriminate|].
      unfold pstep; simpl. simpl in Ht. rewrite Ht. reflexivity. }
    assert (Hg : gname (d :: m)) by (split; [discriminate|auto]).
    rewrite (acc_name1 _ _ AClassFirst AClass) in H by auto.
    assert (Hs : gsep t) by (eapply acc_nosep; [|exact Ht|exact H]; exact I).
    rewrite acc_sep in H by (auto; exact I).
    apply IH in H; [|rewrite app_length in Hl; simpl in Hl; lia].
    destruct H as (s & r & a1 & -> & G & F). simpl pl in F. rewrite <- app_assoc in F.
    exists ("." :: (d :: m) ++ s), r, ((KClass, d :: m) :: a1). split; [|split]; auto.
    - cbn [app]. rewrite <- app_assoc. reflexivity.
    - apply gi_class; auto. destruct s; [apply gitems_nonempty in G; congruence|exact Hs]. }
  destruct (beq c "#") eqn:E3.
  { beqs; subst c. rewrite (acc_to "#" _ _ _ _ AIdentifierFirst) in H; [|reflexivity|lv].
    rewrite nattr_pl in H by reflexivity. simpl pl in H.
    destruct (name_split rest) as (m & t & -> & Hm & Ht).
    destruct m as [|d m].
    { exfalso. simpl app in H. destruct t as [|e t]; [discriminate|]. rewrite acc_inv in H; [discriminate|].
      unfold pstep; simpl. simpl in Ht. rewrite Ht. reflexivity. }
    assert (Hg : gname (d :: m)) by (split; [discriminate|auto]).
    rewrite (acc_name1 _ _ AIdentifierFirst AIdentifier) in H by auto.
    assert (Hs : gsep t) by (eapply acc_nosep; [|exact Ht|exact H]; exact I).
    rewrite acc_sep in H by (auto; exact I).
    apply IH in H; [|rewrite app_length in Hl; simpl in Hl; lia].
    destruct H as (s & r & a1 & -> & G & F). simpl pl in F. rewrite <- app_assoc in F.
    exists ("#" :: (d :: m) ++ s), r, ((KId, d :: m) :: a1). split; [|split]; auto.
    - cbn [app]. rewrite <- app_assoc. reflexivity.
    - apply gi_id; auto. destruct s; [apply gitems_nonempty in G; congruence|exact Hs]. }
  destruct (beq c "%") eqn:E4.
  { beqs; subst c. rewrite (acc_to "%" _ _ _ _ ACommentFirst) in H; [|reflexivity|lv].
    rewrite nattr_pl in H by reflexivity. simpl pl in H.
    destruct (comment_split rest) as (m & t & -> & Hm & [->|(x & s & -> & Hx)]).
    { exfalso. rewrite app_nil_r in H. rewrite acc_comment_none in H by (auto; exact I). discriminate. }
    rewrite acc_comment_first in H by auto. destruct Hx as [-> | ->]; unfold term in H; simpl (beq _ _) in H; cbv iota in H.
    - apply IH in H; [|rewrite app_length in Hl; simpl in Hl; lia].
      destruct H as (s' & r & a1 & -> & G & F). rewrite <- app_assoc in F.
      exists ("%" :: m ++ "%" :: s'), r, ((KComment, collapse m) :: a1). split; [|split]; auto.
      + cbn [app]. rewrite <- app_assoc. reflexivity.
      + apply gi_comment; auto.
    - exists ("%" :: m ++ ["}"]), s, [(KComment, collapse m)]. split; [|split]; auto.
      + cbn [app]. rewrite <- app_assoc. reflexivity.
      + apply gi_comment_close; auto. }
  destruct (is_name c) eqn:E5.
  { destruct (name_split (c :: rest)) as (m & t & Heq & Hm & Ht).
    destruct m as [|d m].
    { simpl in Heq. subst t. simpl in Ht. congruence. }
    rewrite Heq in *.
    assert (Hg : gname (d :: m)) by (split; [discriminate|auto]).
    rewrite (acc_name1 _ _ AWhitespace AKey) in H by auto.
    destruct t as [|e t]; [discriminate|].
    assert (Hl' : length t < n).
    { apply (f_equal (@length _)) in Heq. rewrite app_length in Heq. simpl in Heq. lia. }
    destruct (beq e "=") eqn:Ee.
    2:{ rewrite acc_inv in H; [discriminate|]. unfold pstep; simpl. simpl in Ht. rewrite Ht, Ee. reflexivity. }
    beqs; subst e.
    rewrite (acc_to "=" _ _ _ _ AValueFirst) in H; [|reflexivity|lv].
    rewrite nattr_pl in H by reflexivity. simpl pl in H.
    destruct (name_split t) as (v & u & -> & Hv & Hu).
    destruct v as [|x v].
    - simpl app in H. destruct u as [|y u]; [discriminate|]. simpl in Hu.
      destruct (beq y DQ) eqn:Ey.
      2:{ rewrite acc_inv in H; [discriminate|]. unfold pstep; simpl. rewrite Hu, Ey. reflexivity. }
      beqs; subst y. rewrite (acc_to DQ _ _ _ _ AValueQuoted) in H; [|reflexivity|lv].
      rewrite nattr_pl, npend_1 in H by reflexivity. simpl pl in H.
      apply acc_quoted_inv in H. destruct H as (q & v & s & -> & Hq & H).
      apply IH in H; [|simpl in Hl'; rewrite app_length in Hl'; simpl in Hl'; lia].
      destruct H as (s' & r & a1 & -> & G & F). rewrite <- app_assoc in F.
      exists ((d :: m) ++ "=" :: DQ :: q ++ DQ :: s'), r, ((KPair (d :: m), v) :: a1). split; [|split]; auto.
      + repeat (rewrite <- app_assoc; cbn [app]). reflexivity.
      + apply gi_quoted; auto.
    - assert (Hgv : gname (x :: v)) by (split; [discriminate|auto]).
      rewrite (acc_name1 _ _ AValueFirst AValue) in H by auto.
      assert (Hs : gsep u) by (eapply acc_nosep; [|exact Hu|exact H]; exact I).
      rewrite acc_sep in H by (auto; exact I).
      apply IH in H; [|rewrite app_length in Hl'; simpl in Hl'; lia].
      destruct H as (s & r & a1 & -> & G & F). simpl pl in F. rewrite updl_app, <- app_assoc in F.
      exists ((d :: m) ++ "=" :: (x :: v) ++ s), r, ((KPair (d :: m), x :: v) :: a1). split; [|split]; auto.
      + repeat (rewrite <- app_assoc; cbn [app]). reflexivity.
      + apply gi_pair; auto. destruct s; [apply gitems_nonempty in G; congruence|exact Hs]. }
  destruct (is_ws c) eqn:E6.
  { assert (E : pstep AWhitespace c = AWhitespace) by (revert E6; all_bytes c).
    rewrite (acc_to c _ _ _ _ AWhitespace) in H; [|auto|lv].
    unfold nattr in H. rewrite E, skips_same in H. apply IH in H; [|lia].
    destruct H as (s & r & a1 & -> & G & F).
    exists (c :: s), r, a1. repeat split; auto. constructor; auto. }
  rewrite acc_inv in H; [discriminate|]. unfold pstep; simpl. rewrite E1, E2, E3, E4, E5, E6. reflexivity.
Qed.

Lemma after_gsets n : forall r a out, length r <= n -> after r a = Some out ->
  (r = [] /\ out = a) \/ exists a1, gsets r a1 /\ out = a ++ a1.
Proof.
  induction n as [|n IH]; intros r a out Hl H.
  { destruct r; [|simpl in Hl; lia]. injection H as ->. auto. }
  destruct r as [|c r]; [injection H as ->; auto|]. right.
  destruct (beq c "{") eqn:E; [|simpl in H; rewrite E in H; discriminate]. beqs; subst c.
  rewrite after_open in H. apply (acc_gitems (length r)) in H; auto.
  destruct H as (s & r' & a1 & -> & G & F).
  apply IH in F; [|simpl in Hl; rewrite app_length in Hl; lia].
  destruct F as [[-> ->]|(a2 & G2 & ->)].
  - exists a1. rewrite app_nil_r. split; auto. constructor; auto.
  - exists (a1 ++ a2). rewrite <- app_assoc. split; auto. apply gs_more; auto.
Qed.

Theorem acc_gsets s a out : acc s AStart [] a = Some out <-> exists a1, gsets s a1 /\ out = a ++ a1.
Proof.
  split.
  - intros H. destruct s as [|c s]; [discriminate|].
    destruct (beq c "{") eqn:E.
    2:{ rewrite acc_inv in H; [discriminate|]. unfold pstep; simpl; rewrite E; reflexivity. }
    beqs; subst c. rewrite acc_start in H.
    rewrite <- after_open in H. apply (after_gsets (length ("{" :: s))) in H; auto.
    destruct H as [[? ?]|?]; [discriminate|auto].
  - intros (a1 & G & ->). apply gsets_acc; auto.
Qed.

(** ** The trimming *)
Lemma stripped_trim s t : stripped s t <-> t = trim_end_m is_ws s.
Proof.
  destruct (trim_end_spec is_ws s) as (w & H1 & H2 & H3).
  assert (Hlast : match rev (trim_end_m is_ws s) with c :: _ => is_ws c = false | [] => True end).
  { destruct (rev_case (trim_end_m is_ws s)) as [E|(l & x & E)]; rewrite E in *; [exact I|].
    rewrite rev_app_distr. simpl. rewrite last_opt_app in H3. exact H3. }
  split.
  - intros (w' & E & Hw & Hl).
    assert (H2' : Forall (fun c => is_ws c = true) w) by (apply Forall_forall; intros; eapply forallb_forall; eauto).
    clear H2 H3. set (t' := trim_end_m is_ws s) in *. clearbody t'.
    (* two decompositions: compare lengths *)
    assert (K : forall (u v x y : bytes), u ++ x = v ++ y ->
       Forall (fun c => is_ws c = true) x -> match rev v with c :: _ => is_ws c = false | [] => True end ->
       length v <= length u).
    { clear. intros u v x y E Hx Hv. destruct (Nat.leb_spec (length v) (length u)) as [|Hlt]; auto. exfalso.
      destruct (rev_case v) as [-> |(v' & c & ->)]; [simpl in Hlt; lia|].
      rewrite rev_app_distr in Hv. simpl in Hv. rewrite app_length in Hlt. simpl in Hlt.
      assert (Hn : nth_error (u ++ x) (length v') = Some c).
      { rewrite E, <- app_assoc. rewrite nth_error_app2 by lia. rewrite Nat.sub_diag. reflexivity. }
      rewrite nth_error_app2 in Hn by lia. apply nth_error_In in Hn.
      rewrite Forall_forall in Hx. rewrite (Hx _ Hn) in Hv. discriminate. }
    rewrite H1 in E.
    pose proof (K _ _ _ _ (eq_sym E) Hw Hlast). pose proof (K _ _ _ _ E H2' Hl).
    assert (L : length t = length t') by lia. clear -E L.
    apply (f_equal (firstn (length t'))) in E. rewrite !firstn_app in E.
    rewrite firstn_all, Nat.sub_diag in E. rewrite <- L, firstn_all, Nat.sub_diag in E.
    simpl in E. rewrite !app_nil_r in E. auto.
  - intros ->. exists w. repeat split; auto. apply Forall_forall. intros. eapply forallb_forall; eauto.
Qed.

(** ** Error positions *)
(** The automaton as a plain deterministic one: [ADone] is accepting and only '{' may follow. *)
Definition dstep (st : astate) (c : ascii) : astate :=
  match st with
  | ADone => if beq c "{" then AWhitespace else AInvalid
  | AInvalid => AInvalid
  | _ => pstep st c
  end.
Definition drun (s : bytes) (st : astate) : astate := fold_left dstep s st.
Lemma drun_app s t st : drun (s ++ t) st = drun t (drun s st).
Proof. apply fold_left_app. Qed.
Lemma drun_invalid s : drun s AInvalid = AInvalid.
Proof. induction s; simpl; auto. Qed.
Lemma dstep_live st c : live st -> dstep st c = pstep st c.
Proof. intros [? ?]; destruct st; simpl; auto; congruence. Qed.

Lemma acc_drun s : forall st p a, live st -> (acc s st p a <> None <-> drun s st = ADone).
Proof.
  induction s as [|c s IH]; intros st p a Hl.
  - simpl. split; [congruence|]. intros E. destruct Hl; congruence.
  - unfold drun; cbn [fold_left]; fold (drun s (dstep st c)). rewrite (dstep_live st c Hl).
    cbn [acc]. cbv zeta. generalize (npend st c p) as p'. generalize (nattr st c p a) as a'.
    apply pstep_cases.
    + intros. rewrite drun_invalid. split; [congruence|discriminate].
    + intros a' p'. destruct s as [|d s]; [simpl; split; congruence|].
      destruct (beq d "{") eqn:E.
      * rewrite (IH AStart) by lv. unfold drun; cbn [fold_left]. unfold dstep at 2 4. unfold pstep; simpl (step _ _).
        rewrite E. reflexivity.
      * unfold drun; cbn [fold_left]. unfold dstep at 2. rewrite E. fold (drun s AInvalid). rewrite drun_invalid.
        split; [congruence|discriminate].
    + intros st' Hl' a' p'. rewrite match_live by auto. apply IH; auto.
Qed.
Lemma gsets_drun s : (exists a, gsets s a) <-> drun s AStart = ADone.
Proof.
  rewrite <- (acc_drun s AStart [] []) by lv. split.
  - intros [a G]. rewrite (gsets_acc _ _ G). discriminate.
  - intros H. destruct (acc s AStart [] []) as [out|] eqn:E; [|congruence].
    apply acc_gsets in E. destruct E as (a1 & G & _). eauto.
Qed.
(** Every state but [AInvalid] can be completed. *)
Definition completion (st : astate) : bytes :=
  match st with
  | ADone | AInvalid => []
  | AStart => ["{"; "}"]
  | AWhitespace | ACommentFirst | AComment | ACommentNewline | AClass | AIdentifier | AValue => ["}"]
  | AClassFirst | AIdentifierFirst | AValueFirst => ["a"; "}"]
  | AKey => ["="; "a"; "}"]
  | AValueQuoted | AValueNewline | AValueContinued => [DQ; "}"]
  | AValueEscape => ["a"; DQ; "}"]
  end.
Lemma completion_ok st : st <> AInvalid -> drun (completion st) st = ADone.
Proof. destruct st; try congruence; reflexivity. Qed.
Lemma viable_drun s : viable s <-> drun s AStart <> AInvalid.
Proof.
  split.
  - intros (t & a & G) E. assert (H : drun (s ++ t) AStart = ADone) by (apply gsets_drun; eauto).
    rewrite drun_app, E, drun_invalid in H. discriminate.
  - intros H. exists (completion (drun s AStart)).
    apply gsets_drun. rewrite drun_app. apply completion_ok; auto.
Qed.

Lemma verdict_pos rest : forall pos st p a e, live st ->
  verdict (pos + length rest) (arun rest pos st p a) = inr e ->
  pos <= e <= pos + length rest /\
  drun (firstn (e - pos) rest) st <> AInvalid /\
  (e < pos + length rest -> drun (firstn (S (e - pos)) rest) st = AInvalid).
Proof.
  induction rest as [|c rest IH]; intros pos st p a e Hl H; cbn [arun] in H.
  - unfold verdict in H; cbn [fst snd ap_state] in H.
    destruct (astate_eqb st ADone) eqn:E; [apply astate_eqb_eq in E; destruct Hl; congruence|].
    rewrite andb_false_r in H. injection H as <-. rewrite Nat.sub_diag. simpl.
    destruct Hl. split; [lia|]. split; auto. lia.
  - cbv zeta in H. revert H. generalize (npend st c p) as p'. generalize (nattr st c p a) as a'.
    pose proof (dstep_live st c Hl) as Hd. revert Hd. apply pstep_cases.
    + intros Hd a' p' H. unfold verdict in H; simpl in H. injection H as <-. rewrite Nat.sub_diag.
      simpl. rewrite Hd. destruct Hl. split; [lia|]. split; auto.
    + intros Hd a' p' H. destruct rest as [|d rest]; simpl starts_c in H.
      * unfold verdict in H; cbn [fst snd ap_state length] in H. rewrite Nat.add_1_r, Nat.eqb_refl in H. discriminate.
      * destruct (beq d "{") eqn:Ed.
        { replace (pos + length (c :: d :: rest)) with (S pos + length (d :: rest)) in H by (simpl; lia).
          apply IH in H; [|lv]. destruct H as (H1 & H2 & H3). split; [simpl in *; lia|].
          assert (Hst : forall n, n > 0 -> drun (firstn n (d :: rest)) AStart = drun (firstn n (d :: rest)) ADone).
          { intros [|n] Hn; [lia|]. unfold drun; cbn [firstn fold_left]. reflexivity. }
          destruct (Nat.eq_dec e (S pos)) as [->|Hne].
          - replace (S pos - pos) with 1 by lia. cbn [firstn]. unfold drun; cbn [fold_left]. rewrite Hd.
            split; [discriminate|]. intros _. rewrite Nat.sub_diag in *. specialize (H3 ltac:(simpl; lia)).
            rewrite Hst in H3 by lia. exact H3.
          - replace (e - pos) with (S (e - S pos)) by lia. cbn [firstn].
            unfold drun in *; cbn [fold_left]. rewrite Hd.
            rewrite Hst in H2 by lia. rewrite Hst in H3 by lia. split; auto. intros. apply H3. simpl in *; lia. }
        { unfold verdict in H; cbn [fst snd ap_state length] in H.
          destruct (Nat.eqb_spec (S pos) (pos + S (S (length rest)))); [lia|]. simpl in H. injection H as <-.
          replace (S pos - pos) with 1 by lia. unfold drun; cbn [firstn fold_left]. rewrite Hd.
          split; [simpl; lia|]. split; [discriminate|]. intros _. unfold dstep. rewrite Ed. reflexivity. }
    + intros st' Hl' Hd a' p' H. rewrite match_live in H by auto.
      replace (pos + length (c :: rest)) with (S pos + length rest) in H by (simpl; lia).
      apply IH in H; auto. destruct H as (H1 & H2 & H3). split; [simpl; lia|].
      destruct (e - pos) as [|k] eqn:Ek; [lia|]. replace (e - S pos) with k in * by lia.
      unfold drun in *. cbn [firstn fold_left]. rewrite Hd. cbn [firstn fold_left] in H3.
      split; auto. intros. apply H3. simpl in *; lia.
Qed.

Lemma attrs_parse_arun a s : wfb (trim_end_m is_ws s) ->
  attrs_parse a s = Ok (verdict (length (trim_end_m is_ws s)) (arun (trim_end_m is_ws s) 0 AStart [] a)).
Proof.
  intros Hw. unfold attrs_parse. rewrite aparser_parse_arun; auto using ainv_start. cbn [bind].
  destruct (arun _ 0 AStart [] a) as [r p]. unfold verdict; simpl. destruct r; reflexivity.
Qed.

Lemma boundary_app s w i : i < length s -> boundary (s ++ w) i = boundary s i.
Proof.
  intros. unfold boundary. rewrite nth_error_app1 by auto.
  destruct (nth_error s i) eqn:E; auto. apply nth_error_None in E. lia.
Qed.
Lemma wfb_prefix s w : wfb (s ++ w) -> wfb s.
Proof.
  intros [H1 H2]. split.
  - destruct s; [reflexivity|]. exact H1.
  - intros i c Hi Hc. assert (i < length s) by (apply nth_error_Some; congruence).
    destruct (Nat.eq_dec (S i) (length s)) as [E|].
    + rewrite E. apply boundary_end.
    + rewrite <- (boundary_app s w) by lia. apply (H2 i c); auto. rewrite nth_error_app1; auto.
Qed.
Lemma wfb_trim f s : wfb s -> wfb (trim_end_m f s).
Proof.
  intros H. destruct (trim_end_spec f s) as (w & E & _). rewrite E in H. apply wfb_prefix in H. exact H.
Qed.

Theorem try_from_exact s : utf8 s ->
  (forall a, attrs_try_from s = Ok (inl a) <-> exists t, stripped s t /\ gsets t a) /\
  (forall pos, attrs_try_from s = Ok (inr pos) -> exists t, stripped s t /\ pos <= length t /\
     viable (firstn pos t) /\ (pos < length t -> ~ viable (firstn (S pos) t))
     /\ (pos = length t -> forall a, ~ gsets t a)) /\
  exists r, attrs_try_from s = Ok r.
Proof.
  intros Hu. apply utf8_wfb in Hu. apply (wfb_trim is_ws) in Hu. unfold attrs_try_from.
  rewrite attrs_parse_arun by auto. set (t := trim_end_m is_ws s) in *.
  assert (Ht : forall t', stripped s t' <-> t' = t) by (intros; apply stripped_trim). clearbody t.
  pose proof (verdict_acc t 0 AStart [] [] ltac:(lv)) as HV. simpl in HV.
  split; [|split; [|eauto]].
  - intros a. split.
    + intros H. injection H as H. exists t. split; [apply Ht; auto|].
      destruct (acc t AStart [] []) as [out|] eqn:E.
      * rewrite HV in H. injection H as <-. apply acc_gsets in E. destruct E as (a1 & G & ->). exact G.
      * destruct HV as [p HV]. rewrite HV in H. discriminate.
    + intros (t' & Hs & G). apply Ht in Hs. subst t'. rewrite (gsets_acc _ _ G) in HV. rewrite HV. reflexivity.
  - intros pos H. injection H as H. exists t. split; [apply Ht; auto|].
    pose proof H as H0. apply (verdict_pos t 0) in H; [|lv]. rewrite Nat.sub_0_r in H. simpl in H.
    destruct H as (H1 & H2 & H3). split; [lia|]. split; [apply viable_drun; auto|]. split.
    + intros Hlt Hv. apply viable_drun in Hv. apply Hv, H3. lia.
    + intros _ a G. rewrite (gsets_acc _ _ G) in HV. rewrite HV in H0. discriminate.
Qed.
