(** * PView: the lines of the enclosing blocks *)
From Verif Require Import Base Lex Attr Block Lib PSafe SpecAttr PAttr SpecBlock SpecView PBlock1 PBlock2 PBlock3 PBlock4 PGram.
Local Open Scope nat_scope.

Definition vspan (v : view) (L : span) : span := Sp (v L) (se L).
(** The lines [ls] are consecutive lines of the source, seen through [v]. *)
Definition viewed (src : bytes) (v : view) (ls : list span) : Prop :=
  exists a Ls b, lines src = a ++ Ls ++ b /\ ls = map (vspan v) Ls /\ Forall (fun L => ss L <= v L) Ls.
Lemma viewed_skipn src v ls n : viewed src v ls -> viewed src v (skipn n ls).
Proof.
  intros (a & Ls & b & E & -> & H). exists (a ++ firstn n Ls), (skipn n Ls), b. split; [|split].
  - rewrite E. rewrite <- (firstn_skipn n Ls) at 1. rewrite <- !app_assoc. reflexivity.
  - symmetry. apply map_skipn || (rewrite skipn_map; reflexivity).
  - rewrite <- (firstn_skipn n Ls) in H. apply Forall_app in H. apply H.
Qed.
Lemma viewed_all src : viewed src from_start (lines src).
Proof.
  exists [], (lines src), []. split; [rewrite app_nil_r; reflexivity|]. split.
  - symmetry. unfold vspan, from_start. rewrite <- (map_id (lines src)) at 2. apply map_ext. intros []. reflexivity.
  - apply Forall_forall. intros L _. unfold from_start. auto.
Qed.
Lemma partition_app_inv a : forall lo b hi, partition_of lo (a ++ b) hi -> exists m, partition_of lo a m /\ partition_of m b hi.
Proof.
  induction a as [|l a IH]; intros lo b hi H; cbn [app partition_of] in *; [exists lo; auto|].
  destruct H as (H1 & H2 & H3). apply IH in H3. destruct H3 as (m & H3 & H4). exists m. auto.
Qed.
(** Lines in the middle. *)
Lemma lines_mid src a L Ls b : lines src = a ++ L :: Ls ++ b ->
  Forall (fun x => se x <= ss L) a /\ ss L < se L /\ partition_of (se L) Ls (match b with [] => length src | x :: _ => ss x end) /\
  partition_of (match b with [] => length src | x :: _ => ss x end) b (length src).
Proof.
  intros E. destruct (lines_spec src) as [Hp _]. rewrite E in Hp. apply partition_app_inv in Hp. destruct Hp as (m & H1 & H2).
  cbn [partition_of] in H2. destruct H2 as (H2 & H3 & H4). apply partition_app_inv in H4. destruct H4 as (m' & H4 & H5).
  assert (Em : m' = match b with [] => length src | x :: _ => ss x end) by (destruct b; cbn [partition_of] in H5; [auto|destruct H5 as (H5 & _); auto]).
  split; [|subst m'; auto]. apply partition_bounds in H1. eapply Forall_impl; [|exact H1]. cbn. intros; lia.
Qed.
Lemma line_of_mid src a L b q : lines src = a ++ L :: b -> ss L < q -> q <= se L -> line_of src q = L.
Proof.
  intros E H1 H2. destruct (lines_mid src a L b [] ltac:(rewrite app_nil_r; exact E)) as (Ha & _).
  unfold line_of. rewrite E. clear E. induction a as [|x a IH]; cbn [app find].
  - replace (Nat.ltb (ss L) q && Nat.leb q (se L))%bool with true; [auto|]. symmetry. apply andb_true_intro. split; [apply Nat.ltb_lt|apply Nat.leb_le]; auto.
  - apply Forall_inv in Ha as Hx. apply Forall_inv_tail in Ha. replace (Nat.leb q (se x)) with false; [rewrite andb_false_r; auto|].
    symmetry. apply Nat.leb_gt. lia.
Qed.
Lemma between_mid src a L Ls b e : lines src = a ++ L :: Ls ++ b -> Forall (fun x => se x <= e) Ls -> match b with [] => True | x :: _ => e < se x end ->
  lines_between src (se L) e = Ls.
Proof.
  intros E H1 H2. destruct (lines_mid _ _ _ _ _ E) as (Ha & HL & Hm & Hb). unfold lines_between. rewrite E.
  assert (F0 : forall l, (forall x, List.In x l -> (Nat.leb (se L) (ss x) && Nat.leb (se x) e)%bool = false) -> filter (fun x => Nat.leb (se L) (ss x) && Nat.leb (se x) e) l = []).
  { clear. induction l as [|x l IH]; intros H; cbn [filter]; [auto|]. rewrite (H x) by (left; auto). apply IH. intros; apply H; right; auto. }
  assert (F1 : forall l, (forall x, List.In x l -> (Nat.leb (se L) (ss x) && Nat.leb (se x) e)%bool = true) -> filter (fun x => Nat.leb (se L) (ss x) && Nat.leb (se x) e) l = l).
  { clear. induction l as [|x l IH]; intros H; cbn [filter]; [auto|]. rewrite (H x) by (left; auto). f_equal. apply IH. intros; apply H; right; auto. }
  pose proof (partition_bounds _ _ _ Hm) as Bm.
  assert (Hlt : forall x, List.In x a -> ss x < se L).
  { intros x Hx. rewrite Forall_forall in Ha. pose proof (Ha x Hx).
    assert (Hn : ss x < se x).
    { destruct (lines_spec src) as [Hp _]. apply partition_bounds in Hp. rewrite E in Hp. rewrite Forall_forall in Hp. apply Hp. apply in_or_app. auto. }
    lia. }
  rewrite filter_app. cbn [filter]. rewrite filter_app, (F0 a), (F1 Ls), (F0 b).
  - rewrite app_nil_r. cbn [app]. replace (Nat.leb (se L) (ss L)) with false by (symmetry; apply Nat.leb_gt; lia). reflexivity.
  - intros x Hx. destruct b as [|y b]; [destruct Hx|]. apply andb_false_intro2. apply Nat.leb_gt. cbn [partition_of] in Hb. destruct Hb as (_ & B1 & B2).
    destruct Hx as [<- |Hx]; [auto|]. apply partition_bounds in B2. rewrite Forall_forall in B2. specialize (B2 x Hx). lia.
  - intros x Hx. rewrite Forall_forall in H1, Bm. specialize (H1 x Hx). specialize (Bm x Hx). apply andb_true_intro. split; apply Nat.leb_le; lia.
  - intros x Hx. apply andb_false_intro1. apply Nat.leb_gt. auto.
Qed.

(** ** What a container takes off a line *)
Lemma okp1 {A} (a b : A) : Ok a = Ok b -> b = a.
Proof. intros [= ->]. reflexivity. Qed.
Lemma last_ws (t : bytes) : forall c, t <> [] -> last_opt t = Some c -> forallb is_ws t = true -> is_ws c = true.
Proof.
  induction t as [|d t IH]; intros c Hn Hl Hw; [congruence|]. cbn [forallb] in Hw. apply andb_prop in Hw. destruct Hw as [H1 H2].
  destruct t as [|e t]; [cbn in Hl; injection Hl as <-; auto|]. apply IH; [discriminate| |auto].
  rewrite <- Hl. destruct (rev_case (e :: t)) as [Q|(u & z & Q)]; [discriminate|]. rewrite Q, app_comm_cons, !last_opt_app. reflexivity.
Qed.
Lemma spaces_ws src sp : line_ok src sp -> forallb is_ws (slice src sp) = false -> count_while is_ws (slice src sp) = spaces (slice src sp).
Proof.
  intros ((H1 & H2 & _) & _ & Ho) Hb. unfold spaces. set (t := slice src sp) in *.
  assert (Hlen : length t = se sp - ss sp) by (apply slice_length; auto).
  assert (Hn : forall i, S i < length t -> nth_error t i <> Some NL).
  { intros i Hi Hc. unfold t in Hc. rewrite slice_nth in Hc by lia. apply (Ho (ss sp + i)); [lia|lia|auto]. }
  clearbody t. clear - Hb Hn. induction t as [|c t IH]; [discriminate|]. cbn [forallb] in Hb. cbn [count_while]. destruct (is_ws c) eqn:Ec; cbn [andb] in *; [|auto].
  assert (Hc : beq c NL = false).
  { destruct t as [|d t]; [discriminate|]. destruct (beq c NL) eqn:E; [|auto]. apply beq_eq in E. subst c. destruct (Hn 0); [cbn; lia|reflexivity]. }
  rewrite Hc. cbn [negb]. f_equal. apply IH; [auto|]. intros i Hi Hx. apply (Hn (S i)); [cbn; lia|exact Hx].
Qed.
Definition kbox (k : bkind) : box := match k with KBlockquote => BxQuote | KFenced _ _ _ _ _ _ => BxDiv | _ => BxItem end.
Definition kamount (k : bkind) (ol : nat) : nat := match k with KFenced i _ _ _ _ _ => i | _ => ol end.
Lemma trim_nil l : trim_m is_ws l = [] <-> forallb is_ws l = true.
Proof.
  unfold trim_m. rewrite trim_end_nil. split; intros H.
  - induction l as [|c l IH]; [auto|]. cbn in *. destruct (is_ws c) eqn:E; [auto|]. cbn in H. rewrite E in H. discriminate.
  - rewrite forallb_trim by auto. reflexivity.
Qed.
Lemma cont_line_taken src k ol sp y : line_ok src sp -> is_container_kind k -> cont_line src k ol sp = Ok y ->
  y = Sp (ss sp + taken (kbox k) (kamount k ol) (slice src sp)) (se sp).
Proof.
  intros Hl Hk E. unfold cont_line in E. rewrite span_ok_ssub in E by apply Hl. cbn [bind] in E.
  pose proof (span_ok_len _ _ (proj1 Hl)) as Hlen. pose proof (spaces_ws src sp Hl) as Hsw.
  set (l := slice src sp) in *. unfold taken. destruct (forallb is_ws l) eqn:Eb.
  - assert (Et : trim_m is_ws l = []) by (apply trim_nil; auto). rewrite Et in E.
    destruct k; try contradiction Hk; cbn [bind bytes_eqb starts_c andb] in E; apply okp1 in E; rewrite E; cbn [Nat.min]; f_equal; lia.
  - specialize (Hsw eq_refl). assert (Et : trim_m is_ws l <> []) by (intros H; apply trim_nil in H; congruence).
    set (w := spaces l) in *. assert (Hws : match trim_m is_ws l with [] => 0 | _ :: _ => length l - length (trim_start_m is_ws l) end = w).
    { destruct (trim_m is_ws l); [congruence|]. rewrite trim_start_len. pose proof (count_while_le is_ws l). lia. }
    rewrite Hws in E. set (len := count_while (fun c => negb (beq c NL)) l) in *.
    assert (Hnb : exists c r, skipn w l = c :: r /\ is_ws c = false).
    { destruct (skipn w l) as [|c r] eqn:Es.
      - exfalso. assert (trim_start_m is_ws l = []) by (rewrite trim_start_skipn, Hsw; exact Es). apply Et. unfold trim_m. rewrite H. reflexivity.
      - exists c, r. split; [auto|]. pose proof (count_while_nth is_ws l c) as Q. rewrite Hsw in Q. apply Q. apply skipn_cons_nth in Es. apply Es. }
    destruct Hnb as (c & r & Es & Ec). apply skipn_cons_nth in Es as Es'. destruct Es' as [Hc _].
    assert (Hwl : forall n c', nth_error l n = Some c' -> c' <> NL -> (forall i, i < n -> nth_error l i <> Some NL) -> n < len).
    { clear. unfold len. clear len. induction l as [|d l IH]; intros n c' H Hn Hi; [destruct n; discriminate|]. cbn [count_while].
      destruct (beq d NL) eqn:Ed; cbn [negb].
      - apply beq_eq in Ed. subst d. destruct n; [injection H as <-; congruence|]. destruct (Hi 0); [lia|reflexivity].
      - destruct n; [lia|]. cbn [nth_error] in H. apply IH in H; [lia|auto|]. intros i Hx. apply (Hi (S i)). lia. }
    assert (Hone : forall i, S i < length l -> nth_error l i <> Some NL).
    { intros i Hi Hx. destruct Hl as ((L1 & L2 & _) & _ & Ho). unfold l in Hx. rewrite slice_nth in Hx by lia. apply (Ho (ss sp + i)); [lia|lia|auto]. }
    assert (Hwlt : w < length l) by (apply nth_error_Some; congruence).
    assert (Hwlen : w < len).
    { apply (Hwl w c); auto; [intros ->; discriminate|]. intros i Hi. apply Hone. lia. }
    destruct k; try contradiction Hk; cbn [bind kbox kamount] in *; try (apply okp1 in E; rewrite E; f_equal; lia).
    (* quote *)
    rewrite Es. destruct (trim_m_prefix l) as (u & Eu & Hu). rewrite trim_start_skipn, Hsw, Es in Eu.
    destruct (trim_m is_ws l) as [|c' t] eqn:Htt; [congruence|]. cbn [app] in Eu. injection Eu as <- Er.
    change (bytes_eqb (c :: t) (B ">")) with (beq c ">" && bytes_eqb t [])%bool in E. cbn [skipn starts_c] in E.
    destruct (beq c ">") eqn:Eg; cbn [andb] in E; [|apply okp1 in E; rewrite E; f_equal; lia].
    destruct t as [|d t]; cbn [bytes_eqb] in E.
    + cbn [app] in Er. subst r. rewrite Hu. apply okp1 in E. rewrite E. f_equal. lia.
    + assert (Hr : forallb is_ws r = false).
      { destruct (forallb is_ws r) eqn:Q; [|auto]. exfalso. destruct (trim_end_spec is_ws (trim_start_m is_ws l)) as (u2 & E2 & _ & Hlast).
        change (trim_end_m is_ws (trim_start_m is_ws l)) with (trim_m is_ws l) in Hlast. rewrite Htt in Hlast.
        assert (Hx : forallb is_ws (d :: t) = true) by (rewrite Er, forallb_app in Q; apply andb_prop in Q; apply Q).
        destruct (last_opt (c :: d :: t)) as [z|] eqn:Ez.
        - destruct (rev_case (d :: t)) as [Q'|(u' & z' & Q')]; [discriminate|]. rewrite Q', app_comm_cons, last_opt_app in Ez. injection Ez as ->.
          rewrite (last_ws (d :: t) z) in Hlast; [discriminate|discriminate| |auto]. rewrite Q', last_opt_app. reflexivity.
        - destruct (rev_case (c :: d :: t)) as [Q'|(u' & z' & Q')]; [discriminate|]. rewrite Q', last_opt_app in Ez. discriminate. }
      rewrite Hr. rewrite Er. cbn [app hd_is] in *. destruct (is_ws d) eqn:Ed; apply okp1 in E; rewrite E; f_equal.
      assert (Hd : nth_error l (w + 1) = Some d).
      { rewrite <- nth_error_skipn, Es, Er. reflexivity. }
      assert (Hlong : S (w + 1) < length l).
      { assert (w + 1 < length l) by (apply nth_error_Some; congruence).
        assert (Hll : length r = length l - w - 1).
        { assert (Q : length (skipn w l) = length l - w) by apply skipn_length. rewrite Es in Q. cbn [length] in Q. lia. }
        rewrite Er in Hr, Hll. cbn [app forallb length] in Hr, Hll. rewrite Ed in Hr. cbn [andb] in Hr.
        destruct (t ++ u); [discriminate|cbn [length] in Hll; lia]. }
      assert (Hw1 : w + 1 < len).
      { apply (Hwl (w + 1) d); auto; [intros ->; apply (Hone (w + 1)); auto|]. intros i Hi. apply Hone. lia. }
      lia.
Qed.

(** ** The lines of a block *)
Definition below (v : view) (Ls : list span) : Prop := Forall (fun L => ss L <= v L) Ls.
(** The lines [ls] of a block whose first line is [L0], as seen through [v] around the block; [q] is the end of its marker. *)
Definition kview (src : bytes) (v : view) (k : bkind) (q e : nat) (ol : nat) (ls : list span) : Prop :=
  match k with
  | KBlockquote | KListItem _ _ _ | KDefinition _ _ _ _ =>
      exists a L0 Ls b, lines src = a ++ L0 :: Ls ++ b /\ below v (L0 :: Ls) /\ ss L0 < q /\ q <= se L0 /\ ol = q - v L0 /\
        ls = Sp (match k with KBlockquote => narrow src BxQuote q v L0 | _ => q end) (se L0) :: map (vspan v) Ls
  | KFenced indent _ _ _ _ _ =>
      exists a L0 Ls b, lines src = a ++ L0 :: Ls ++ b /\ below v (L0 :: Ls) /\ q = se L0 /\ indent = spaces (rest_of src v L0) /\
        ls = map (vspan v) Ls /\ Forall (fun L => se L <= e) Ls /\ match b with [] => True | L :: _ => e < se L end
  | _ => True
  end.
Lemma later src a L0 Ls b : lines src = a ++ L0 :: Ls ++ b -> Forall (fun L => se L0 <= ss L) Ls.
Proof. intros E. destruct (lines_mid _ _ _ _ _ E) as (_ & _ & Hm & _). apply partition_bounds in Hm. eapply Forall_impl; [|exact Hm]. cbn. intros; lia. Qed.
Lemma later2 src a L0 L1 Ls b : lines src = a ++ L0 :: (L1 :: Ls) ++ b -> ss L1 = se L0 /\ Forall (fun L => se L0 < ss L) Ls.
Proof.
  intros E. destruct (lines_mid _ _ _ _ _ E) as (_ & _ & Hm & _). cbn [partition_of] in Hm. destruct Hm as (H1 & H2 & H3). split; [auto|].
  apply partition_bounds in H3. eapply Forall_impl; [|exact H3]. cbn. intros; lia.
Qed.
Lemma taken_lines src k ol v Ls (w : view) : is_container_kind k ->
  Forall (fun L => line_ok src (vspan v L) /\ w L = v L + taken (kbox k) (kamount k ol) (rest_of src v L)) Ls ->
  forall ys, mapr (cont_line src k ol) (map (vspan v) Ls) = Ok ys -> ys = map (vspan w) Ls.
Proof.
  intros Hk. induction 1 as [|L Ls [H1 H2] H IH]; intros ys E; cbn [map mapr] in E; [apply okp1 in E; auto|].
  destruct (cont_line src k ol (vspan v L)) as [y| |] eqn:Ey; cbn [bind] in E; try discriminate.
  destruct (mapr _ _) as [zs| |] eqn:Ez; cbn [bind] in E; try discriminate. apply okp1 in E. subst ys. cbn [map]. rewrite (IH _ eq_refl). f_equal.
  apply cont_line_taken in Ey; auto. rewrite Ey. unfold vspan. cbn [ss se]. rewrite H2. reflexivity.
Qed.
(** Inside a container. *)
Lemma kview_cont src v k q e ol ls ls' : is_container_kind k -> kview src v k q e ol ls -> Forall (line_ok src) ls ->
  (match ls with [] => Ok [] | l :: ls => let! ls' := mapr (cont_line src k ol) ls in Ok (l :: ls') end) = Ok ls' ->
  viewed src (narrow src (kbox k) q v) ls'.
Proof.
  intros Hk Hv Hl E.
  assert (Hitem : (exists a L0 Ls b, lines src = a ++ L0 :: Ls ++ b /\ below v (L0 :: Ls) /\ ss L0 < q /\ q <= se L0 /\ ol = q - v L0 /\
        ls = Sp (match k with KBlockquote => narrow src BxQuote q v L0 | _ => q end) (se L0) :: map (vspan v) Ls) -> kbox k <> BxDiv -> kbox k <> BxNone ->
        viewed src (narrow src (kbox k) q v) ls').
  { intros (a & L0 & Ls & b & El & Hb & H1 & H2 & Ho & Els) Hd Hn. clear Hv. rewrite Els in E, Hl. apply Forall_inv in Hl as Hl0. apply Forall_inv_tail in Hl.
    destruct (mapr _ _) as [ys| |] eqn:Ey; cbn [bind] in E; try discriminate. apply okp1 in E. subst ls'.
    assert (Hlo : line_of src q = L0) by (eapply line_of_mid; eauto). pose proof (later _ _ _ _ _ El) as Hlat.
    set (w := narrow src (kbox k) q v). assert (Hw0 : Sp (match k with KBlockquote => narrow src BxQuote q v L0 | _ => q end) (se L0) = vspan w L0).
    { unfold vspan, w. f_equal. apply Nat.ltb_lt in H1. destruct k; try contradiction Hk; try reflexivity; try (unfold kbox, narrow; rewrite H1; reflexivity). destruct (Hd eq_refl). }
    assert (HwL : Forall (fun L => w L = v L + taken (kbox k) (kamount k ol) (rest_of src v L)) Ls).
    { eapply Forall_impl; [|exact Hlat]. cbn. intros L HL. assert (Hlt : Nat.ltb (ss L) q = false) by (apply Nat.ltb_ge; lia).
      unfold w. destruct k; try contradiction Hk; try (destruct (Hd eq_refl)); unfold kbox, narrow, kamount; cbv zeta; rewrite Hlt, ?Hlo, <- ?Ho; reflexivity. }
    exists a, (L0 :: Ls), b. split; [exact El|]. split.
    - rewrite Hw0. cbn [map]. f_equal. apply (taken_lines src k ol v Ls w Hk); [|exact Ey]. apply Forall_forall. intros L HL. rewrite Forall_forall in HwL. split; [|auto].
      rewrite Forall_forall in Hl. apply Hl. apply in_map. auto.
    - constructor.
      + unfold w. apply Nat.ltb_lt in H1 as H1'. destruct k; try contradiction Hk; try (destruct (Hd eq_refl)); unfold kbox, narrow; rewrite H1'; try lia.
        destruct (slice src _); [lia|]. destruct (_ || _); lia.
      + apply Forall_inv_tail in Hb. unfold below in *. rewrite Forall_forall in *. intros L HL. rewrite HwL by auto. specialize (Hb L HL). lia. }
  destruct k; try contradiction Hk; try (apply Hitem; [exact Hv|discriminate|discriminate]). clear Hitem.
  destruct Hv as (a & L0 & Ls & b & El & Hb & Hq & Hi & Els & _). apply Forall_inv in Hb as Hb0. apply Forall_inv_tail in Hb.
  assert (Hlo : line_of src q = L0).
  { destruct (lines_mid _ _ _ _ _ El) as (_ & HL & _). eapply line_of_mid; [exact El| |]; lia. }
  assert (El' : lines src = (a ++ [L0]) ++ Ls ++ b) by (rewrite El, <- app_assoc; reflexivity).
  exists (a ++ [L0]), Ls, b. split; [exact El'|]. rewrite Els in E, Hl. set (w := narrow src (kbox (KFenced indent flen k spec closing nested)) q v).
  destruct Ls as [|L1 Ls]; cbn [map] in E.
  { apply okp1 in E. subst ls'. split; [reflexivity|constructor]. }
  destruct (later2 _ _ _ _ _ _ El) as [Hl1 Hlat]. cbn [map] in Hl. apply Forall_inv_tail in Hl.
  destruct (mapr _ _) as [ys| |] eqn:Ey; cbn [bind] in E; try discriminate. apply okp1 in E. subst ls'.
  assert (Hw1 : w L1 = v L1).
  { unfold w, kbox, narrow. replace (Nat.leb (ss L1) q) with true; [auto|]. symmetry. apply Nat.leb_le. lia. }
  assert (HwL : Forall (fun L => w L = v L + taken BxDiv indent (rest_of src v L)) Ls).
  { eapply Forall_impl; [|exact Hlat]. cbn. intros L HL. assert (Hlt : Nat.leb (ss L) q = false) by (apply Nat.leb_gt; lia).
    unfold w, kbox, narrow. cbv zeta. rewrite Hlt, Hlo. rewrite Hi. reflexivity. }
  split.
  - cbn [map]. unfold vspan at 1. rewrite <- Hw1. fold (vspan w L1). f_equal. eapply taken_lines with (3 := Ey); [exact I|]. apply Forall_forall. intros L HL. rewrite Forall_forall in HwL. split; [|apply HwL; auto].
    rewrite Forall_forall in Hl. apply Hl. apply in_map. auto.
  - constructor; [rewrite Hw1; apply Forall_inv in Hb; auto|]. apply Forall_inv_tail in Hb. rewrite Forall_forall in *. intros L HL. rewrite HwL by auto. specialize (Hb L HL). lia.
Qed.

(** ** Lines of code *)
Lemma unindent_lines src v k Ls : forall ys, mapr (unindent src k) (map (vspan v) Ls) = Ok ys -> ys = map (dedent src v k) Ls.
Proof.
  induction Ls as [|L Ls IH]; intros ys E; cbn [map mapr] in E; [apply okp1 in E; auto|].
  unfold unindent at 1 in E. destruct (bsub src (vspan v L) "block.rs:497") as [l| |] eqn:El; cbn [bind] in E; try discriminate.
  destruct (mapr _ _) as [zs| |] eqn:Ez; cbn [bind] in E; try discriminate. apply okp1 in E. subst ys. cbn [map]. rewrite (IH _ eq_refl). f_equal.
  apply bsub_ok in El. destruct El as (_ & _ & ->). reflexivity.
Qed.
Lemma trim_last_ok src ls : forall ys, map_last (sp_trim_end src) ls = Ok ys -> ys = trim_last src ls.
Proof.
  intros ys E. unfold map_last in E. destruct (last_opt ls) as [x|] eqn:Ex.
  2:{ apply last_opt_none in Ex. apply okp1 in E. subst. reflexivity. }
  apply last_opt_some in Ex. destruct Ex as [l ->]. rewrite butlast_app in E.
  unfold sp_trim_end in E. destruct (ssub src x _) as [t| |] eqn:Et; cbn [bind] in E; try discriminate. apply okp1 in E. subst ys.
  apply ssub_ok in Et. destruct Et as (_ & _ & _ & _ & ->). induction l as [|z l IH]; [reflexivity|]. cbn [app]. rewrite IH.
  destruct l; reflexivity.
Qed.
Lemma kview_code src v i f fk spec cl ne q e ol ls lf ls' : kview src v (KFenced i f fk spec cl ne) q e ol ls ->
  leaf_lines src lf (KFenced i f fk spec cl ne) ls = Ok ls' ->
  filter (fun l => negb (sp_empty l)) ls' = code_content src v (starts_c spec "=") q e.
Proof.
  intros (a & L0 & Ls & b & El & Hb & Hq & Hi & Els & He & Hbe) E. cbn [leaf_lines] in E. rewrite Els in E.
  destruct (mapr _ _) as [ys| |] eqn:Ey; cbn [bind] in E; try discriminate. apply unindent_lines in Ey.
  assert (Hlo : line_of src q = L0).
  { destruct (lines_mid _ _ _ _ _ El) as (_ & HL & _). eapply line_of_mid; [exact El| |]; lia. }
  assert (Hf : forall l : list span, filter (fun l => negb (sp_empty l)) l = filter (fun l => Nat.ltb (ss l) (se l)) l).
  { intros l. apply filter_ext. intros [p r]. unfold sp_empty. cbn [ss se]. rewrite negb_involutive. reflexivity. }
  rewrite Hf. unfold code_content. rewrite Hlo, <- Hi, Hq, (between_mid _ _ _ _ _ _ El He Hbe), <- Ey.
  f_equal. destruct (starts_c spec "="); [apply trim_last_ok; auto|apply okp1 in E; auto].
Qed.

(** ** Cutting the lines of a block *)
Lemma slice_none src a b : b <= a -> slice src (Sp a b) = [].
Proof. intros H. unfold slice. cbn [ss se]. replace (b - a) with 0 by lia. reflexivity. Qed.
Lemma sp_eta s : Sp (ss s) (se s) = s.
Proof. destruct s; reflexivity. Qed.
Definition quote_from (src : bytes) (q e : nat) : nat :=
  match slice src (Sp q e) with c :: _ => if beq c TAB || beq c SP then q + 1 else q | [] => q end.
Lemma viewed_cons src v l ls : viewed src v (l :: ls) -> exists a L0 Ls b, lines src = a ++ L0 :: Ls ++ b /\ below v (L0 :: Ls) /\ l = vspan v L0 /\ ls = map (vspan v) Ls.
Proof.
  intros (a & [|L0 Ls] & b & E & Em & H); [discriminate|]. cbn [map] in Em. injection Em as -> ->. exists a, L0, Ls, b. auto.
Qed.
Lemma kview_item src v k line0 rest n q e ol ls : viewed src v (line0 :: rest) ->
  match k with KBlockquote | KListItem _ _ _ | KDefinition _ _ _ _ => True | _ => False end ->
  ss line0 < q -> q <= se line0 -> ol = q - ss line0 ->
  ls = Sp (match k with KBlockquote => quote_from src q (se line0) | _ => q end) (se line0) :: firstn n rest -> kview src v k q e ol ls.
Proof.
  intros Hv Hk H1 H2 Ho Els. destruct (viewed_cons _ _ _ _ Hv) as (a & L0 & Ls & b & El & Hb & -> & ->). cbn [vspan ss se] in *.
  assert (G : exists a L0 Ls b, lines src = a ++ L0 :: Ls ++ b /\ below v (L0 :: Ls) /\ ss L0 < q /\ q <= se L0 /\ ol = q - v L0 /\
        ls = Sp (match k with KBlockquote => narrow src BxQuote q v L0 | _ => q end) (se L0) :: map (vspan v) Ls).
  { apply Forall_inv in Hb as Hb0. apply Forall_inv_tail in Hb.
    exists a, L0, (firstn n Ls), (skipn n Ls ++ b). split; [rewrite El; rewrite <- (firstn_skipn n Ls) at 1; rewrite <- !app_assoc; reflexivity|].
    split; [constructor; [auto|]; rewrite <- (firstn_skipn n Ls) in Hb; apply Forall_app in Hb; apply Hb|]. split; [lia|]. split; [auto|]. split; [auto|].
    rewrite Els, firstn_map. f_equal. f_equal. destruct k; try reflexivity. unfold narrow. replace (Nat.ltb (ss L0) q) with true by (symmetry; apply Nat.ltb_lt; lia). reflexivity. }
  destruct k; try contradiction Hk; exact G.
Qed.
Lemma last_end v Ls : forall L0 b hi, partition_of (se L0) Ls (match b with [] => hi | x :: _ => ss x end) ->
  partition_of (match b with [] => hi | x :: _ => ss x end) b hi ->
  let e := se (last (map (vspan v) Ls) (vspan v L0)) in Forall (fun L => se L <= e) Ls /\ match b with [] => True | L :: _ => e < se L end.
Proof.
  induction Ls as [|L Ls IH]; intros L0 b hi H Hb; cbn [map partition_of] in *.
  - cbn [last vspan se]. split; [constructor|]. destruct b as [|x b]; [auto|]. cbn [partition_of] in Hb. lia.
  - destruct H as (H1 & H2 & H3). specialize (IH L b hi H3 Hb). cbv zeta in *.
    replace (last (vspan v L :: map (vspan v) Ls) (vspan v L0)) with (last (map (vspan v) Ls) (vspan v L)).
    + destruct IH as [I1 I2]. split; [|auto]. constructor; [|auto]. apply partition_bounds in H3. clear - H3 I1. destruct Ls as [|L' Ls]; [cbn; lia|].
      apply Forall_inv in H3. apply Forall_inv in I1. lia.
    + clear. destruct Ls as [|L' Ls]; [reflexivity|]. cbn [map]. change (last (vspan v L :: vspan v L' :: map (vspan v) Ls) (vspan v L0)) with (last (vspan v L' :: map (vspan v) Ls) (vspan v L0)).
      generalize (vspan v L') (map (vspan v) Ls) (vspan v L) (vspan v L0). clear. intros x l. revert x. induction l as [|y l IH]; intros x d d'; [reflexivity|]. cbn [last] in *. apply (IH y).
Qed.
Lemma kview_fenced src v i f fk spec (cl : bool) ne line0 rest n q ol ls : viewed src v (line0 :: rest) ->
  q = se line0 -> i = spaces (slice src line0) ->
  let e := last (firstn n rest) line0 in
  (if cl then firstn n rest = ls ++ [e] /\ ss e < se e else ls = firstn n rest) ->
  kview src v (KFenced i f fk spec cl ne) q (if cl then ss e else se e) ol ls.
Proof.
  intros Hv Hq Hi e Hls. destruct (viewed_cons _ _ _ _ Hv) as (a & L0 & Ls & b & El & Hb & -> & ->). cbn [vspan ss se] in *.
  apply Forall_inv in Hb as Hb0. apply Forall_inv_tail in Hb.
  assert (El' : lines src = a ++ L0 :: firstn n Ls ++ (skipn n Ls ++ b)) by (rewrite El; rewrite <- (firstn_skipn n Ls) at 1; rewrite <- !app_assoc; reflexivity).
  assert (Hb' : below v (firstn n Ls)) by (rewrite <- (firstn_skipn n Ls) in Hb; apply Forall_app in Hb; apply Hb).
  set (b' := skipn n Ls ++ b) in *. unfold e in *. rewrite firstn_map in *. set (Ln := firstn n Ls) in *. clearbody b' Ln. clear e El Hb Hv.
  destruct cl.
  - destruct Hls as [Hl1 Hl2]. set (e := last _ _) in *. clearbody e.
    assert (Hm : exists L1 Lc, Ln = L1 ++ [Lc] /\ ls = map (vspan v) L1 /\ e = vspan v Lc).
    { destruct (rev_case Ln) as [->|(L1 & Lc & ->)]; [destruct ls; discriminate|]. rewrite map_app in Hl1. apply app_inj_tail in Hl1. destruct Hl1 as [<- <-]. exists L1, Lc. auto. }
    destruct Hm as (L1 & Lc & -> & -> & ->). exists a, L0, L1, (Lc :: b'). cbn [vspan ss se] in *. apply Forall_app in Hb'. destruct Hb' as [Hb1 Hb2]. apply Forall_inv in Hb2.
    assert (E2 : lines src = a ++ L0 :: L1 ++ (Lc :: b')) by (rewrite El', <- app_assoc; reflexivity).
    split; [exact E2|]. split; [constructor; auto|]. split; [auto|]. split; [auto|]. split; [auto|]. split; [|auto].
    destruct (lines_mid _ _ _ _ _ E2) as (_ & _ & Hm & _). apply partition_bounds in Hm. eapply Forall_impl; [|exact Hm]. cbn beta. intros; lia.
  - exists a, L0, Ln, b'. split; [exact El'|]. split; [constructor; auto|]. split; [auto|]. split; [auto|]. split; [auto|].
    destruct (lines_mid _ _ _ _ _ El') as (_ & _ & Hm & Hm'). exact (last_end v _ _ _ _ Hm Hm').
Qed.
