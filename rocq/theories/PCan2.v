(** * PCan2: what the inline parser hands out *)
From Verif Require Import Base Lex Attr Inline Block Doc Lib PSafe PCan1.
From Verif Require Import SpecCanon.
Local Open Scope nat_scope.

(** ** More fuel does not change a result *)
Lemma fill_mono src f : forall s x f', fill f src s = Ok x -> f <= f' -> fill f' src s = Ok x.
Proof.
  induction f as [|f IH]; intros s x f' H L; [discriminate H|].
  destruct f' as [|f']; [lia|]. cbn [fill] in *. destruct (must_buffer s); [|exact H].
  apply bind_ok in H as ([fl s1] & E & H). rewrite E. cbn [bind] in *. destruct fl; auto.
  - eapply IH; eauto. lia.
  - destruct (i_ahead (s_in s1)); auto. apply bind_ok in H as (i & E1 & H). rewrite E1. cbn [bind]. eapply IH; eauto. lia.
Qed.
Lemma i_next_mono src n : forall nf s x n' nf', i_next n nf src s = Ok x -> n <= n' -> nf <= nf' ->
  i_next n' nf' src s = Ok x.
Proof.
  induction n as [|n IH]; intros nf s x n' nf' H L L'; [discriminate H|].
  destruct n' as [|n']; [lia|]. cbn [i_next] in *.
  apply bind_ok in H as ([go s1] & E & H). rewrite (fill_mono _ _ _ _ _ E L'). cbn [bind] in *.
  destruct go; [|exact H].
  apply bind_ok in H as (s2 & E2 & H). rewrite E2. cbn [bind] in *.
  destruct (s_events s2) as [|e evs]; [exact H|].
  destruct (ik e); auto.
  - destruct (_ && _); [|exact H]. eapply IH; eauto. lia.
  - eapply IH; eauto. lia.
Qed.

(** ** Joining text *)
Lemma join_cons e X Y : join X = join Y -> join (e :: X) = join (e :: Y).
Proof. intros H. cbn. rewrite H. reflexivity. Qed.
Lemma join_app_r A X Y : join X = join Y -> join (A ++ X) = join (A ++ Y).
Proof. intros H. induction A as [|e A IH]; [exact H|]. cbn [app]. apply join_cons, IH. Qed.
Lemma join_str_str a b X : join (Str a :: Str b :: X) = join (Str (a ++ b) :: X).
Proof.
  cbn. destruct (join X) as [|[] l]; cbn; rewrite <- ?app_assoc; reflexivity.
Qed.
Definition is_str (e : event) : bool := match e with Str _ => true | _ => false end.
Lemma join_non e X : is_str e = false -> join (e :: X) = e :: join X.
Proof. destruct e; cbn; intros H; try discriminate; reflexivity. Qed.
Definition no_str_first (X : list event) : Prop := match X with e :: _ => is_str e = false | [] => True end.
Lemma join_str_stop a X : no_str_first X -> join (Str a :: X) = Str a :: join X.
Proof. destruct X as [|e X]; intros H; [reflexivity|]. cbn in H. destruct e; cbn in *; try discriminate; reflexivity. Qed.

Section Canon.
Variables (src : bytes) (pp : prepass).

(** ** The events handed out *)

(** The public events handed out from state [s] on, while the lines [ls] are fed when more input is
    needed. *)
Inductive Out : istate -> list span -> list event -> Prop :=
| Out_emit s ls e s1 ev evs :
    (forall n nf, pc (eq (Some e, s1)) (i_next n nf src s)) ->
    match ik e with IAttributes _ _ => False | _ => True end ->
    pc (fun x => fst x = ev) (inline_event src pp s1 e []) ->
    Out s1 ls evs -> Out s ls (ev :: evs)
| Out_feed s l ls s1 evs :
    (forall n nf, pc (eq (None, s1)) (i_next n nf src s)) ->
    (forall s2, i_feed_line src s1 l (is_nil ls) = Ok s2 -> Out s2 ls evs) -> Out s (l :: ls) evs
| Out_end s s1 :
    (forall n nf, pc (eq (None, s1)) (i_next n nf src s)) -> Out s [] []
| Out_stuck s ls evs : (forall n nf x, i_next n nf src s <> Ok x) -> Out s ls evs.

Lemma Out_skip s s' ls X :
  (forall n nf x, i_next n nf src s = Ok x -> exists n' nf', i_next n' nf' src s' = Ok x) ->
  Out s' ls X -> Out s ls X.
Proof.
  intros H K. inversion K as [? ? e s1 ev evs K1 K2 K3 K4|? l ls' s1 evs K1 K2|? s1 K1|? ? ? K1]; subst.
  - eapply Out_emit; eauto. intros n nf x E. destruct (H _ _ _ E) as (n' & nf' & E'). apply (K1 _ _ _ E').
  - eapply Out_feed; eauto. intros n nf x E. destruct (H _ _ _ E) as (n' & nf' & E'). apply (K1 _ _ _ E').
  - eapply Out_end. intros n nf x E. destruct (H _ _ _ E) as (n' & nf' & E'). apply (K1 _ _ _ E').
  - apply Out_stuck. intros n nf x E. destruct (H _ _ _ E) as (n' & nf' & E'). apply (K1 _ _ _ E').
Qed.

(** One iteration of the buffering loop. *)
Lemma Out_step s ls X : must_buffer s = true ->
  pc (fun y => fst y = FContinue /\ Out (snd y) ls X) (parse_event src s) -> Out s ls X.
Proof.
  intros M H. destruct (parse_event src s) as [[fl s1]| |] eqn:E.
  - destruct (H _ eq_refl) as [Hf K]. cbn in Hf, K. subst fl. eapply Out_skip; [|exact K].
    intros n nf x Ex. exists n, nf. destruct n as [|n]; [discriminate Ex|]. destruct nf as [|nf]; [discriminate Ex|].
    cbn [i_next] in Ex. apply bind_ok in Ex as (y & E1 & E2). cbn [fill] in E1. rewrite M, E in E1. cbn [bind] in E1.
    apply fill_mono with (f' := S nf) in E1; [|lia]. cbn [i_next]. rewrite E1. exact E2.
  - apply Out_stuck. intros n nf x Ex. destruct n as [|n]; [discriminate Ex|]. destruct nf as [|nf]; [discriminate Ex|].
    cbn [i_next] in Ex. apply bind_ok in Ex as (y & E1 & E2). cbn [fill] in E1. rewrite M, E in E1. discriminate E1.
  - apply Out_stuck. intros n nf x Ex. destruct n as [|n]; [discriminate Ex|]. destruct nf as [|nf]; [discriminate Ex|].
    cbn [i_next] in Ex. apply bind_ok in Ex as (y & E1 & E2). cbn [fill] in E1. rewrite M, E in E1. discriminate E1.
Qed.

(** ** The public events of the buffered events *)

(** Public containers depend on the table of strings only. *)
Definition ic (cow : list bytes) (c : icont) : res (container * attrs) :=
  inline_container pp (s_set_cow i_new cow) c.
Lemma ic_is s c : inline_container pp s c = ic (s_cow s) c.
Proof. destruct c; reflexivity. Qed.
Lemma ic_grow cow w c x : ic cow c = Ok x -> ic (cow ++ w) c = Ok x.
Proof.
  unfold ic. destruct c; auto; cbn [inline_container s_cow s_set_cow]; intros H;
    apply bind_ok in H as (u & E & H); apply get_at_ok in E;
    assert (nth_error (cow ++ w) i = Some u) as E' by (rewrite nth_error_app1; [exact E|apply nth_error_Some; congruence]);
    rewrite (get_at_yes _ _ _ _ E'); exact H.
Qed.

Definition strl (e : iev) : bool := match ik e with IStr | IPlaceholder => true | _ => false end.

Definition ev1 (cow : list bytes) (e : iev) (D : list event) : Prop :=
  match ik e with
  | IStr => ss (isp e) <= se (isp e) /\ D = if sp_empty (isp e) then [] else [Str (slice src (isp e))]
  | IPlaceholder => ss (isp e) = se (isp e) /\ D = []
  | IEnter c => exists t da, ic cow c = Ok (t, da) /\ D = [Start t da]
  | IExit c => exists t da, ic cow c = Ok (t, da) /\ D = [End_ t]
  | IAtom a => D = [atom_event a]
  | IEmpty | IAttributes _ _ => False
  end.
Inductive Den (cow : list bytes) : list iev -> list event -> Prop :=
| Den_nil : Den cow [] []
| Den_cons e E d D : ev1 cow e d -> Den cow E D -> Den cow (e :: E) (d ++ D).

Lemma ev1_grow cow w e d : ev1 cow e d -> ev1 (cow ++ w) e d.
Proof.
  unfold ev1. destruct (ik e); auto; intros (t & da & H & ->); exists t, da; (split; [apply ic_grow; exact H|reflexivity]).
Qed.
Lemma Den_grow cow w E D : Den cow E D -> Den (cow ++ w) E D.
Proof. induction 1; constructor; auto. apply ev1_grow. auto. Qed.
Lemma Den_app cow E1 D1 E2 D2 : Den cow E1 D1 -> Den cow E2 D2 -> Den cow (E1 ++ E2) (D1 ++ D2).
Proof. induction 1; intros H2; cbn; auto. rewrite <- app_assoc. constructor; auto. Qed.
Lemma Den_one cow e d : ev1 cow e d -> Den cow [e] d.
Proof. intros H. rewrite <- (app_nil_r d). constructor; auto. constructor. Qed.
Lemma Den_split cow E1 E2 D : Den cow (E1 ++ E2) D -> exists D1 D2, D = D1 ++ D2 /\ Den cow E1 D1 /\ Den cow E2 D2.
Proof.
  revert D. induction E1 as [|e E1 IH]; cbn; intros D H.
  - exists [], D. repeat split; auto. constructor.
  - inversion H as [|? ? d D' H1 H2]; subst. destruct (IH _ H2) as (D1 & D2 & -> & A1 & A2).
    exists (d ++ D1), D2. rewrite app_assoc. repeat split; auto. constructor; auto.
Qed.

(** Text events in sequence are adjacent; a last text event ends at [q]. *)
Fixpoint chain (E : list iev) (q : nat) : Prop :=
  match E with
  | [] => True
  | a :: E' => match E' with
               | [] => strl a = true -> se (isp a) = q
               | b :: _ => strl a = true -> strl b = true -> se (isp a) = ss (isp b)
               end /\ chain E' q
  end.
Lemma chain_tl e E q : chain (e :: E) q -> chain E q.
Proof. cbn. intros [_ H]. exact H. Qed.
Lemma chain_push E e p q : chain E p -> (strl e = true -> ss (isp e) = p /\ se (isp e) = q) -> chain (E ++ [e]) q.
Proof.
  intros H He. induction E as [|a E IH]; cbn [app].
  - cbn. split; auto. intros X. apply He. exact X.
  - destruct E as [|b E].
    + cbn in *. destruct H as [H _]. repeat split; auto.
      * intros X Y. rewrite H by auto. symmetry. apply He. exact Y.
      * intros X. apply He. exact X.
    + destruct H as [H1 H2]. split; [exact H1|]. apply IH. exact H2.
Qed.
(** Turning text into other events keeps the rest adjacent. *)
Lemma chain_weak E E' q : Forall2 (fun e e' => strl e' = true -> strl e = true /\ isp e = isp e') E E' ->
  chain E q -> chain E' q.
Proof.
  induction 1 as [|e e' E E' H1 H2 IH]; intros H; [exact I|].
  destruct H as [H H']. split; [|apply IH; exact H'].
  destruct H2 as [|b b' E E' H2 H3].
  - intros X. destruct (H1 X) as [Y <-]. auto.
  - intros X X'. destruct (H1 X) as [Y <-]. destruct (H2 X') as [Y' <-]. auto.
Qed.

(** Merging adjacent text. *)
Lemma sp_empty_slice sp : sp_empty sp = true -> slice src sp = [].
Proof.
  unfold sp_empty, slice. intros H. apply negb_true_iff, Nat.ltb_ge in H. replace (se sp - ss sp) with 0 by lia. reflexivity.
Qed.
Definition hd_ok (E : list iev) (sp : span) : Prop :=
  match E with e :: _ => strl e = true -> se sp = ss (isp e) | [] => True end.
Lemma merge_is cow : forall E sp D post q, Den cow E D -> chain E q -> ss sp <= se sp -> hd_ok E sp ->
  exists E2 sp2 D2 E1, merge_loop E sp = (E2, sp2) /\ E = E1 ++ E2 /\ Den cow E2 D2 /\ chain E2 q
    /\ match E2 with e :: _ => strl e = false | [] => True end
    /\ join (Str (slice src sp) :: D ++ post) = join (Str (slice src sp2) :: D2 ++ post).
Proof.
  induction E as [|e E IH]; intros sp D post q HD HC Hs Hh.
  - inversion HD; subst. exists [], sp, [], []. repeat split; auto.
  - inversion HD as [|? ? d D' H1 H2]; subst. cbn [merge_loop].
    destruct (strl e) eqn:Es.
    + assert (match ik e with IStr | IPlaceholder => true | _ => false end = true) as -> by exact Es.
      cbn in Hh. rewrite (Hh Es), Nat.eqb_refl. cbn [andb].
      assert (ss (isp e) <= se (isp e) /\ d = if sp_empty (isp e) then [] else [Str (slice src (isp e))]) as [L ->].
      { unfold ev1 in H1. unfold strl in Es. destruct (ik e); try discriminate Es; auto.
        destruct H1 as [K ->]. unfold sp_empty. rewrite K, Nat.ltb_irrefl. auto. }
      specialize (Hh Es).
      destruct (IH (Sp (ss sp) (se (isp e))) D' post q H2) as (E2 & sp2 & D2 & E1 & A1 & A2 & A3 & A4 & A5 & A6).
      * apply chain_tl in HC. exact HC.
      * cbn. lia.
      * destruct E as [|b E]; [exact I|]. destruct HC as [HC _]. cbn. intros X. apply HC; auto.
      * exists E2, sp2, D2, (e :: E1). subst E. repeat split; auto. rewrite <- A6.
        assert (slice src (Sp (ss sp) (se (isp e))) = slice src sp ++ slice src (isp e)) as ->.
        { destruct sp as [a b], (isp e) as [a' b']. cbn in *. subst a'. symmetry. apply slice_app; lia. }
        destruct (sp_empty (isp e)) eqn:Ee.
        -- rewrite (sp_empty_slice _ Ee), app_nil_r. reflexivity.
        -- cbn [app]. apply join_str_str.
    + assert (match ik e with IStr | IPlaceholder => true | _ => false end = false) as -> by exact Es.
      cbn [andb]. exists (e :: E), sp, (d ++ D'), []. split; [reflexivity|]. split; [reflexivity|]. split; [exact HD|]. split; [exact HC|]. split; [exact Es|reflexivity].
Qed.

Lemma Den_no_attr cow E D : Den cow E D -> front_word_attr E = false.
Proof.
  intros H. destruct H as [|e E d D H1 _]; [reflexivity|]. destruct e as [k sp]. unfold ev1 in H1. cbn in *.
  destruct k; try reflexivity. destruct H1.
Qed.
Lemma no_str_head cow e E D : Den cow (e :: E) D -> strl e = false -> exists x X, D = x :: X /\ is_str x = false.
Proof.
  intros H Hs. inversion H as [|? ? d D' H1 H2]; subst. unfold ev1 in H1. unfold strl in Hs.
  destruct (ik e) eqn:K; try discriminate Hs; try contradiction.
  - destruct H1 as (? & ? & _ & ->). eexists _, _. split; reflexivity.
  - destruct H1 as (? & ? & _ & ->). eexists _, _. split; reflexivity.
  - subst d. destruct a as [| | | | | | | | |[] []]; eexists _, _; split; reflexivity.
Qed.

(** ** Handing out the buffered events *)
Section Flush.
Variables (lx : lexer) (cpl : bool) (line : span) (p : nat) (cow : list bytes) (ls : list span) (post : list event).
Variable fok : list iev -> Prop.
Let g (E : list iev) (sp : span) : istate := IS (In lx cpl line [] sp) [] E None None cow [].
Hypothesis fok_tl : forall E1 E2, fok (E1 ++ E2) -> E2 = [] \/ fok E2.
Hypothesis ready : forall E sp, E <> [] -> fok E -> se sp = p ->
  exists sp', se sp' = p /\ forall nf, pc (eq (true, g E sp')) (fill nf src (g E sp)).
Hypothesis fok_last : forall E, fok E -> E <> [] ->
  post = [] \/ exists A e, E = A ++ [e] /\ strl e = false.

Lemma flush_gen : (forall sp, se sp = p -> Out (g [] sp) ls (join post)) ->
  forall n E D q, length E < n -> (E = [] \/ fok E) -> Den cow E D -> chain E q ->
  forall sp, se sp = p -> Out (g E sp) ls (join (D ++ post)).
Proof.
  intros Hbase n. induction n as [|n IH]; intros E D q Hl Hf HD HC sp Hp; [lia|].
  destruct E as [|e E].
  { assert (D = []) as -> by (inversion HD; reflexivity). apply Hbase. exact Hp. }
  destruct Hf as [Hf|Hf]; [discriminate Hf|].
  destruct (ready (e :: E) sp ltac:(discriminate) Hf Hp) as (sp' & Hp' & Hr).
  assert (exists d D', D = d ++ D' /\ ev1 cow e d /\ Den cow E D') as (d & D' & -> & H1 & H2)
    by (inversion HD as [|e0 E0 d D' H1 H2]; eauto).
  assert (HE : E = [] \/ fok E) by (apply (fok_tl [e] E); exact Hf).
  (* the first event is taken off *)
  assert (Hpop : forall m nf x, i_next (S m) nf src (g (e :: E) sp) = Ok x ->
            match ik e with
            | IStr => if sp_empty (isp e) && negb (front_word_attr E) then i_next m nf src (g E sp')
                      else let! (e', evs') := merge_str_events src E (isp e) in
                           Ok (Some e', g evs' sp')
            | IPlaceholder => i_next m nf src (g E sp')
            | _ => Ok (Some e, g E sp')
            end = Ok x).
  { intros m nf x Ex. cbn [i_next] in Ex. apply bind_ok in Ex as (y & E1 & E2). rewrite <- (Hr _ _ E1) in E2.
    exact E2. }
  destruct (strl e) eqn:Es.
  - destruct (ik e) eqn:Ek; unfold strl in Es; rewrite Ek in Es; try discriminate Es.
    + unfold ev1 in H1. rewrite Ek in H1. destruct H1 as [L ->].
      rewrite (Den_no_attr _ _ _ H2) in Hpop. cbn [negb] in Hpop. rewrite andb_true_r in Hpop.
      destruct (sp_empty (isp e)) eqn:Ee.
      * eapply Out_skip; [|apply (IH E D' q ltac:(cbn in Hl; lia) HE H2 (chain_tl _ _ _ HC) sp' Hp')].
        intros [|m] nf x Ex; [discriminate Ex|]. exists m, nf. apply Hpop. exact Ex.
      * destruct (merge_is cow E (isp e) D' post q H2) as (E2 & sp2 & D2 & E1 & A1 & A2 & A3 & A4 & A5 & A6).
        -- eapply chain_tl; eauto.
        -- exact L.
        -- destruct E as [|b E]; [exact I|]. cbn. intros X. destruct HC as [HC _]. apply HC; auto.
           unfold strl. rewrite Ek. reflexivity.
        -- cbn [app]. rewrite A6. unfold merge_str_events in Hpop. rewrite A1, (Den_no_attr _ _ _ A3) in Hpop. cbn [bind] in Hpop.
           assert (Hs : no_str_first (D2 ++ post)).
           { destruct E2 as [|e2 E2].
             - inversion A3; subst D2. cbn. destruct (fok_last _ Hf ltac:(discriminate)) as [-> |(A & e1 & HA & He1)]; [exact I|].
               exfalso. subst E. rewrite app_nil_r in *. revert He1.
               assert (Hall : forall E' sp sp', merge_loop E' sp = ([], sp') -> forall e, List.In e E' -> strl e = true).
               { clear. induction E' as [|a E' IH]; intros sp sp' H e []; subst; cbn [merge_loop] in H.
                 - unfold strl. destruct (match ik e with IStr | IPlaceholder => true | _ => false end && _) eqn:K; [|discriminate].
                   apply andb_prop in K as [K _]. exact K.
                 - destruct (_ && _) in H; [|discriminate]. eapply IH; eauto. }
               assert (List.In e1 (e :: E1)) as Hi by (rewrite HA; apply in_or_app; right; left; reflexivity).
               destruct Hi as [-> |Hi]; [unfold strl; rewrite Ek; discriminate|]. rewrite (Hall _ _ _ A1 _ Hi). discriminate.
             - destruct (no_str_head _ _ _ _ A3 A5) as (x & X & -> & Hx). exact Hx. }
           rewrite join_str_stop by exact Hs.
           eapply Out_emit with (e := IE IStr sp2) (s1 := g E2 sp').
           ++ intros [|m] nf x Ex; [discriminate Ex|]. apply Hpop in Ex. injection Ex as <-. reflexivity.
           ++ exact I.
           ++ cbn [inline_event ik isp]. eapply pc_bind; [apply pc_ssub|]. intros t <-. cbn. apply pc_ok. reflexivity.
           ++ apply (IH E2 D2 q); auto.
              ** subst E. cbn in Hl. rewrite app_length in Hl. lia.
              ** subst E. apply (fok_tl (e :: E1) E2). exact Hf.
    + unfold ev1 in H1. rewrite Ek in H1. destruct H1 as [_ ->]. cbn [app].
      eapply Out_skip; [|apply (IH E D' q ltac:(cbn in Hl; lia) HE H2 (chain_tl _ _ _ HC) sp' Hp')].
      intros [|m] nf x Ex; [discriminate Ex|]. exists m, nf. apply Hpop. exact Ex.
  - assert (exists ev, d = [ev] /\ is_str ev = false /\ pc (fun x => fst x = ev) (inline_event src pp (g E sp') e [])) as (ev & -> & Hn & He).
    { unfold ev1 in H1. unfold inline_event. unfold strl in Es. destruct (ik e) eqn:Ek; try discriminate Es; try contradiction.
      - destruct H1 as (t & da & A & ->). eexists. split; [reflexivity|]. split; [reflexivity|].
        rewrite ic_is. cbn [s_cow g]. rewrite A. cbn [bind]. rewrite app_nil_r. apply pc_ok. reflexivity.
      - destruct H1 as (t & da & A & ->). eexists. split; [reflexivity|]. split; [reflexivity|].
        rewrite ic_is. cbn [s_cow g]. rewrite A. cbn. apply pc_ok. reflexivity.
      - subst d. eexists. split; [reflexivity|]. split; [destruct a as [| | | | | | | | |[] []]; reflexivity|]. cbn. apply pc_ok. reflexivity. }
    cbn [app]. rewrite join_non by exact Hn.
    eapply Out_emit with (e := e) (s1 := g E sp').
    + intros [|m] nf x Ex; [discriminate Ex|]. apply Hpop in Ex. unfold strl in Es.
      destruct (ik e); try discriminate Es; injection Ex as <-; reflexivity.
    + unfold ev1 in H1. destruct (ik e); auto.
    + exact He.
    + apply (IH E D' q ltac:(cbn in Hl; lia) HE H2 (chain_tl _ _ _ HC) sp' Hp').
Qed.
End Flush.

Lemma lex_end_same v l : LX v false l [] -> lex_next l = Ok (None, l).
Proof.
  destruct l as [ls0 lp le ln lv]. intros (H1 & H2 & H3 & H4 & H5). cbn in *. subst.
  unfold lex_next, next_token, lex_token. cbn. rewrite H4. cbn. rewrite Nat.add_0_r. reflexivity.
Qed.

(** One step of the parser, by the token. *)
Definition handle (s : istate) (first : token) : res (option flow * istate) :=
  or_else (or_else (or_else (or_else (or_else (or_else
    (parse_verbatim src s first)
    (fun s => parse_attributes src s first))
    (fun s => parse_autolink src s first))
    (fun s => parse_symbol src s first))
    (fun s => parse_footnote_reference src s first))
    (fun s => iparse_container src s first))
    (fun s => parse_atom s first).
Lemma pe_eq lx cpl line ah sp O E v a cow ats :
  parse_event src (IS (In lx cpl line ah sp) O E v a cow ats)
  = let! (t, l) := lex_next lx in
    match t with
    | Some first =>
        let! (o, s) := handle (IS (In l cpl line ah (Sp (se sp) (se sp + tlen first))) O E v a cow ats) first in
        Ok (match o with Some f => (f, s) | None => (FContinue, push s IStr) end)
    | None => Ok (if cpl && is_nil ah then FDone else FNext, IS (In l cpl line ah (Sp (se sp) (se sp))) O E v a cow ats)
    end.
Proof.
  unfold parse_event, in_eat. cbn [s_in s_set_in in_reset_span in_set_span i_span i_lex in_set_lex].
  destruct (lex_next lx) as [[[t|] l]| |]; reflexivity.
Qed.

(** At a place where the buffer may be emptied. *)
Lemma flush_mid lx cpl line p cow ls post E D q :
  (forall A e, E = A ++ [e] -> strl e = false) ->
  Den cow E D -> chain E q ->
  (forall sp, se sp = p -> Out (IS (In lx cpl line [] sp) [] [] None None cow []) ls (join post)) ->
  forall sp, se sp = p -> Out (IS (In lx cpl line [] sp) [] E None None cow []) ls (join (D ++ post)).
Proof.
  intros HL HD HC HB sp Hp.
  eapply (flush_gen lx cpl line p cow ls post (fun E => exists A e, E = A ++ [e] /\ strl e = false)) with (n := S (length E)); eauto.
  - intros E1 E2 (A & e & HA & He). destruct (rev_case E2) as [-> |(B & x & ->)]; [left; reflexivity|].
    right. rewrite app_assoc in HA. apply app_inj_tail in HA as [_ ->]. eauto.
  - intros E' sp' HE (A & e & -> & He) Hp'. exists sp'. split; [exact Hp'|].
    intros [|nf]; [apply pc_fuel|]. cbn [fill].
    assert (must_buffer (IS (In lx cpl line [] sp') [] (A ++ [e]) None None cow []) = false) as ->.
    { unfold must_buffer. cbn [s_events s_openers s_verb s_attr]. rewrite last_opt_app.
      assert (is_nil (A ++ [e]) = false) as -> by (destruct A; reflexivity). unfold is_istr, strl in *.
      destruct (ik e); auto; discriminate. }
    apply pc_ok. reflexivity.
  - destruct (rev_case E) as [-> |(A & e & ->)]; [left; reflexivity|right; eauto].
Qed.

(** At the end of the input. *)
Lemma flush_end lx line p cow E D q : LX false false lx [] -> Den cow E D -> chain E q ->
  forall sp, se sp = p -> Out (IS (In lx true line [] sp) [] E None None cow []) [] (join D).
Proof.
  intros HL HD HC sp Hp. rewrite <- (app_nil_r D).
  assert (Hfill : forall E sp, se sp = p -> exists sp', se sp' = p /\ forall nf, pc (eq (true, IS (In lx true line [] sp') [] E None None cow [])) (fill nf src (IS (In lx true line [] sp) [] E None None cow []))).
  { clear - HL. intros E sp Hp. destruct (must_buffer (IS (In lx true line [] sp) [] E None None cow [])) eqn:M.
    - exists (Sp p p). split; [reflexivity|]. intros [|nf]; [apply pc_fuel|]. cbn [fill]. rewrite M.
      rewrite pe_eq, (lex_end_same _ _ HL). cbn. rewrite Hp. apply pc_ok. reflexivity.
    - exists sp. split; [exact Hp|]. intros [|nf]; [apply pc_fuel|]. cbn [fill]. rewrite M. apply pc_ok. reflexivity. }
  eapply (flush_gen lx true line p cow [] [] (fun E => True)) with (n := S (length E)); eauto.
  intros sp1 Hp1. destruct (Hfill [] sp1 Hp1) as (sp' & _ & Hr).
  eapply Out_end. intros [|n] nf; [apply pc_fuel|]. cbn [i_next]. eapply pc_bind; [apply Hr|].
  intros y <-. cbn. apply pc_ok. reflexivity.
Qed.
End Canon.
