(** * PSink: the renderer of [Sink.v] writes what [Html.v] says, in order, until a write fails. *)
From Verif Require Import Base Lib Lex Attr Block Inline Doc Html Sink.
Local Open Scope nat_scope.

Section Writer.
Context {W : Type}.
Variable put : W -> bytes -> W * bool.
Notation "'let?' x ':=' e 'in' k" := (bindM e (fun x => k)) (at level 200, x pattern, right associativity).
Notation "e ;; k" := (bindM e (fun _ => k)) (at level 100, right associativity).

(** Writing pieces one after the other, until one is refused. *)
Fixpoint feed (cs : list bytes) (w : W) : W * bool :=
  match cs with
  | [] => (w, true)
  | t :: cs' => let (w', ok) := put w t in if ok then feed cs' w' else (w', false)
  end.
Definition run {A} (r : res (A * bytes)) (cs : list bytes) (w : W) : res (W * option A) :=
  let (w', ok) := feed cs w in
  if ok then match r with Ok (a, _) => Ok (w', Some a) | Panic x => Panic x | Fuel => Fuel end else Ok (w', None).
Definition emits {A} (m : @M W A) (r : res (A * bytes)) : Prop :=
  exists cs, match r with Ok (_, o) => concat cs = o | _ => True end /\ forall w, m w = run r cs w.

Lemma feed_app a b w : feed (a ++ b) w = let (w', ok) := feed a w in if ok then feed b w' else (w', false).
Proof.
  revert w. induction a as [|t a IH]; intros w; [reflexivity|]. cbn [app feed]. destruct (put w t) as [w' [|]]; [apply IH|reflexivity].
Qed.

Definition andthen {A C} (r : res (A * bytes)) (g : A -> res (C * bytes)) : res (C * bytes) :=
  let! (a, o) := r in let! (b, o') := g a in Ok (b, o ++ o').

Lemma emits_ret A (a : A) : emits (ret a) (Ok (a, [])).
Proof. exists []. split; [reflexivity|intros w; reflexivity]. Qed.
Lemma emits_lift A (r : res A) : emits (lift r) (let! a := r in Ok (a, [])).
Proof. exists []. destruct r; split; try reflexivity; try exact I; intros w; reflexivity. Qed.
Lemma emits_fuel A : emits (A := A) (fun _ => Fuel) Fuel.
Proof. exists []. split; [exact I|intros w; reflexivity]. Qed.
Lemma emits_wr t : emits (wr put t) (Ok (tt, t)).
Proof.
  exists [t]. split; [cbn; apply app_nil_r|]. intros w. unfold wr, run. cbn [feed]. destruct (put w t) as [w' [|]]; reflexivity.
Qed.
Lemma emits_bind A C (m : @M W A) (f : A -> @M W C) r g :
  emits m r -> (forall a o, r = Ok (a, o) -> emits (f a) (g a)) -> emits (bindM m f) (andthen r g).
Proof.
  intros (cs & E & H) F. destruct r as [ [a o]|x|].
  - destruct (F a o eq_refl) as (cs' & E' & H'). exists (cs ++ cs'). unfold andthen. cbn [bind]. split.
    + destruct (g a) as [ [b o']|x|]; cbn [bind]; [|exact I|exact I]. rewrite concat_app, E, E'. reflexivity.
    + intros w. unfold bindM. rewrite H. unfold run. rewrite feed_app. destruct (feed cs w) as [w' [|]]; [|reflexivity].
      cbn [bind]. rewrite H'. unfold run. destruct (feed cs' w') as [w'' [|]]; [|reflexivity].
      destruct (g a) as [ [b o']|x|]; reflexivity.
  - exists cs. split; [exact I|]. intros w. unfold bindM. rewrite H. unfold run. destruct (feed cs w) as [w' [|]]; reflexivity.
  - exists cs. split; [exact I|]. intros w. unfold bindM. rewrite H. unfold run. destruct (feed cs w) as [w' [|]]; reflexivity.
Qed.
Lemma emits_eq A (m : @M W A) r r' : emits m r -> r = r' -> emits m r'.
Proof. intros H <-. exact H. Qed.

Ltac seqe := eapply emits_bind; [|intros ? ? _].
(** Equal results: the calls one after the other, and then the texts. *)
Ltac fin := unfold andthen; cbn [bind]; repeat rewrite app_nil_r; repeat rewrite <- app_assoc; try reflexivity.

Lemma emits_each A (f : A -> @M W unit) g l : (forall x, List.In x l -> emits (f x) (Ok (tt, g x))) -> emits (each f l) (Ok (tt, concat (map g l))).
Proof.
  induction l as [|x l IH]; intros H; [apply emits_ret|]. cbn [each map concat].
  eapply emits_eq; [eapply emits_bind; [apply (H x); left; reflexivity|intros ? ? _; apply IH; intros y Y; apply H; right; exact Y]|]. fin.
Qed.
Lemma emits_wrs l : emits (wrs put l) (Ok (tt, concat l)).
Proof.
  induction l as [|t l IH]; [apply emits_ret|]. cbn [wrs concat].
  eapply emits_eq; [eapply emits_bind; [apply emits_wr|intros ? ? _; exact IH]|]. fin.
Qed.
Lemma emits_escape q s : forall pre, emits (m_escape put q pre s) (Ok (tt, pre ++ escape q s)).
Proof.
  induction s as [|c s IH]; intros pre; cbn [m_escape escape]; [rewrite app_nil_r; apply emits_wr|].
  destruct (entity q c) as [e|].
  - eapply emits_eq; [eapply emits_bind; [apply emits_wr|intros ? ? _; eapply emits_bind; [apply emits_wr|intros ? ? _; apply (IH [])]]|]. fin.
  - eapply emits_eq; [apply IH|]. rewrite <- app_assoc. reflexivity.
Qed.
Lemma emits_text s : emits (m_text put s) (Ok (tt, write_text s)).
Proof. apply (emits_escape false s []). Qed.
Lemma emits_attr s : emits (m_attr put s) (Ok (tt, write_attr s)).
Proof. apply (emits_escape true s []). Qed.
Lemma emits_indent s : emits (m_indent put s) (Ok (tt, w_indent s)).
Proof.
  unfold m_indent, w_indent. destruct (r_indent s) as [ [|c l]|]; [|..].
  - eapply emits_eq; [apply emits_ret|]. do 2 f_equal. induction (r_depth s); [reflexivity|]. cbn [repeat concat app]. assumption.
  - eapply emits_eq; [apply emits_each; intros x _; apply emits_wr|]. rewrite map_id. reflexivity.
  - apply emits_ret.
Qed.
Lemma emits_when (b : bool) t : emits (if b then ret tt else wr put t) (Ok (tt, if b then [] else t)).
Proof. destruct b; [apply emits_ret|apply emits_wr]. Qed.
Lemma emits_block s d : emits (m_block put s d) (w_block s d).
Proof.
  unfold m_block, w_block. destruct (r_indent s) eqn:I; [|apply emits_ret].
  destruct d; [| |destruct (r_depth s) eqn:D]; (eapply emits_eq; [eapply emits_bind; [apply emits_when|intros ? ? _]|]);
    try (eapply emits_bind; [apply emits_indent|intros ? ? _; apply emits_ret]).
  - unfold andthen. cbn [bind]. rewrite app_nil_r. reflexivity.
  - unfold andthen. cbn [bind]. rewrite app_nil_r. reflexivity.
  - eapply emits_bind; [apply emits_lift|intros n ? _]. eapply emits_bind; [apply (emits_indent (r_set_depth s n))|intros ? ? _; apply emits_ret].
  - reflexivity.
  - eapply emits_bind; [apply emits_lift|intros n0 ? _]. eapply emits_bind; [apply (emits_indent (r_set_depth s n0))|intros ? ? _; apply emits_ret].
  - unfold andthen. cbn [bind app]. rewrite app_nil_r. reflexivity.
Qed.
Lemma emits_class c fw : emits (m_class put c fw) (Ok (tt, write_class c fw)).
Proof.
  unfold m_class, write_class. cbv zeta.
  eapply emits_eq; [eapply emits_bind|]; [..|].
  - instantiate (1 := Ok (tt, match (match c with ListC (LkTask _) _ => Some (B "task-list") | Math false => Some (B "math inline") | Math true => Some (B "math display") | _ => None end) with Some s => s | None => [] end)).
    match goal with |- emits match ?o with _ => _ end _ => destruct o end; [apply emits_wr|apply emits_ret].
  - intros a o _. instantiate (1 := fun _ => Ok (tt, match c with Div class => match class with [] => [] | _ => (if fw then [SP] else []) ++ class end | _ => [] end)). cbv beta.
    destruct c; try apply emits_ret. destruct class as [|x l]; [apply emits_ret|].
    eapply emits_eq; [eapply emits_bind; [|intros ? ? _; apply emits_wr]|].
    + instantiate (1 := Ok (tt, if fw then [SP] else [])). destruct fw; [apply emits_wr|apply emits_ret].
    + reflexivity.
  - unfold andthen. cbn [bind]. destruct c; try reflexivity; match goal with |- context[match ?k with _ => _ end] => destruct k end; reflexivity.
Qed.
Lemma emits_pair f g kv : (forall k, emits (f k) (Ok (tt, g k))) -> emits (m_pair put f kv) (Ok (tt, write_pair g kv)).
Proof.
  intros H. unfold m_pair, write_pair.
  eapply emits_eq; [eapply emits_bind; [apply emits_wrs|intros ? ? _; eapply emits_bind; [apply emits_each; intros x _; apply emits_attr|intros ? ? _; eapply emits_bind; [apply H|intros ? ? _; apply emits_wr]]]|].
  unfold andthen. cbn [bind concat]. rewrite <- ?app_assoc. reflexivity.
Qed.
Lemma quoted_eq name v : quoted name v = ([SP] ++ name ++ B "=" ++ [DQ]) ++ v ++ [DQ].
Proof. unfold quoted. rewrite <- ?app_assoc. reflexivity. Qed.
Lemma emits_quoted m name v pre : pre = [SP] ++ name ++ B "=" ++ [DQ] -> emits m (Ok (tt, v)) -> emits (wr put pre ;; m ;; wr put [DQ]) (Ok (tt, quoted name v)).
Proof.
  intros -> H. eapply emits_eq; [eapply emits_bind; [apply emits_wr|intros ? ? _; eapply emits_bind; [exact H|intros ? ? _; apply emits_wr]]|].
  unfold andthen. cbn [bind]. rewrite quoted_eq. reflexivity.
Qed.
Lemma emits_attrs c a : emits (m_attrs put c a) (Ok (tt, write_attrs c a)).
Proof.
  unfold m_attrs, write_attrs. cbv zeta.
  eapply emits_eq; [eapply emits_bind; [apply emits_each; intros kv _; apply emits_pair with (g := fun k => if bytes_eqb k (B "class") then write_class c true else []);
     intros k; destruct (bytes_eqb k (B "class")); [apply emits_class|apply emits_ret]|intros ? ? _]|].
  - instantiate (1 := fun _ => Ok (tt, match c with
     | Heading _ false id | Section_ id => if existsb (fun p => bytes_eqb (fst p) (B "id")) (unique_pairs a) then [] else quoted (B "id") (write_attr id)
     | Div (_ :: _) | Math _ | ListC (LkTask _) _ =>
         if existsb (fun p => bytes_eqb (fst p) (B "class")) (unique_pairs a) then [] else quoted (B "class") (write_class c false)
     | _ => [] end)). cbv beta.
    generalize (existsb (fun p => bytes_eqb (fst p) (B "id")) (unique_pairs a)) (existsb (fun p => bytes_eqb (fst p) (B "class")) (unique_pairs a)).
    intros hi hc.
    destruct c; try apply emits_ret;
      try (destruct hi; [apply emits_ret|apply emits_quoted; [reflexivity|apply emits_attr]]).
    + destruct k; try apply emits_ret. destruct hc; [apply emits_ret|apply emits_quoted; [reflexivity|apply emits_class]].
    + destruct class; [apply emits_ret|]. destruct hc; [apply emits_ret|apply emits_quoted; [reflexivity|apply emits_class]].
    + destruct has_section; [apply emits_ret|]. destruct hi; [apply emits_ret|apply emits_quoted; [reflexivity|apply emits_attr]].
    + destruct hc; [apply emits_ret|apply emits_quoted; [reflexivity|apply emits_class]].
  - reflexivity.
Qed.

Lemma emits_ol nb start : emits (m_ol put nb start) (Ok (tt, B "<ol" ++ ol_attrs nb start)).
Proof.
  unfold m_ol, ol_attrs.
  eapply emits_eq; [eapply emits_bind; [apply emits_wr|intros ? ? _; eapply emits_bind]|]; [..|].
  - instantiate (1 := Ok (tt, if N.ltb 1 start then quoted (B "start") (dec start) else [])). destruct (N.ltb 1 start); [|apply emits_ret].
    eapply emits_eq; [apply emits_wrs|]. rewrite quoted_eq. reflexivity.
  - intros ? ? _. instantiate (1 := fun _ => Ok (tt, match nb with Decimal => [] | AlphaLower => quoted (B "type") (B "a") | AlphaUpper => quoted (B "type") (B "A") | RomanLower => quoted (B "type") (B "i") | RomanUpper => quoted (B "type") (B "I") end)). cbv beta.
    destruct nb; [apply emits_ret|..]; (eapply emits_eq; [apply emits_wrs|]; reflexivity).
  - reflexivity.
Qed.
Definition flat {A} (t : res (A + rstate * bytes)) : res ((A + rstate) * bytes) :=
  match t with Ok (inl s) => Ok (inl s, []) | Ok (inr (s, o)) => Ok (inr s, o) | Panic x => Panic x | Fuel => Fuel end.
Lemma emits_then A m (a : A) o : emits m (Ok (tt, o)) -> emits (m ;; ret a) (Ok (a, o)).
Proof. intros H. eapply emits_eq; [eapply emits_bind; [exact H|intros ? ? _; apply emits_ret]|]. fin. Qed.
Lemma emits_open s c : emits (m_open put s c) (flat (open_tag s c)).
Proof.
  unfold m_open, open_tag. cbv zeta.
  destruct c; cbn [flat]; try (apply emits_then, emits_wr); try apply emits_ret.
  - apply emits_then. destruct k; first [apply emits_wr|apply emits_ol].
  - apply emits_lift.
  - destruct (tight_top s); [apply emits_ret|apply emits_then, emits_wr].
  - apply emits_then. eapply emits_eq; [apply emits_wrs|]. cbn [concat]. rewrite app_nil_r. reflexivity.
  - destruct head; apply emits_then, emits_wr.
  - apply emits_then.
    assert (H : forall pre m, emits m (Ok (tt, pre)) -> emits (wr put (B "<a href=" ++ [DQ]) ;; m ;; m_attr put dst ;; wr put [DQ])
        (Ok (tt, B "<a href=" ++ [DQ] ++ pre ++ write_attr dst ++ [DQ]))).
    { intros pre m H. eapply emits_eq; [eapply emits_bind; [apply emits_wr|intros ? ? _; eapply emits_bind; [exact H|intros ? ? _; eapply emits_bind; [apply emits_attr|intros ? ? _; apply emits_wr]]]|].
      unfold andthen. cbn [bind]. rewrite <- ?app_assoc. reflexivity. }
    destruct ty as [ [| |]| |]; try (apply (H []), emits_ret); [apply emits_wr|apply (H (B "mailto:")), emits_wr].
  - destruct (Nat.eqb _ 1); [apply emits_then, emits_wr|apply emits_ret].
Qed.
Lemma emits_close_open s c : emits (m_close_open put s c) (close_open_tag s c).
Proof.
  unfold m_close_open, close_open_tag. cbv zeta.
  destruct c; try (apply emits_then, emits_wr).
  - eapply emits_eq; [eapply emits_bind; [apply emits_wr|intros ? ? _; eapply emits_bind; [apply emits_block|intros ? ? _; apply emits_then, emits_wr]]|].
    unfold andthen. cbn [bind]. destruct (w_block s DSame) as [ [s' o]|x|]; cbn [bind]; [|reflexivity..]. destruct checked; reflexivity.
  - destruct a; try (apply emits_then, emits_wr);
      (apply emits_then; eapply emits_eq; [apply emits_wrs|]; reflexivity).
  - apply emits_then. destruct language; [apply emits_wr|].
    eapply emits_eq; [eapply emits_bind; [apply emits_wr|intros ? ? _; eapply emits_bind; [apply emits_attr|intros ? ? _; apply emits_wr]]|].
    unfold andthen. cbn [bind]. rewrite <- ?app_assoc. reflexivity.
  - apply emits_then. destruct (Nat.eqb _ 1); [apply emits_wr|apply emits_ret].
Qed.
Lemma emits_close s c : emits (m_close put s c) (flat (close_tag s c)).
Proof.
  unfold m_close, close_tag. cbv zeta.
  destruct c; cbn [flat]; try (apply emits_then, emits_wr); try apply emits_ret; try apply emits_lift.
  - destruct (tight_top s); [apply emits_ret|]. apply emits_then. destruct (Nat.ltb 0 _); [apply emits_ret|apply emits_wr].
  - apply emits_then. eapply emits_eq; [apply emits_wrs|]. cbn [concat]. rewrite app_nil_r. reflexivity.
  - destruct head; apply emits_then, emits_wr.
  - eapply emits_eq; [eapply emits_bind; [|intros ? ? _; eapply emits_bind; [apply emits_lift|intros ? ? _; apply emits_ret]]|].
    + instantiate (1 := Ok (tt, if Nat.eqb (r_img s) 1 then (match src with [] => [] | _ => [DQ] ++ B " src=" ++ [DQ] ++ write_attr src end) ++ [DQ] ++ B ">" else [])).
      destruct (Nat.eqb _ 1); [|apply emits_ret].
      eapply emits_eq; [eapply emits_bind; [|intros ? ? _; apply emits_wr]|].
      * instantiate (1 := Ok (tt, match src with [] => [] | _ => [DQ] ++ B " src=" ++ [DQ] ++ write_attr src end)).
        destruct src; [apply emits_ret|]. eapply emits_eq; [eapply emits_bind; [apply emits_wr|intros ? ? _; apply emits_attr]|]. reflexivity.
      * reflexivity.
    + unfold andthen. cbn [bind]. destruct (usub _ _ _); cbn [bind app flat]; [rewrite app_nil_r|..]; reflexivity.
Qed.

Lemma emits_body me e0 s e : (forall s', emits (me s') (e0 s')) -> emits (m_body put me s e) (render_body e0 s e).
Proof.
  intros HE.
  assert (DONE : forall m s' o, emits m (Ok (tt, o)) -> emits (m ;; ret (r_set_first s' false)) (Ok (r_set_first s' false, o))).
  { intros. apply emits_then. assumption. }
  assert (BLK : forall (b : bool) d, emits (if b then m_block put s d else ret s) (if b then w_block s d else Ok (s, []))).
  { intros [|] d; [apply emits_block|apply emits_ret]. }
  destruct e as [c a|c|t|label|sy| | | | | | | | | | | | |a|a].
  - (* Start *)
    assert (G : emits (let? s := (if is_block c then m_block put s (if is_block_container c then DUp else DSame) else ret s) in
            if Nat.ltb 0 (r_img s) && match c with Image _ _ => false | _ => true end then ret s
            else
              let? t := m_open put s c in
              match t with
              | inl s => ret s
              | inr s => m_attrs put c a ;; let? s := m_close_open put s c in ret (r_set_first s false)
              end)
        (let! (s, o1) := (if is_block c then w_block s (if is_block_container c then DUp else DSame) else Ok (s, [])) in
            if Nat.ltb 0 (r_img s) && match c with Image _ _ => false | _ => true end then Ok (s, o1)
            else
              let! t := open_tag s c in
              match t with
              | inl s => Ok (s, o1)
              | inr (s, o2) => let! (s, o3) := close_open_tag s c in Ok (r_set_first s false, o1 ++ o2 ++ write_attrs c a ++ o3)
              end)).
    { eapply emits_eq; [eapply emits_bind; [apply BLK|]|].
      - intros s1 o1 _. instantiate (1 := fun s1 => if Nat.ltb 0 (r_img s1) && match c with Image _ _ => false | _ => true end then Ok (s1, [])
          else andthen (flat (open_tag s1 c)) (fun t => match t with inl s => Ok (s, []) | inr s => andthen (Ok (tt, write_attrs c a)) (fun _ => andthen (close_open_tag s c) (fun s => Ok (r_set_first s false, []))) end)).
        cbv beta. destruct (_ && _)%bool; [apply emits_ret|].
        eapply emits_bind; [apply emits_open|]. intros [s2|s2] o2 _; [apply emits_ret|].
        eapply emits_bind; [apply emits_attrs|]. intros ? ? _. eapply emits_bind; [apply emits_close_open|]. intros ? ? _. apply emits_ret.
      - unfold andthen. destruct (if is_block c then _ else _) as [ [s1 o1]|x|]; cbn [bind]; [|reflexivity..].
        destruct (_ && _)%bool; [cbn [bind]; rewrite app_nil_r; reflexivity|].
        destruct (open_tag s1 c) as [ [s2|[s2 o2] ]|x|]; cbn [bind flat]; [rewrite app_nil_r; reflexivity| |reflexivity..].
        destruct (close_open_tag s2 c) as [ [s3 o3]|x|]; cbn [bind]; [|reflexivity..]. rewrite !app_nil_r. reflexivity. }
    unfold m_body, render_body. destruct (f_open (r_foot s)) as [|[lab evs] o]; destruct c; try apply emits_ret;
      (destruct (r_ignore s); [apply emits_ret|exact G]).
  - (* End_ *)
    assert (G : emits (let? s := (if is_block_container c then m_block put s DDown else ret s) in
            if Nat.ltb 0 (r_img s) && match c with Image _ _ => false | _ => true end then ret s
            else
              let? t := m_close put s c in
              match t with
              | inl (inl _) => me s
              | inl (inr s) => ret s
              | inr s => ret (r_set_first s false)
              end)
        (let! (s, o1) := (if is_block_container c then w_block s DDown else Ok (s, [])) in
            if Nat.ltb 0 (r_img s) && match c with Image _ _ => false | _ => true end then Ok (s, o1)
            else
              let! t := close_tag s c in
              match t with
              | inl (inl _) => let! (s, o) := e0 s in Ok (s, o1 ++ o)
              | inl (inr s) => Ok (s, o1)
              | inr (s, o2) => Ok (r_set_first s false, o1 ++ o2)
              end)).
    { eapply emits_eq; [eapply emits_bind; [apply BLK|]|].
      - intros s1 o1 _. instantiate (1 := fun s1 => if Nat.ltb 0 (r_img s1) && match c with Image _ _ => false | _ => true end then Ok (s1, [])
          else andthen (flat (close_tag s1 c)) (fun t => match t with inl (inl _) => e0 s1 | inl (inr s) => Ok (s, []) | inr s => Ok (r_set_first s false, []) end)).
        cbv beta. destruct (_ && _)%bool; [apply emits_ret|].
        eapply emits_bind; [apply emits_close|]. intros [ [u|s2]|s2] o2 _; [apply HE|apply emits_ret|apply emits_ret].
      - unfold andthen. destruct (if is_block_container c then _ else _) as [ [s1 o1]|x|]; cbn [bind]; [|reflexivity..].
        destruct (_ && _)%bool; [cbn [bind]; rewrite app_nil_r; reflexivity|].
        destruct (close_tag s1 c) as [ [ [u|s2]|[s2 o2] ]|x|]; cbn [bind flat].
        + destruct (e0 s1) as [ [s2 o2]|x|]; reflexivity.
        + rewrite app_nil_r. reflexivity.
        + rewrite app_nil_r. reflexivity.
        + reflexivity.
        + reflexivity. }
    unfold m_body, render_body. destruct (f_open (r_foot s)) as [|[lab evs] o] eqn:O; destruct c; try apply emits_ret;
      try (destruct (r_ignore s); [apply emits_ret|exact G]).
    eapply emits_eq; [eapply emits_bind; [apply emits_lift|intros ? ? _; apply emits_ret]|].
    unfold andthen. destruct (foot_end _); reflexivity.
  - unfold m_body, render_body. destruct (f_open (r_foot s)) as [|[lab evs] o]; [|apply emits_ret]. destruct (r_ignore s); [apply emits_ret|]. cbv zeta.
    apply DONE. destruct (r_raw s); [destruct (Nat.ltb _ _); [apply emits_attr|apply emits_text]|apply emits_wr|apply emits_ret].
  - unfold m_body, render_body. destruct (f_open (r_foot s)) as [|[lab evs] o]; [|apply emits_ret]. destruct (r_ignore s); [apply emits_ret|]. cbv zeta.
    destruct (foot_reference _ _) as [f n]. apply DONE. destruct (Nat.eqb _ _); [|apply emits_ret].
    eapply emits_eq; [apply emits_wrs|]. cbn [concat]. rewrite <- ?app_assoc. reflexivity.
  - unfold m_body, render_body. destruct (f_open (r_foot s)) as [|[lab evs] o]; [|apply emits_ret]. destruct (r_ignore s); [apply emits_ret|]. cbv zeta.
    apply DONE. eapply emits_eq; [apply emits_wrs|]. cbn [concat]. rewrite ?app_nil_r. reflexivity.
  - unfold m_body, render_body. destruct (f_open (r_foot s)) as [|[lab evs] o]; [|apply emits_ret]. destruct (r_ignore s); [apply emits_ret|]. cbv zeta. apply DONE, emits_wr.
  - unfold m_body, render_body. destruct (f_open (r_foot s)) as [|[lab evs] o]; [|apply emits_ret]. destruct (r_ignore s); [apply emits_ret|]. cbv zeta. apply DONE, emits_wr.
  - unfold m_body, render_body. destruct (f_open (r_foot s)) as [|[lab evs] o]; [|apply emits_ret]. destruct (r_ignore s); [apply emits_ret|]. cbv zeta. apply DONE, emits_wr.
  - unfold m_body, render_body. destruct (f_open (r_foot s)) as [|[lab evs] o]; [|apply emits_ret]. destruct (r_ignore s); [apply emits_ret|]. cbv zeta. apply DONE, emits_wr.
  - unfold m_body, render_body. destruct (f_open (r_foot s)) as [|[lab evs] o]; [|apply emits_ret]. destruct (r_ignore s); [apply emits_ret|]. cbv zeta. apply DONE, emits_wr.
  - unfold m_body, render_body. destruct (f_open (r_foot s)) as [|[lab evs] o]; [|apply emits_ret]. destruct (r_ignore s); [apply emits_ret|]. cbv zeta. apply DONE, emits_wr.
  - unfold m_body, render_body. destruct (f_open (r_foot s)) as [|[lab evs] o]; [|apply emits_ret]. destruct (r_ignore s); [apply emits_ret|]. cbv zeta. apply DONE, emits_wr.
  - unfold m_body, render_body. destruct (f_open (r_foot s)) as [|[lab evs] o]; [|apply emits_ret]. destruct (r_ignore s); [apply emits_ret|]. cbv zeta. apply DONE, emits_wr.
  - (* Softbreak *)
    unfold m_body, render_body. destruct (f_open (r_foot s)) as [|[lab evs] o]; [|apply emits_ret]. destruct (r_ignore s); [apply emits_ret|]. cbv zeta.
    eapply emits_eq; [eapply emits_bind; [apply emits_wr|intros ? ? _; apply DONE; apply emits_indent]|]. reflexivity.
  - (* Hardbreak *)
    unfold m_body, render_body. destruct (f_open (r_foot s)) as [|[lab evs] o]; [|apply emits_ret]. destruct (r_ignore s); [apply emits_ret|]. cbv zeta.
    eapply emits_eq; [eapply emits_bind; [apply emits_wr|intros ? ? _; eapply emits_bind; [apply emits_block|intros ? ? _; apply emits_ret]]|].
    unfold andthen. cbn [bind]. destruct (w_block s DSame) as [ [s' o]|x|]; cbn [bind]; [rewrite app_nil_r|..]; reflexivity.
  - unfold m_body, render_body. destruct (f_open (r_foot s)) as [|[lab evs] o]; [|apply emits_ret]. destruct (r_ignore s); apply emits_ret.
  - unfold m_body, render_body. destruct (f_open (r_foot s)) as [|[lab evs] o]; [|apply emits_ret]. destruct (r_ignore s); apply emits_ret.
  - (* ThematicBreak *)
    unfold m_body, render_body. destruct (f_open (r_foot s)) as [|[lab evs] o]; [|apply emits_ret]. destruct (r_ignore s); [apply emits_ret|]. cbv zeta.
    eapply emits_eq; [eapply emits_bind; [apply emits_block|intros ? ? _; eapply emits_bind; [apply emits_wr|intros ? ? _;
       eapply emits_bind; [apply emits_each; intros kv _; apply emits_pair with (g := fun _ => []); intros; apply emits_ret|intros ? ? _; apply DONE; apply emits_wr]]]|].
    unfold andthen. cbn [bind]. destruct (w_block s DSame) as [ [s' o]|x|]; cbn [bind]; reflexivity.
  - unfold m_body, render_body. destruct (f_open (r_foot s)) as [|[lab evs] o]; [|apply emits_ret]. destruct (r_ignore s); apply emits_ret.
Qed.

Lemma emits_foot_events mr r : (forall s e, emits (mr s e) (r s e)) -> forall evs s u,
  emits (m_foot_events put mr s evs u) (let! (s', o, u') := foot_events r s evs u in Ok ((s', u'), o)).
Proof.
  intros HR. induction evs as [|e evs IH]; intros s u; [apply emits_ret|]. cbn [m_foot_events foot_events].
  destruct e; try apply IH;
    (eapply emits_eq; [eapply emits_bind; [|intros ? ? _; eapply emits_bind; [apply HR|intros ? ? _; apply IH]]|];
     [instantiate (1 := Ok (tt, if u then B "</p>" else [])); destruct u; [apply emits_wr|apply emits_ret]
     |unfold andthen; cbn [bind]; destruct (r s _) as [ [s1 o1]|x|]; cbn [bind]; [|reflexivity..];
      match goal with |- context[foot_events r ?a ?b ?c] => destruct (foot_events r a b c) as [ [ [s2 o2] u2]|x|] end; reflexivity]).
Qed.
Lemma emits_epi_loop mr r : (forall s e, emits (mr s e) (r s e)) -> forall fuel s,
  emits (m_epi_loop put fuel mr s) (epi_loop fuel r s).
Proof.
  intros HR. induction fuel as [|fu IH]; intros s; cbn [m_epi_loop epi_loop];
    (destruct (foot_next (r_foot s)) as [ [ [n evs] f]|]; [|apply emits_ret]); [apply emits_fuel|]. cbv zeta.
  eapply emits_eq.
  - eapply emits_bind; [apply emits_block|intros s1 ? _]. eapply emits_bind; [apply emits_wrs|intros ? ? _].
    eapply emits_bind; [apply emits_foot_events, HR|]. intros x ? _.
    instantiate (1 := fun x => andthen (if snd x then Ok (fst x, []) else let! (s, o) := w_block (fst x) DSame in Ok (s, o ++ B "<p>"))
      (fun s3 => andthen (Ok (tt, _)) (fun _ => andthen (w_block s3 DSame) (fun s4 => andthen (Ok (tt, B "</li>")) (fun _ => epi_loop fu r s4))))).
    destruct x as [s2 u]. cbv beta. cbn [fst snd].
    eapply emits_bind; [|intros s3 ? _; eapply emits_bind; [apply emits_wrs|intros ? ? _; eapply emits_bind; [apply emits_block|intros s4 ? _; eapply emits_bind; [apply emits_wr|intros ? ? _; apply IH]]]].
    destruct u; [apply emits_ret|].
    eapply emits_eq; [eapply emits_bind; [apply emits_block|intros ? ? _; apply emits_then, emits_wr]|]. reflexivity.
  - unfold andthen. destruct (w_block _ DSame) as [ [s1 o1]|x|]; cbn [bind]; [|reflexivity..].
    destruct (foot_events r s1 _ false) as [ [ [s2 o2] u]|x|]; cbn [bind fst snd]; [|reflexivity..].
    destruct u; cbn [bind]; [|destruct (w_block s2 DSame) as [ [s3 o3]|x|]; cbn [bind]; [|reflexivity..] ];
      match goal with |- context[w_block ?s3 DSame] => destruct (w_block s3 DSame) as [ [s4 o4]|x|]; cbn [bind]; [|reflexivity..] end;
      (destruct (epi_loop fu r s4) as [ [s5 o5]|x|]; cbn [bind]; [|reflexivity..]);
      cbn [concat]; rewrite ?app_nil_r; repeat rewrite <- app_assoc; reflexivity.
Qed.
Lemma emits_epilogue mr r fuel s : (forall s e, emits (mr s e) (r s e)) -> emits (m_epilogue put fuel mr s) (render_epilogue fuel r s).
Proof.
  intros HR. unfold m_epilogue, render_epilogue.
  eapply emits_eq.
  - eapply emits_bind; [|intros s1 ? _; apply emits_then].
    + instantiate (1 := match f_refs (r_foot s) with [] => Ok (s, []) | _ => _ end).
      destruct (f_refs (r_foot s)); [apply emits_ret|].
      eapply emits_bind; [apply emits_block|intros s1 ? _]. eapply emits_bind; [apply emits_wr|intros ? ? _].
      eapply emits_bind; [apply emits_block|intros s2 ? _]. eapply emits_bind; [apply emits_wr|intros ? ? _].
      eapply emits_bind; [apply emits_block|intros s3 ? _]. eapply emits_bind; [apply emits_wr|intros ? ? _].
      eapply emits_bind; [apply emits_epi_loop, HR|intros s4 ? _].
      eapply emits_bind; [apply emits_block|intros s5 ? _]. eapply emits_bind; [apply emits_wr|intros ? ? _].
      eapply emits_bind; [apply emits_block|intros s6 ? _]. apply emits_then, emits_wr.
    + instantiate (1 := match r_indent s1 with Some _ => [NL] | None => [] end). destruct (r_indent s1); [apply emits_wr|apply emits_ret].
  - unfold andthen. destruct (f_refs (r_foot s)); [reflexivity|].
    destruct (w_block s DSame) as [ [s1 o1]|x|]; cbn [bind]; [|reflexivity..].
    destruct (w_block s1 DSame) as [ [s2 o2]|x|]; cbn [bind]; [|reflexivity..].
    destruct (w_block s2 DSame) as [ [s3 o3]|x|]; cbn [bind]; [|reflexivity..].
    destruct (epi_loop fuel r s3) as [ [s4 o4]|x|]; cbn [bind]; [|reflexivity..].
    destruct (w_block s4 DSame) as [ [s5 o5]|x|]; cbn [bind]; [|reflexivity..].
    destruct (w_block s5 DSame) as [ [s6 o6]|x|]; cbn [bind]; [|reflexivity..].
    repeat rewrite <- app_assoc. reflexivity.
Qed.
Lemma emits_render_f fuel : forall s e, emits (m_render_f put fuel s e) (render_f fuel s e).
Proof.
  induction fuel as [|f IH]; intros s e; [apply emits_fuel|]. cbn [m_render_f render_f].
  apply emits_body. intros s'. apply emits_epilogue, IH.
Qed.
Lemma emits_event s e : emits (push_event put s e) (render_event s e).
Proof. exact (emits_render_f (S (S (foot_bound (r_foot s)))) s e). Qed.
Lemma emits_events evs : forall s, emits (push_events put s evs) (render_events s evs).
Proof.
  induction evs as [|e evs IH]; intros s; [apply emits_ret|]. cbn [push_events render_events].
  eapply emits_bind; [apply emits_event|]. intros ? ? _. apply IH.
Qed.
End Writer.
