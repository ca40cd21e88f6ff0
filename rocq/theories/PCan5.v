(** * PCan5: runs of periods and hyphens, symbols, footnote references *)
From Verif Require Import Base Lex Attr Inline Block Doc Lib PSafe PCan1 PCan2 PCan3 PCan4.
From Verif Require Import SpecCanon.
Local Open Scope nat_scope.

Section Canon.
Variables (src : bytes) (pp : prepass).
Notation St := (PCan3.St src). Notation From := (PCan3.From src pp). Notation Out := (PCan2.Out src pp).
Notation cat := (PCan3.cat src). Notation lns := (PCan3.lns src). Notation here := (PCan3.here src).
Notation Den := (PCan2.Den src pp). Notation ev1 := (PCan2.ev1 src pp).

Lemma repeat_app {A} (c : A) n m : repeat c (n + m) = repeat c n ++ repeat c m.
Proof. apply repeat_app. Qed.
Lemma forallb_repeat {A} (f : A -> bool) c n : f c = true -> forallb f (repeat c n) = true.
Proof. intros H. induction n; cbn; auto. rewrite H. auto. Qed.
Lemma repeat_last {A} (c d : A) n : 0 < n -> last (repeat c n) d = c.
Proof.
  intros H. destruct n as [|n]; [lia|]. replace (S n) with (n + 1) by lia. rewrite repeat_app. cbn. apply last_last.
Qed.
Lemma repeat_no_nl c n : c <> NL -> no_nl (repeat c n).
Proof. intros H K. apply repeat_spec in K. congruence. Qed.

(** New events without text keep text adjacent. *)
Lemma chain_atoms E new q q' : chain E q -> new <> [] -> (forall e, List.In e new -> strl e = false) -> chain (E ++ new) q'.
Proof.
  intros H Hn Ha. destruct (rev_case new) as [-> |(A & x & ->)]; [congruence|]. clear Hn.
  revert x Ha. induction A as [|y A IH] using rev_ind; intros x Ha.
  - cbn. eapply chain_push; [exact H|]. rewrite (Ha x); [discriminate|]. left. reflexivity.
  - rewrite <- app_assoc. cbn. replace (E ++ A ++ [y; x]) with ((E ++ A ++ [y]) ++ [x]) by (rewrite <- !app_assoc; reflexivity).
    eapply chain_push with (p := q').
    + apply IH. intros e He. apply Ha. apply in_app_iff in He. apply in_app_iff. destruct He as [He|He]; left; apply in_or_app; auto.
    + rewrite (Ha x); [discriminate|]. apply in_or_app. right. left. reflexivity.
Qed.

(** *** Periods *)
Lemma ellipses_is f : forall l cpl line a b O E cow, a <= b ->
  pc (fun s' => exists new, s' = IS (In l cpl line [] (Sp (b - (b - a) mod 3) b)) O (E ++ new) None None cow []
       /\ Den cow new (repeat Ellipsis ((b - a) / 3)) /\ (forall e, List.In e new -> strl e = false))
     (ellipses f (IS (In l cpl line [] (Sp a b)) O E None None cow [])).
Proof.
  induction f as [|f IH]; intros l cpl line a b O E cow Hab; [apply pc_fuel|]. cbn [ellipses].
  unfold s_span, sp_len. cbn [s_in i_span ss se].
  destruct (Nat.leb_spec 3 (b - a)) as [H|H].
  - cbn [push_sp s_set_events s_set_span s_set_in in_set_span s_in s_openers s_events s_verb s_attr s_cow s_attrs i_lex i_complete i_line i_ahead].
    eapply pc_weaken; [apply (IH l cpl line (a + 3) b O (E ++ [IE (IAtom IEllipsis) (Sp a (a + 3))]) cow); lia|]. intros s' (new & -> & HD & Ha).
    exists (IE (IAtom IEllipsis) (Sp a (a + 3)) :: new). repeat split.
    + replace (b - (a + 3)) with (b - a - 3) by lia.
      assert ((b - a) mod 3 = (b - a - 3) mod 3) as ->.
      { replace (b - a) with (b - a - 3 + 1 * 3) at 1 by lia. rewrite Nat.mod_add by lia. reflexivity. }
      rewrite <- app_assoc. reflexivity.
    + assert ((b - a) / 3 = S ((b - (a + 3)) / 3)) as ->.
      { replace (b - a) with (b - (a + 3) + 1 * 3) by lia. rewrite Nat.div_add by lia. lia. }
      cbn [repeat]. change (Ellipsis :: ?x) with ([Ellipsis] ++ x). constructor; auto. reflexivity.
    + intros e [<-|He]; auto.
  - apply pc_ok. exists []. rewrite Nat.mod_small, Nat.div_small by lia. rewrite app_nil_r. repeat split.
    + replace (b - (b - a)) with a by lia. reflexivity.
    + constructor.
    + intros e [].
Qed.

Lemma From_dots cow0 O E0 n T pre post ne : top O E0 pre -> From (LV false) cow0 O E0 T pre post true ->
  1 <= n -> hd_is (fun c => beq c ".") T = false ->
  From (LV false) cow0 O E0 (repeat "."%char n ++ T) pre (dot_events n ++ post) ne.
Proof.
  intros Htop HF Hn Hhd. apply From_wlog; [exact Htop|].
  intros s ls R D w M HS HD HC HL _.
  eapply (step_tok _ _ _ _ _ _ _ (repeat "."%char n) T (Tok (LSeq Period) n) false); eauto.
  - apply repeat_no_nl. discriminate.
  - rewrite repeat_length. reflexivity.
  - intros r' ET Hr. destruct n as [|n]; [lia|]. cbn [repeat app]. rewrite scan_special by reflexivity.
    unfold special_token. cbn [beq Ascii.eqb Bool.eqb fst snd].
    change ((Some (Tok (LSeq Period) (S (count_while (fun c => beq c ".") (repeat "."%char n ++ r')))), false) = (Some (Tok (LSeq Period) (S n)), false)).
    rewrite ET, lns_hd in Hhd by exact Hr.
    assert (count_while (fun c => beq c ".") (repeat "."%char n ++ r') = n) as ->; [|reflexivity].
    pose proof (forallb_repeat (fun c => beq c ".") "."%char n eq_refl) as Hf.
    destruct r' as [|c r'].
    + rewrite app_nil_r, count_while_all, repeat_length by exact Hf. reflexivity.
    + rewrite count_while_stop, repeat_length by auto. reflexivity.
  - intros l' line r' HV Hh. unfold result. rewrite handle_atom by (auto; noclose). cbn [parse_atom tk].
    eapply pc_bind with (P := fun y => exists new,
      y = (None, IS (In l' (is_nil ls) line [] (Sp (pos s + n - n mod 3) (pos s + n))) O ((E0 ++ R) ++ new) None None (cow0 ++ w) [])
       /\ Den (cow0 ++ w) new (repeat Ellipsis (n / 3)) /\ (forall e, List.In e new -> strl e = false)).
    { rewrite repeat_length. eapply pc_bind; [apply ellipses_is; lia|]. intros s' (new & -> & A & B). apply pc_ok.
      replace (pos s + n - pos s) with n in * by lia. exists new. auto. }
    intros y (new & -> & HN & Hns). cbn [push push_sp s_set_events s_span s_in i_span s_events s_openers s_verb s_attr s_cow s_attrs].
    apply pc_ok. split; [reflexivity|]. cbn [snd].
    pose proof (Nat.mod_upper_bound n 3 ltac:(lia)) as Hm. pose proof (Nat.mod_le n 3 ltac:(lia)) as Hm'.
    assert (Hslice : slice src (Sp (pos s + n - n mod 3) (pos s + n)) = repeat "."%char (n mod 3)).
    { destruct Hh as (_ & _ & Hs & _). rewrite repeat_length in Hs.
      assert (slice src (Sp (pos s) (pos s + n)) = repeat "."%char (n - n mod 3) ++ repeat "."%char (n mod 3)) as Hs'.
      { rewrite Hs, <- repeat_app. f_equal. lia. }
      destruct (slice_prefix _ _ _ _ _ Hs' ltac:(lia)) as (_ & K & _). rewrite repeat_length in K. rewrite <- K. f_equal. f_equal. lia. }
    unfold push, push_sp, s_set_events. cbn [s_span s_in i_span s_events s_openers s_verb s_attr s_cow s_attrs].
    rewrite <- app_assoc.
    assert (Hlast : nth_error src (pos s + n - 1) <> Some "$"%char).
    { destruct Hh as (_ & _ & Hs & _). rewrite repeat_length in Hs.
      rewrite (slice_last src _ _ (repeat "."%char n) "a"%char Hs); [|apply repeat_length|destruct n; [lia|discriminate]].
      rewrite repeat_last by lia. discriminate. }
    eapply push_more with (new := new ++ [IE IStr (Sp (pos s + n - n mod 3) (pos s + n))]); [exact HF|exact HD| | | | |].
    + unfold dot_events. apply Den_app; [exact HN|].
      destruct (n mod 3) as [|m] eqn:Em.
      * apply Den_one. unfold PCan2.ev1. cbn [ik isp ss se]. split; [lia|]. unfold sp_empty. cbn [ss se]. rewrite Nat.sub_0_r, Nat.ltb_irrefl. reflexivity.
      * apply Den_one. rewrite <- Hslice. apply str_ev; [reflexivity|]. rewrite Hslice. discriminate.
    + pose proof (St_mk src O ((E0 ++ R) ++ new ++ [IE IStr (Sp (pos s + n - n mod 3) (pos s + n))]) (cow0 ++ w) ls T r' line (pos s)
                    (repeat "."%char n) (LV false) l' (pos s + n - n mod 3) Hh (or_introl HV)) as K.
      rewrite repeat_length in K. exact K.
    + match goal with |- chain _ ?q => change q with (pos s + n) end. rewrite app_assoc.
      destruct new as [|e new].
      * rewrite app_nil_r. eapply chain_push; [exact HC|]. intros _. cbn [isp ss se].
        assert (n / 3 = 0) by (destruct (n / 3); [reflexivity|inversion HN]).
        pose proof (Nat.div_mod n 3 ltac:(lia)). split; lia.
      * eapply chain_push with (p := pos s + n - n mod 3); [|intros _; cbn [isp ss se]; split; lia].
        eapply chain_atoms; [exact HC|discriminate|exact Hns].
    + rewrite app_assoc. apply lastok_push. cbn [ik isp ss se]. split; [lia|exact Hlast].
    + destruct new; discriminate.
Qed.
End Canon.
