(** * PropsCanon: the text of a document tree parses to the events of the tree (C38) *)
From Verif Require Import Base Lex Attr Inline Block Doc Lib SpecAttr PSafe PAttr PropsDoc PCan1 PCan21 SpecCanon.
Local Open Scope nat_scope.

(** Write any well-formed tree as text: the parser reports exactly the events of the tree.  The only
    exceptions are the size limits of C01. *)
Theorem C38_events : forall bs, doc_ok bs = true -> utf8 (doc_src bs) ->
  parse (doc_src bs) = Ok (doc_evs bs) \/
  (32767 <= N.of_nat (length (doc_src bs)))%N /\ (parse (doc_src bs) = Panic "block.rs:428" \/ parse (doc_src bs) = Panic "block.rs:630").
Proof.
  intros bs Hok Hu. pose proof (canon_events bs Hok) as Hc. unfold parse in *.
  destruct (C01_no_panic _ Hu) as [(evs & E)|[(E & a & n & b & Es & Hn)|(E & Hn)]]; rewrite E in *; cbn [bind] in *.
  - left. f_equal. apply Hc. reflexivity.
  - right. split; [|auto]. rewrite Es, !app_length, repeat_length. lia.
  - right. split; [lia|auto].
Qed.
Theorem C38_small : forall bs, doc_ok bs = true -> utf8 (doc_src bs) -> (N.of_nat (length (doc_src bs)) <= 32766)%N ->
  parse (doc_src bs) = Ok (doc_evs bs).
Proof. intros bs Hok Hu Hl. destruct (C38_events bs Hok Hu) as [E|[H _]]; [exact E|lia]. Qed.
(** Two trees written as the same text are the same document for every consumer of events. *)
Theorem C38_unambiguous : forall bs cs, doc_ok bs = true -> doc_ok cs = true -> utf8 (doc_src bs) -> (N.of_nat (length (doc_src bs)) <= 32766)%N ->
  doc_src bs = doc_src cs -> doc_evs bs = doc_evs cs.
Proof.
  intros bs cs Hb Hc Hu Hl E. pose proof (C38_small bs Hb Hu Hl) as K1. rewrite E in Hu, Hl, K1. rewrite (C38_small cs Hc Hu Hl) in K1. congruence.
Qed.

(** An escape directly after a verbatim span is not an escape: this is why [clash] excludes it. *)
Theorem C38_escape_refuted : exists bs evs,
  bs = [DPara [TCode (B "a"); TEsc "*"; TText (B "b*")]] /\ utf8 (doc_src bs) /\ parse (doc_src bs) = Ok evs /\
  List.In (Start Strong []) evs /\ ~ List.In (Start Strong []) (doc_evs bs).
Proof.
  eexists _, _. split; [reflexivity|]. split; [|split; [vm_compute; reflexivity|split]].
  - cbn. repeat first [apply u_nil | apply u_1; [vm_compute; split; discriminate|] ].
  - repeat (try (left; reflexivity); right).
  - cbn. intros H. repeat (destruct H as [H|H]; [discriminate H|]). exact H.
Qed.

Definition ex_tree : list blk :=
  [ DPara [TText (B "Hello "); TWrap WUnderscore [TText (B "a "); TWrap WAsterisk [TText (B "b")]; TText (B "c")]; TText (B " "); TWrap WEmphasis [TText (B "big "); TWrap WStrong [TText (B "wide")]]; TDash 3; TSoft; TText (B "and "); TLink [TText (B "see "); TCode (B "a*b")] (B "http://x.y/z"); TNote (B "n"); TDots 4; TAuto (B "http://a.b/?c"); TEsc "*"; TAuto (B "me@x.y")];
    DQuote [ DPara [TText (B "q"); TEsc "*"; THard; TText (B "r")]; DList (MTask BuDash) false [(true, [DPara [TText (B "t")]]); (false, [DCode (B "rs") [B "let x;"; []; B "  y"]])] ];
    DRule; DCode (B "=html") [B "<hr>"; []; B " <b>"];
    DList (MNumber 3 OParen) true [(false, [DPara [TText (B "one")]; DQuote [DPara [TText (B "in")]]]); (false, [DPara [TText (B "two")]; DList (MBullet BuPlus) false [(false, [DPara [TText (B "sub")]])]])];
    DPara [TImage [TText (B "pic")] (B "i.png"); TSym (B "smile"); TNbsp; TWrap WAsterisk [TText (B "k "); TWrap WUnderscore [TText (B "l"); TNote (B "m")]]; TWrap WSubscript [TText (B "x")]] ].
Example C38_ex : doc_ok ex_tree = true /\ utf8 (doc_src ex_tree) /\ (N.of_nat (length (doc_src ex_tree)) <= 32766)%N /\ 60 <= length (doc_evs ex_tree).
Proof.
  split; [reflexivity|]. split; [|split; [vm_compute; discriminate|apply Nat.leb_le; vm_compute; reflexivity]].
  cbn. repeat first [apply u_nil | apply u_1; [vm_compute; split; discriminate|] ].
Qed.

Definition PropsCanon_all := (@C38_events, @C38_small, @C38_unambiguous, @C38_escape_refuted).
Print Assumptions PropsCanon_all.
