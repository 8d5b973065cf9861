(** * PropMove: C126 the order of attributes and members does not matter to typed reading *)
From Coq Require Import Permutation ZArith.
From Verif Require Import Base Nom Ast Grammar Parser Blocks NumConv IoSpec PropSyntax Serde SerdeSpec SerdeProofs PropSerde DenSpec DenProofs PropDen MoveSpec MoveProofs.
Close Scope Z_scope.
Open Scope N_scope.
Open Scope list_scope.

(** C126: two documents whose trees differ in the order of the attributes of bodies and of the members of objects, at any
    depth (attributes also moving past blocks), give the same value of every type; maps in it have the same entries. *)
Theorem C126_from_str : forall U ord ord' t s s' b b' d, Order ord -> Order ord' -> GoodTy t ->
  parse_str U s = OkR b -> parse_str U s' = OkR b' -> MBody b b' ->
  from_str U ord t s = DeOk d -> exists d', from_str U ord' t s' = DeOk d' /\ Same d d' /\ (Ordered t -> d' = d).
Proof.
  intros U ord ord' t s s' b b' d Ho Ho' HG Hs Hs' HM H.
  destruct (C102_sound U ord Ho t HG s d H) as (b0 & Hb & Hd). apply C01_parse_str_grammar in Hb. rewrite Hs in Hb. injection Hb as <-.
  destruct (den_moved _ _ _ Hd (Body b') (MN_body _ _ HM)) as (d1 & Hd1 & HS & HO). apply C01_parse_str_grammar in Hs'.
  destruct (C102_complete U ord' Ho' t HG s' b' d1 Hs' Hd1) as (d' & E & HS' & HO'). exists d'. split; [exact E|].
  split; [eapply Same_trans; eassumption|]. intros O. rewrite HO' by exact O. apply HO, O.
Qed.
Print Assumptions C126_from_str.
(** ... so one can be read as a [t] exactly when the other can. *)
Theorem C126_accepted : forall U ord ord' t s s' b b', Order ord -> Order ord' -> GoodTy t ->
  parse_str U s = OkR b -> parse_str U s' = OkR b' -> MBody b b' ->
  (exists d, from_str U ord t s = DeOk d) <-> (exists d', from_str U ord' t s' = DeOk d').
Proof.
  intros U ord ord' t s s' b b' Ho Ho' HG Hs Hs' HM. split; intros (d & H).
  - destruct (C126_from_str U ord ord' t s s' b b' d Ho Ho' HG Hs Hs' HM H) as (d' & E & _). eauto.
  - destruct (C126_from_str U ord' ord t s' s b' b d Ho' Ho HG Hs' Hs (MBody_sym _ _ HM) H) as (d' & E & _). eauto.
Qed.
Print Assumptions C126_accepted.

(** In particular lines with attributes can be moved from the beginning of a document to its end and back. *)
Lemma attr_list_app b1 b2 : attr_list (b1 ++ b2) = attr_list b1 ++ attr_list b2.
Proof. apply flat_map_app. Qed.
Lemma block_list_app b1 b2 : block_list (b1 ++ b2) = block_list b1 ++ block_list b2.
Proof. apply flat_map_app. Qed.
Theorem C126_move_lines : forall U ord ord' t a s n n' ba bs d, Order ord -> Order ord' -> GoodTy t ->
  parse_str U a = OkR ba -> (forall el, In el ba -> exists i e, el = Attr i e) -> parse_str U s = OkR bs -> LineEnd n -> LineEnd n' ->
  from_str U ord t (a ++ n ++ s) = DeOk d -> exists d', from_str U ord' t (s ++ n' ++ a) = DeOk d' /\ Same d d' /\ (Ordered t -> d' = d).
Proof.
  intros U ord ord' t a s n n' ba bs d Ho Ho' HG Ha Hattr Hs Hn Hn' H.
  apply (C126_from_str U ord ord' t (a ++ n ++ s) (s ++ n' ++ a) (ba ++ bs) (bs ++ ba) d Ho Ho' HG); [apply C06_concatenation; assumption|apply C06_concatenation; assumption| |exact H].
  assert (block_list ba = []) as E.
  { clear - Hattr. induction ba as [|el ba IH]; [reflexivity|]. destruct (Hattr el (or_introl eq_refl)) as (i & e & ->). cbn. apply IH. intros x Hx. apply Hattr. right. exact Hx. }
  apply (MB _ (attr_list (bs ++ ba))).
  - rewrite !attr_list_app. apply Permutation_app_comm.
  - apply F2_refl. intros x. split; [reflexivity|constructor].
  - rewrite !block_list_app, E, app_nil_r. cbn [app]. apply F2_refl. intros c. split; [reflexivity|]. split; [reflexivity|apply MBody_refl].
Qed.
Print Assumptions C126_move_lines.

Definition move_doc : str := lit "a = 1
r {
  x = {k = 1, l = 2}
  y = [true]
}
b = null".
Definition move_doc' : str := lit "r {
  y = [true]
  x = {l = 2, k = 1}
}
b = null
a = 1".
Definition num1 (s : str) : expr := ENumber (mk_number (Borrowed s) true (Some (Borrowed s)) None None).
Definition move_ty : ty := TStruct [(lit "a", TInt U8); (lit "b", TOption TBool); (lit "r", TStruct [(lit "x", TMap KTString (TInt I32)); (lit "y", TSeq TBool)])].
Example C126_nonvacuous : exists b b' d d', parse_str ascii_ucd move_doc = OkR b /\ parse_str ascii_ucd move_doc' = OkR b' /\ MBody b b' /\ b <> b' /\ GoodTy move_ty /\
  from_str ascii_ucd id_ord move_ty move_doc = DeOk d /\ from_str ascii_ucd id_ord move_ty move_doc' = DeOk d' /\ d <> d'.
Proof.
  exists [Attr (Borrowed (lit "a")) (num1 (lit "1")); Blk (Borrowed (lit "r")) []
      [Attr (Borrowed (lit "x")) (EObject [(KIdent (Borrowed (lit "k")), num1 (lit "1")); (KIdent (Borrowed (lit "l")), num1 (lit "2"))]); Attr (Borrowed (lit "y")) (ETuple [EBool true])];
    Attr (Borrowed (lit "b")) ENull],
   [Blk (Borrowed (lit "r")) []
      [Attr (Borrowed (lit "y")) (ETuple [EBool true]); Attr (Borrowed (lit "x")) (EObject [(KIdent (Borrowed (lit "l")), num1 (lit "2")); (KIdent (Borrowed (lit "k")), num1 (lit "1"))])];
    Attr (Borrowed (lit "b")) ENull; Attr (Borrowed (lit "a")) (num1 (lit "1"))],
   (DStruct [(lit "a", DInt 1); (lit "b", DNone); (lit "r", DStruct [(lit "x", DMap [(lit "k", DInt 1); (lit "l", DInt 2)]); (lit "y", DSeq [DBool true])])]),
   (DStruct [(lit "a", DInt 1); (lit "b", DNone); (lit "r", DStruct [(lit "x", DMap [(lit "l", DInt 2); (lit "k", DInt 1)]); (lit "y", DSeq [DBool true])])]).
  split; [vm_compute; reflexivity|]. split; [vm_compute; reflexivity|]. split; [|split; [discriminate|split; [|split; [vm_compute; reflexivity|split; [vm_compute; reflexivity|discriminate]]]]].
  - eapply MB; [apply perm_swap|repeat constructor|]. cbn. constructor; [|constructor]. split; [reflexivity|]. split; [reflexivity|]. cbn.
    eapply MB; [apply perm_swap| |constructor]. constructor; [split; [reflexivity|constructor]|]. constructor; [|constructor]. split; [reflexivity|]. cbn.
    eapply ME_object; [apply perm_swap|repeat constructor].
  - constructor; [repeat constructor; cbn; intuition discriminate|]. repeat constructor; cbn; intuition discriminate.
Qed.
(** Blocks do not move like that: their order can decide which of them are read (C63), and the order of the elements of a tuple is the order of the result. *)
Example C126_blocks : exists d d', d <> d' /\
  from_str ascii_ucd id_ord (TMap KTString (TSeq TAny)) (lit ("r {" ++ nl ++ "a = 1" ++ nl ++ "}" ++ nl ++ "s {" ++ nl ++ "}" ++ nl ++ "r {" ++ nl ++ "a = 2" ++ nl ++ "}" ++ nl)) = DeOk d /\
  from_str ascii_ucd id_ord (TMap KTString (TSeq TAny)) (lit ("r {" ++ nl ++ "a = 1" ++ nl ++ "}" ++ nl ++ "r {" ++ nl ++ "a = 2" ++ nl ++ "}" ++ nl ++ "s {" ++ nl ++ "}" ++ nl)) = DeOk d'.
Proof.
  exists (DMap [(lit "r", DSeq [DMap [(lit "a", DInt 2)]]); (lit "s", DSeq [DMap []])]),
    (DMap [(lit "r", DSeq [DMap [(lit "a", DInt 1)]; DMap [(lit "a", DInt 2)]]); (lit "s", DSeq [DMap []])]).
  split; [discriminate|]. split; vm_compute; reflexivity.
Qed.
