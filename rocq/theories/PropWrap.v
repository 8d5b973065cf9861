(** * Property theorems: wrapper and fixed-size targets, from expressions, bodies and
    the blocks of one type (C95) *)
From Coq Require Import ZArith.
From Verif Require Import Base Ast Grammar Blocks NumConv Parser Serde SerdeSpec SerdeProofs PropSerde.
Close Scope Z_scope.

(** ** Newtype structs *)
(** On expressions a newtype is transparent: the same result, error or panic as the type
    it wraps, however many newtypes are nested. *)
Fixpoint wrap (n : nat) (t : ty) : ty := match n with O => t | S n => TNewtype (wrap n t) end.
Theorem C95_newtype_expression : forall ord, Order ord -> forall n t e,
  deserialize ord (wrap n t) (SExpr e) = deserialize ord t (SExpr e).
Proof.
  intros ord Ho n t e. induction n as [|n IH]; [reflexivity|]. cbn [wrap]. rewrite deserialize_eq by exact Ho. exact IH.
Qed.
(** Nothing but a map, a struct or a self-describing (or ignoring) target can take a body:
    every other target is refused, whatever the body. *)
Theorem C95_body_only_maps : forall ord, Order ord -> forall t b,
  (forall k t', t <> TMap k t') -> (forall fs, t <> TStruct fs) -> t <> TAny -> t <> TIgnored ->
  deserialize ord t (SBody b) = DeErr (ECustom CInvalidType).
Proof.
  intros ord Ho t b H1 H2 H3 H4. rewrite deserialize_eq by exact Ho. cbn [call]. unfold body_any.
  destruct t; try reflexivity; congruence.
Qed.
(** So a newtype or option around a type that takes a document does not take it. *)
Theorem C95_document : forall U ord, Order ord -> forall t s b, parse_str U s = OkR b ->
  from_str U ord (TNewtype t) s = DeErr (ECustom CInvalidType) /\ from_str U ord (TOption t) s = DeErr (ECustom CInvalidType).
Proof. intros U ord Ho t s b H. unfold from_str. rewrite H. split; apply C95_body_only_maps; try exact Ho; discriminate. Qed.

(** ** Blocks of one type, without labels *)
Lemma blocks_call ord : Order ord -> forall bs t, (forall t', t <> TSeq t') -> (forall t', t <> TOption t') ->
  deserialize ord t (SBlock (BBody bs)) = visit (deserialize ord) t (one_or_seq ord bs).
Proof.
  intros Ho bs t H1 H2. rewrite deserialize_eq by exact Ho. destruct t; try reflexivity; [elim (H2 t)|elim (H1 t)]; reflexivity.
Qed.
(** A newtype: a single block is refused; of several, the first alone is read and the
    others are dropped silently. *)
Theorem C95_newtype_blocks : forall ord, Order ord -> forall t,
  (forall b, deserialize ord (TNewtype t) (SBlock (BBody [b])) = DeErr (ECustom CInvalidType)) /\
  (forall b b' bs, deserialize ord (TNewtype t) (SBlock (BBody (b :: b' :: bs))) = deserialize ord t (SBody b)).
Proof. intros ord Ho t. split; intros; rewrite blocks_call by (assumption || discriminate); reflexivity. Qed.
(** The first blocks, one for each type; whatever comes after them is not looked at. *)
Definition FirstOf (ord : blocks_t -> blocks_t) (ts : list ty) (bs : list body_t) (ds : list data) : Prop :=
  exists here rest, bs = here ++ rest /\ Forall3 (fun t b d => deserialize ord t (SBody b) = DeOk d) ts here ds.
Lemma first_of ord ts : forall bs ds, seq_types (deserialize ord) ts (map SBody bs) = DeOk ds <-> FirstOf ord ts bs ds.
Proof.
  induction ts as [|t ts IH]; intros bs ds; cbn [seq_types].
  - split.
    + intros [= <-]. exists [], bs. split; [reflexivity|constructor].
    + intros (h & r & _ & H). inversion H. reflexivity.
  - destruct bs as [|b bs]; cbn [map].
    + split; [discriminate|]. intros (h & r & E & H). inversion H; subst. discriminate.
    + rewrite dbind_ok. split.
      * intros (d & Hd & H). apply dmap_ok in H as (ds' & H & ->). apply IH in H as (h & r & -> & H).
        exists (b :: h), r. split; [reflexivity|]. constructor; assumption.
      * intros (h & r & E & H). inversion H as [|? ? d ? h' ds' Hd Hds]; subst. cbn in E. injection E as <- ->. exists d. split; [exact Hd|].
        apply dmap_ok. exists ds'. split; [|reflexivity]. apply IH. exists h', r. split; [reflexivity|exact Hds].
Qed.
(** Tuples (and tuple structs) of the blocks: a single block is refused; otherwise there
    must be at least as many blocks as components.  Unlike a tuple of expressions (C43),
    surplus blocks are dropped silently. *)
Theorem C95_tuple_blocks : forall ord, Order ord -> forall ts,
  (forall b, deserialize ord (TTuple ts) (SBlock (BBody [b])) = DeErr (ECustom CInvalidType)) /\
  (forall b b' bs d, deserialize ord (TTuple ts) (SBlock (BBody (b :: b' :: bs))) = DeOk d <->
     exists ds, d = DSeq ds /\ FirstOf ord ts (b :: b' :: bs) ds).
Proof.
  intros ord Ho ts. split; [intros; rewrite blocks_call by (assumption || discriminate); reflexivity|]. intros b b' bs d.
  rewrite blocks_call by (assumption || discriminate). cbn [one_or_seq visit]. rewrite dmap_ok. split.
  - intros (ds & H & ->). exists ds. split; [reflexivity|]. apply first_of. exact H.
  - intros (ds & -> & H). exists ds. split; [|reflexivity]. apply first_of. exact H.
Qed.
(** A struct of several blocks: its fields are filled one block each, by position, and
    surplus blocks are dropped.  (A single block fills a struct by name: C45, C64.) *)
Theorem C95_struct_blocks : forall ord, Order ord -> forall fs b b' bs d,
  deserialize ord (TStruct fs) (SBlock (BBody (b :: b' :: bs))) = DeOk d <->
  exists ds, d = DStruct (combine (map fst fs) ds) /\ FirstOf ord (map snd fs) (b :: b' :: bs) ds.
Proof.
  intros ord Ho fs b b' bs d. rewrite blocks_call by (assumption || discriminate). cbn [one_or_seq visit]. rewrite dmap_ok. split.
  - intros (ds & H & ->). exists ds. split; [reflexivity|]. apply first_of. exact H.
  - intros (ds & -> & H). exists ds. split; [|reflexivity]. apply first_of. exact H.
Qed.
(** Maps and scalars: several blocks are refused. *)
Theorem C95_other_blocks : forall ord, Order ord -> forall t b b' bs,
  (match t with TSeq _ | TOption _ | TNewtype _ | TTuple _ | TStruct _ | TAny | TIgnored | TBytes => False | _ => True end) ->
  deserialize ord t (SBlock (BBody (b :: b' :: bs))) = DeErr (ECustom CInvalidType).
Proof.
  intros ord Ho t b b' bs Ht. rewrite blocks_call; [|exact Ho|intros t' ->; exact Ht|intros t' ->; exact Ht]. destruct t; try contradiction; reflexivity.
Qed.
(** C63, REFUTED: every block of a type reaches the target, or an error says it does not. *)
Theorem C63_surplus_blocks_refuted : exists s t d, Order id_ord /\
  s = lit ("r {" ++ nl ++ "a = 1" ++ nl ++ "}" ++ nl ++ "r {" ++ nl ++ "a = 2" ++ nl ++ "}" ++ nl) /\
  t = TMap KTString (TNewtype (TMap KTString (TInt U8))) /\
  from_str ascii_ucd id_ord t s = DeOk d /\ d = DMap [(lit "r", DMap [(lit "a", DInt 1)])].
Proof. do 3 eexists. split; [exact id_Order|]. split; [reflexivity|]. split; [reflexivity|]. split; vm_compute; reflexivity. Qed.
Print Assumptions C95_newtype_expression.
Print Assumptions C95_body_only_maps.
Print Assumptions C95_document.
Print Assumptions C95_newtype_blocks.
Print Assumptions C95_tuple_blocks.
Print Assumptions C95_struct_blocks.
Print Assumptions C95_other_blocks.
Print Assumptions C63_surplus_blocks_refuted.
Example C95_nonvacuous :
  let s := lit ("r {" ++ nl ++ "a = 1" ++ nl ++ "}" ++ nl ++ "r {" ++ nl ++ "a = 2" ++ nl ++ "}" ++ nl ++ "r {" ++ nl ++ "}" ++ nl) in
  let M := TMap KTString (TInt U8) in
  from_str ascii_ucd id_ord (TMap KTString (TTuple [M; M])) s =
    DeOk (DMap [(lit "r", DSeq [DMap [(lit "a", DInt 1)]; DMap [(lit "a", DInt 2)]])]) /\
  from_str ascii_ucd id_ord (TMap KTString (TTuple [M; M; M; M])) s = DeErr (ECustom CInvalidLength) /\
  from_str ascii_ucd id_ord (TMap KTString (TStruct [(lit "x", M); (lit "y", M)])) s =
    DeOk (DMap [(lit "r", DStruct [(lit "x", DMap [(lit "a", DInt 1)]); (lit "y", DMap [(lit "a", DInt 2)])])]) /\
  from_str ascii_ucd id_ord (TMap KTString M) s = DeErr (ECustom CInvalidType) /\
  from_str ascii_ucd id_ord (TMap KTString (wrap 3 (TInt U8))) (lit ("a = 7" ++ nl)) = DeOk (DMap [(lit "a", DInt 7)]) /\
  from_str ascii_ucd id_ord (TMap KTString (TNewtype M)) (lit ("r {" ++ nl ++ "}" ++ nl)) = DeErr (ECustom CInvalidType).
Proof. repeat split; vm_compute; reflexivity. Qed.
