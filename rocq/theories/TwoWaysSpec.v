(** * TwoWaysSpec: SPECIFICATION of when the two ways to read a document have the same result

    [DataOf v d]: the value [v] (of [value::from_str]) and the data [d] (of a self-describing target of the
    deserialiser) are the same: names for keys, and an object for one or several maps - several become a sequence.
    A labelled block has no counterpart. *)
From Coq Require Import ZArith.
From Verif Require Import Base Ast Blocks Kvp Value Serde SerdeSpec.
Close Scope Z_scope.

Inductive DataOf : Value.value -> data -> Prop :=
| DO_null : DataOf VNull DUnit
| DO_bool b : DataOf (VBoolean b) (DBool b)
| DO_int z : DataOf (VInteger z) (DInt z)
| DO_float f : DataOf (VFloat f) (DFloat f)
| DO_string s : DataOf (Value.VString s) (DStr s)
| DO_list l ds : Forall2 DataOf l ds -> DataOf (VList l) (DSeq ds)
| DO_object p d : MapData p d -> DataOf (VObject [p]) d
| DO_objects p q ps ds : Forall2 MapData (p :: q :: ps) ds -> DataOf (VObject (p :: q :: ps)) (DSeq ds)
with MapData : mapvalues -> data -> Prop :=
| MD_map p es : Forall2 (fun kv e => fst e = key_str (fst kv) /\ DataOf (snd kv) (snd e)) (entries p) es -> MapData p (DMap es).

(** In every body, between two blocks of one type there are only blocks of this type (and attributes): then the
    deserialiser sees all of them (C31). *)
Inductive Consecutive : body_t -> Prop :=
| Cons_body b :
    (forall l1 c l2 c' l3, block_list b = l1 ++ c :: l2 ++ c' :: l3 -> cow_str (b_type c) = cow_str (b_type c') ->
      forall x, In x l2 -> cow_str (b_type x) = cow_str (b_type c)) ->
    (forall t ls bd, In (Blk t ls bd) b -> Consecutive bd) -> Consecutive b.
