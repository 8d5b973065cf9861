(** * MoveSpec: SPECIFICATION of rearranging a document

    [MBody b b']: [b'] is [b] with the attributes of bodies and the members of objects put in another order, at any
    depth; attributes may also move past blocks.  The blocks of a body keep their order, and so do the elements of
    tuples.  Nothing here refers to the deserialisers. *)
From Coq Require Import Permutation.
From Verif Require Import Base Ast Blocks SerdeSpec.

Inductive MExpr : expr -> expr -> Prop :=
| ME_same e : MExpr e e
| ME_tuple l l' : Forall2 (fun e e' => MExpr e e') l l' -> MExpr (ETuple l) (ETuple l')
| ME_object l m l' : Permutation l m -> Forall2 (fun ke ke' => fst ke' = fst ke /\ MExpr (snd ke) (snd ke')) m l' -> MExpr (EObject l) (EObject l').

Inductive MBody : body_t -> body_t -> Prop :=
| MB b m b' :
    Permutation (attr_list b) m -> Forall2 (fun a a' => fst a' = fst a /\ MExpr (snd a) (snd a')) m (attr_list b') ->
    Forall2 (fun c c' => b_type c' = b_type c /\ b_labels c' = b_labels c /\ MBody (b_body c) (b_body c')) (block_list b) (block_list b') ->
    MBody b b'.
