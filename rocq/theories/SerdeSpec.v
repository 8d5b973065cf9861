(** * SerdeSpec: SPECIFICATION side for deserialisation *)
From Coq Require Import Permutation.
From Verif Require Import Base Ast Blocks NumConv NumSpec Serde.

(** The attributes of a body, in source order, with the text of their names. *)
Definition attr_list (b : body_t) : list (str * expr) :=
  flat_map (fun el => match el with Attr n e => [(cow_str n, e)] | Blk _ _ _ => [] end) b.
(** The blocks of a body, in source order. *)
Definition block_list (b : body_t) : list block_t :=
  flat_map (fun el => match el with Attr _ _ => [] | Blk t ls bd => [mk_block t ls bd] end) b.

(** [LastRun t l r]: [r] is the last run of consecutive blocks of type [t] in [l]. *)
Inductive LastRun (t : str) (l : list block_t) (r : list block_t) : Prop :=
| LR l1 l2 : l = l1 ++ r ++ l2 -> r <> [] ->
    (forall b, In b r -> cow_str (b_type b) = t) ->
    (forall b, In b l2 -> cow_str (b_type b) <> t) ->
    (forall l0 b, l1 = l0 ++ [b] -> cow_str (b_type b) <> t) -> LastRun t l r.

(** Documents on which nothing unimplemented is met: no object has an expression as
    a key, no block has labels, no attribute has the name of a block type. *)
Inductive CleanExpr : expr -> Prop :=
| CE_null : CleanExpr ENull
| CE_number n : CleanExpr (ENumber n)
| CE_bool b : CleanExpr (EBool b)
| CE_string s : CleanExpr (EString s)
| CE_tuple l : Forall CleanExpr l -> CleanExpr (ETuple l)
| CE_object l : Forall (fun ke => (exists i, fst ke = KIdent i) /\ CleanExpr (snd ke)) l -> CleanExpr (EObject l).
Inductive CleanBody : body_t -> Prop :=
| CB b : (forall n e, In (Attr n e) b -> CleanExpr e) ->
    (forall t ls bd, In (Blk t ls bd) b -> ls = [] /\ CleanBody bd) ->
    (forall n e t ls bd, In (Attr n e) b -> In (Blk t ls bd) b -> cow_str n <> cow_str t) ->
    CleanBody b.

(** What a self-describing target holds for an expression. *)
Inductive Data : expr -> data -> Prop :=
| Data_null : Data ENull DUnit
| Data_bool b : Data (EBool b) (DBool b)
| Data_string s : Data (EString s) (DStr (cow_str s))
| Data_int n z : is_float n = false -> IntegerText (cow_str (num_input n)) z -> InRange I64 z ->
    Data (ENumber n) (DInt z)
| Data_float n f : is_float n = true -> as_f64 n = Some f -> Data (ENumber n) (DFloat f)
| Data_tuple l ds : Forall2 Data l ds -> Data (ETuple l) (DSeq ds)
| Data_object l ds : Forall2 (fun ke kd => (exists i, fst ke = KIdent i /\ cow_str i = fst kd) /\ Data (snd ke) (snd kd)) l ds ->
    NoDup (map fst ds) -> Data (EObject l) (DMap ds).

(** Three lists of the same length, related element by element. *)
Inductive Forall3 {A B C} (R : A -> B -> C -> Prop) : list A -> list B -> list C -> Prop :=
| F3_nil : Forall3 R [] [] []
| F3_cons a b c la lb lc : R a b c -> Forall3 R la lb lc -> Forall3 R (a :: la) (b :: lb) (c :: lc).
