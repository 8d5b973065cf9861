(** * RearrangeSpec: SPECIFICATION of rearranging a value that is to be merged

    [RMap p p']: [p'] is [p] with the entries of maps put in another order, at any depth.  Entries with the same key keep
    their order, except blocks: of those only the bodies under the same labels keep their order, and it does not matter
    how the bodies are divided into blocks.  Nothing here refers to how merging works. *)
From Verif Require Import Base Kvp Value ValueSpec.

(** The bodies under the labels [ls], in order. *)
Definition bodies_of (ls : list str) (l : list (list str * mapvalues)) : list mapvalues :=
  map snd (filter (fun kv => labels_eqb (fst kv) ls) l).

Inductive RVal : value -> value -> Prop :=
| RV_same v : RVal v v
| RV_list l l' : Forall2 RVal l l' -> RVal (VList l) (VList l')
| RV_object l l' : Forall2 RMap l l' -> RVal (VObject l) (VObject l')
| RV_block l l' : (forall ls, Forall2 RMap (bodies_of ls l) (bodies_of ls l')) ->
    RVal (VBlock (Unmerged l)) (VBlock (Unmerged l'))
with RMap : mapvalues -> mapvalues -> Prop :=
| RM_same p : RMap p p
| RM_entries l l' : (forall k, RVals (values_of k l) (values_of k l')) -> RMap (Unmerged l) (Unmerged l')
(** the values of one key *)
with RVals : list value -> list value -> Prop :=
| RVS_each vs vs' : Forall2 RVal vs vs' -> RVals vs vs'
| RVS_blocks b bs b' bs' :
    (forall ls, Forall2 RMap (bodies_of ls (concat (b :: bs))) (bodies_of ls (concat (b' :: bs')))) ->
    RVals (map (fun x => VBlock (Unmerged x)) (b :: bs)) (map (fun x => VBlock (Unmerged x)) (b' :: bs')).
