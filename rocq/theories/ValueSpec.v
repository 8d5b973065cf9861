(** * ValueSpec: what merging should do, independently of how it is done *)
From Coq Require Import Permutation.
From Verif Require Import Base Kvp Value.

(** The values written for [k], in order. *)
Definition values_of (k : key) (l : list (key * value)) : list value :=
  map snd (filter (fun kv => key_eqb (fst kv) k) l).

(** [v] is the last value written for [k]. *)
Definition LastIn {K V} (k : K) (l : list (K * V)) (v : V) : Prop :=
  exists l1 l2, l = l1 ++ (k, v) :: l2 /\ ~ In k (map fst l2).
(** [m] is a table of the pairs [l]: each key once, with the last value written. *)
Definition TableOf {K V} (l m : list (K * V)) : Prop :=
  NoDup (map fst m) /\ forall k v, In (k, v) m <-> LastIn k l v.

(** ** Equality of values: tables are compared without regard to order, as Rust's
    derived [PartialEq] does (apart from NaN, which Rust holds different from itself). *)
Inductive veq : value -> value -> Prop :=
| VE_null : veq VNull VNull
| VE_int i : veq (VInteger i) (VInteger i)
| VE_float f : veq (VFloat f) (VFloat f)
| VE_bool b : veq (VBoolean b) (VBoolean b)
| VE_string s : veq (VString s) (VString s)
| VE_list l l' : Forall2 veq l l' -> veq (VList l) (VList l')
| VE_object l l' : Forall2 meq l l' -> veq (VObject l) (VObject l')
| VE_block_u l l' : Forall2 (fun a b => fst a = fst b /\ meq (snd a) (snd b)) l l' -> veq (VBlock (Unmerged l)) (VBlock (Unmerged l'))
| VE_block_m l l1 l' : Permutation l l1 -> Forall2 (fun a b => fst a = fst b /\ meq (snd a) (snd b)) l1 l' -> veq (VBlock (Merged l)) (VBlock (Merged l'))
with meq : mapvalues -> mapvalues -> Prop :=
| ME_u l l' : Forall2 (fun a b => fst a = fst b /\ veq (snd a) (snd b)) l l' -> meq (Unmerged l) (Unmerged l')
| ME_m l l1 l' : Permutation l l1 -> Forall2 (fun a b => fst a = fst b /\ veq (snd a) (snd b)) l1 l' -> meq (Merged l) (Merged l').

(** ** Every collection in a value is a vector / a table *)
Inductive AllUnmerged : value -> Prop :=
| AU_null : AllUnmerged VNull
| AU_scalar v : is_scalar v = true -> AllUnmerged v
| AU_list l : Forall AllUnmerged l -> AllUnmerged (VList l)
| AU_object l : Forall AllUnmergedMap l -> AllUnmerged (VObject l)
| AU_block l : Forall (fun kv => AllUnmergedMap (snd kv)) l -> AllUnmerged (VBlock (Unmerged l))
with AllUnmergedMap : mapvalues -> Prop :=
| AU_map l : Forall (fun kv => AllUnmerged (snd kv)) l -> AllUnmergedMap (Unmerged l).
Inductive AllMerged : value -> Prop :=
| AM_null : AllMerged VNull
| AM_scalar v : is_scalar v = true -> AllMerged v
| AM_list l : Forall AllMerged l -> AllMerged (VList l)
| AM_object l : Forall AllMergedMap l -> AllMerged (VObject l)
| AM_block m : Forall (fun kv => AllMergedMap (snd kv)) m -> AllMerged (VBlock (Merged m))
with AllMergedMap : mapvalues -> Prop :=
| AM_map m : Forall (fun kv => AllMerged (snd kv)) m -> AllMergedMap (Merged m).
(** ... every table has distinct keys, as a [HashMap] has *)
Definition NoDupTable {K V} (p : kvp K V) : Prop := match p with Merged m => NoDup (map fst m) | Unmerged _ => True end.
Inductive WfTables : value -> Prop :=
| WF_null : WfTables VNull
| WF_scalar v : is_scalar v = true -> WfTables v
| WF_list l : Forall WfTables l -> WfTables (VList l)
| WF_object l : Forall WfTablesMap l -> WfTables (VObject l)
| WF_block b : NoDupTable b -> Forall (fun kv => WfTablesMap (snd kv)) (entries b) -> WfTables (VBlock b)
with WfTablesMap : mapvalues -> Prop :=
| WF_map p : NoDupTable p -> Forall (fun kv => WfTables (snd kv)) (entries p) -> WfTablesMap p.
(** ... where a map is already a table, all inside it is merged too (values made by
    parsing, and by merging, are like this) *)
Inductive Tidy : value -> Prop :=
| TI_null : Tidy VNull
| TI_scalar v : is_scalar v = true -> Tidy v
| TI_list l : Forall Tidy l -> Tidy (VList l)
| TI_object l : Forall TidyMap l -> Tidy (VObject l)
| TI_block b : Forall (fun kv => TidyMap (snd kv)) (entries b) -> Tidy (VBlock b)
with TidyMap : mapvalues -> Prop :=
| TI_unmerged l : Forall (fun kv => Tidy (snd kv)) l -> TidyMap (Unmerged l)
| TI_merged m : AllMergedMap (Merged m) -> TidyMap (Merged m).
(** ... and no null anywhere *)
Inductive NoNull : value -> Prop :=
| NN_scalar v : is_scalar v = true -> NoNull v
| NN_list l : Forall NoNull l -> NoNull (VList l)
| NN_object l : Forall NoNullMap l -> NoNull (VObject l)
| NN_block b : Forall (fun kv => NoNullMap (snd kv)) (entries b) -> NoNull (VBlock b)
with NoNullMap : mapvalues -> Prop :=
| NN_map p : Forall (fun kv => NoNull (snd kv)) (entries p) -> NoNullMap p.

(** ** Which values can be merged *)
(** The values of one key can be put together: there is only one, or all are objects,
    or all are blocks. *)
Definition SameKind (vs : list value) : Prop :=
  (length vs <= 1)%nat \/ (exists ls, vs = map VObject ls) \/ (exists bs, vs = map VBlock bs).
Inductive CanMerge : value -> Prop :=
| CM_null : CanMerge VNull
| CM_scalar v : is_scalar v = true -> CanMerge v
| CM_list l : Forall CanMerge l -> CanMerge (VList l)
| CM_object l : Forall CanMergeMap l -> CanMerge (VObject l)
| CM_block b : Forall (fun kv => CanMergeMap (snd kv)) (entries b) -> CanMerge (VBlock b)
with CanMergeMap : mapvalues -> Prop :=
| CM_merged m : CanMergeMap (Merged m)   (* a table is left as it is *)
| CM_unmerged l : Forall (fun kv => CanMerge (snd kv)) l -> (forall k, SameKind (values_of k l)) ->
    CanMergeMap (Unmerged l).

(** ** The error when they cannot *)
(** Adding [new] to the values [vs] already there for [k] *)
Inductive Clash (k : key) : list value -> value -> merge_error -> Prop :=
| CL_illegal v vs new : variant_name v <> NObject -> variant_name v <> NBlock ->
    Clash k (v :: vs) new (IllegalMultipleEntries (key_str k) (variant_name v))
| CL_object ms vs new : variant_name new <> NObject ->
    Clash k (VObject ms :: vs) new (ErrorMergingKeys (key_str k) NObject (variant_name new))
| CL_block b vs new : variant_name new <> NBlock ->
    Clash k (VBlock b :: vs) new (ErrorMergingKeys (key_str k) NBlock (variant_name new)).
(** The first place, in document order and innermost first, where merging cannot go on. *)
Inductive FirstConflict : value -> merge_error -> Prop :=
| FC_list l1 v l2 e : Forall CanMerge l1 -> FirstConflict v e -> FirstConflict (VList (l1 ++ v :: l2)) e
| FC_object l1 p l2 e : Forall CanMergeMap l1 -> FirstConflictMap p e -> FirstConflict (VObject (l1 ++ p :: l2)) e
| FC_block b l1 ls p l2 e : entries b = l1 ++ (ls, p) :: l2 -> Forall (fun kv => CanMergeMap (snd kv)) l1 ->
    FirstConflictMap p e -> FirstConflict (VBlock b) e
with FirstConflictMap : mapvalues -> merge_error -> Prop :=
| FC_inside l1 k v l2 e : CanMergeMap (Unmerged l1) -> FirstConflict v e -> FirstConflictMap (Unmerged (l1 ++ (k, v) :: l2)) e
| FC_clash l1 k v l2 e : CanMergeMap (Unmerged l1) -> CanMerge v -> Clash k (values_of k l1) v e ->
    FirstConflictMap (Unmerged (l1 ++ (k, v) :: l2)) e.

(** ** The result when they can *)
(** The (merged) values of one key put together *)
Inductive Combined : list value -> value -> Prop :=
| CO_one v : Combined [v] v
| CO_objects l1 l2 ls : Combined (map VObject (l1 :: l2 :: ls)) (VObject (concat (l1 :: l2 :: ls)))
| CO_blocks b1 b2 bs m : TableOf (concat (map entries (b1 :: b2 :: bs))) m ->
    Combined (map VBlock (b1 :: b2 :: bs)) (VBlock (Merged m)).
Inductive MergesTo : value -> value -> Prop :=
| MT_null : MergesTo VNull VNull
| MT_scalar v : is_scalar v = true -> MergesTo v v
| MT_list l l' : Forall2 MergesTo l l' -> MergesTo (VList l) (VList l')
| MT_object l l' : Forall2 MapMergesTo l l' -> MergesTo (VObject l) (VObject l')
| MT_block b l' m : Forall2 (fun a b => fst b = fst a /\ MapMergesTo (snd a) (snd b)) (entries b) l' ->
    TableOf l' m -> MergesTo (VBlock b) (VBlock (Merged m))
with MapMergesTo : mapvalues -> mapvalues -> Prop :=
| MT_merged m : MapMergesTo (Merged m) (Merged m)
| MT_unmerged l l' m : Forall2 (fun a b => fst b = fst a /\ MergesTo (snd a) (snd b)) l l' ->
    NoDup (map fst m) -> (forall k, In k (map fst m) <-> In k (map fst l)) ->
    (forall k v, In (k, v) m -> Combined (values_of k l') v) ->
    MapMergesTo (Unmerged l) (Merged m).

(** ** No two blocks of one type carry the same labels (where they would be merged) *)
Definition block_labels (vs : list value) : list (list str) :=
  flat_map (fun v => match v with VBlock b => map fst (entries b) | _ => [] end) vs.
Inductive DistinctLabels : value -> Prop :=
| DL_null : DistinctLabels VNull
| DL_scalar v : is_scalar v = true -> DistinctLabels v
| DL_list l : Forall DistinctLabels l -> DistinctLabels (VList l)
| DL_object l : Forall DistinctLabelsMap l -> DistinctLabels (VObject l)
| DL_block b : NoDup (map fst (entries b)) -> Forall (fun kv => DistinctLabelsMap (snd kv)) (entries b) -> DistinctLabels (VBlock b)
with DistinctLabelsMap : mapvalues -> Prop :=
| DL_merged m : DistinctLabelsMap (Merged m)
| DL_unmerged l : Forall (fun kv => DistinctLabels (snd kv)) l ->
    (forall k, NoDup (block_labels (values_of k l))) -> DistinctLabelsMap (Unmerged l).
