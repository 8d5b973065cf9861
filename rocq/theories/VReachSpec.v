(** * VReachSpec: SPECIFICATION of the values [value::from_str] can return

    [RValue v]: the value [v] can be written.  [REntry k v]: [v] can stand under the key
    [k] in a map or in the document.  Nothing here mentions texts or the parser. *)
From Coq Require Import ZArith SpecFloat.
From Verif Require Import Base Ast NumConv NumSpec IoSpec Kvp Value ReachSpec.
Close Scope Z_scope.

Section WithTables.
Context (U : ucd).
(** a key: a name, or any string in quotes *)
Inductive RKey : key -> Prop :=
| RK_ident t : Name U t -> RKey (KeyIdent t)
| RK_string s : IsStr s -> RKey (KeyString s).

(** Objects hold one unmerged list of entries, in any order and with keys repeated at
    will; a block is not a value: it stands only under a name, with one or more
    labels and one body. *)
Inductive RValue : Value.value -> Prop :=
| RV_null : RValue VNull
| RV_bool b : RValue (VBoolean b)
| RV_int z : InRange I64 z -> RValue (VInteger z)
| RV_float f : NotNaN 53 1024 f -> RValue (VFloat f)
| RV_string s : IsStr s -> RValue (VString s)
| RV_list l : Forall RValue l -> RValue (VList l)
| RV_object l : Forall REntry l -> RValue (VObject [Unmerged l])
with REntry : key * Value.value -> Prop :=
| RE_value k v : RKey k -> RValue v -> REntry (k, v)
| RE_block t ls l : Name U t -> ls <> [] -> Forall IsStr ls -> Forall REntry l ->
    REntry (KeyIdent t, VBlock (Unmerged [(ls, Unmerged l)])).

(** With merging: tables with every key once.  A key may have several objects (from its
    repetitions), a name several blocks with different labels. *)
Inductive MValue : Value.value -> Prop :=
| MV_null : MValue VNull
| MV_bool b : MValue (VBoolean b)
| MV_int z : InRange I64 z -> MValue (VInteger z)
| MV_float f : NotNaN 53 1024 f -> MValue (VFloat f)
| MV_string s : IsStr s -> MValue (VString s)
| MV_list l : Forall MValue l -> MValue (VList l)
| MV_object p : MMap p -> MValue (VObject [p])
with MEntry : key * Value.value -> Prop :=
| MN_value k v : RKey k -> MValue v -> MEntry (k, v)
| MN_objects k ps : RKey k -> ps <> [] -> Forall MMap ps -> MEntry (k, VObject ps)
| MN_blocks t bs : Name U t -> bs <> [] -> NoDup (map fst bs) ->
    Forall (fun b => fst b <> [] /\ Forall IsStr (fst b) /\ MMap (snd b)) bs -> MEntry (KeyIdent t, VBlock (Merged bs))
with MMap : mapvalues -> Prop :=
| MM m : NoDup (map fst m) -> Forall MEntry m -> MMap (Merged m).

(** The errors merging can end with: a key twice whose first value is neither an object
    nor a block; something else after an object; something else after a block.  (Only a
    name can have blocks.) *)
Inductive RError : merge_error -> Prop :=
| RR_illegal k n : IsStr k -> n <> NObject -> n <> NBlock -> RError (IllegalMultipleEntries k n)
| RR_object k n : IsStr k -> n <> NObject -> (n = NBlock -> Name U k) -> RError (ErrorMergingKeys k NObject n)
| RR_block k n : Name U k -> n <> NBlock -> RError (ErrorMergingKeys k NBlock n).
End WithTables.
