(** * CommonVSpec: SPECIFICATION of the values that can be written so that both parsers read them

    As VReachSpec.v (what [value::from_str] can return at all), with these restrictions: the keys of the
    document and of blocks are names, and blocks stand only in the document and in blocks, not
    in objects. *)
From Coq Require Import ZArith SpecFloat.
From Verif Require Import Base Ast NumConv NumSpec IoSpec Kvp Value ReachSpec VReachSpec CommonSpec.
Close Scope Z_scope.

Section WithTables.
Context (U : ucd).
Inductive CValue : Value.value -> Prop :=
| CV_null : CValue VNull
| CV_bool b : CValue (VBoolean b)
| CV_int z : InRange I64 z -> CValue (VInteger z)
| CV_float f : NotNaN 53 1024 f -> CValue (VFloat f)
| CV_string s : IsStr s -> CValue (VString s)
| CV_list l : Forall CValue l -> CValue (VList l)
| CV_object l : Forall (fun kv => RKey U (fst kv) /\ CValue (snd kv)) l -> CValue (VObject [Unmerged l]).
Inductive CEntry : key * Value.value -> Prop :=
| CE_value t v : Name U t -> CValue v -> CEntry (KeyIdent t, v)
| CE_block t ls l : Name U t -> Forall IsStr ls -> Forall CEntry l -> CEntry (KeyIdent t, block_value ls l).
End WithTables.
