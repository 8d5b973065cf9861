(** * AgreeSpec: SPECIFICATION of how a syntax tree ([parse_str]) is written as a
    document value ([value::from_str]) *)
From Coq Require Import ZArith.
From Verif Require Import Base Ast Grammar OldGrammar Kvp Value.
Close Scope Z_scope.

(** Keys of objects: identifiers, and quoted strings (kept as source text in the tree) *)
Inductive KeyAs : okey -> key -> Prop :=
| KA_ident i : KeyAs (KIdent i) (KeyIdent (cow_str i))
| KA_quoted v t : GChars PlainLine v t [34] -> KeyAs (KExpr (Borrowed ([34] ++ t))) (KeyString v).

Inductive ExprAs : expr -> Value.value -> Prop :=
| EA_null : ExprAs ENull VNull
| EA_bool b : ExprAs (EBool b) (VBoolean b)
| EA_number n v : NumberValue (cow_str (num_input n)) v -> ExprAs (ENumber n) v
| EA_string c : ExprAs (EString c) (VString (cow_str c))
| EA_tuple l l' : Forall2 ExprAs l l' -> ExprAs (ETuple l) (VList l')
| EA_object l l' : Forall2 (fun m kv => KeyAs (fst m) (fst kv) /\ ExprAs (snd m) (snd kv)) l l' ->
    ExprAs (EObject l) (VObject [Unmerged l']).

(** An unlabelled block is an object, a labelled one a block with one body *)
Inductive ElemAs : element -> key * Value.value -> Prop :=
| EA_attr i e v : ExprAs e v -> ElemAs (Attr i e) (KeyIdent (cow_str i), v)
| EA_unlabelled t b l : Forall2 ElemAs b l ->
    ElemAs (Blk t [] b) (KeyIdent (cow_str t), VObject [Unmerged l])
| EA_labelled t ls b l : ls <> [] -> Forall2 ElemAs b l ->
    ElemAs (Blk t (map LString ls) b) (KeyIdent (cow_str t), VBlock (Unmerged [(ls, Unmerged l)])).
Definition DocAs : body_t -> list (key * Value.value) -> Prop := Forall2 ElemAs.
