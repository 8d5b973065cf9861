(** * OldGrammar: SPECIFICATION of what [value::from_str] reads

    A declarative grammar, independent of the parser model: it shares characters,
    tokens and white space with Grammar.v and produces values instead of syntax
    trees.  [G v s r] reads "[s] is a text of [v] followed by [r]". *)
From Coq Require Import ZArith.
From Verif Require Import Base Ast Grammar NumConv NumSpec Kvp Value.
Close Scope Z_scope.

(** A number literal is an [i64] if it is an integer in its range, otherwise the
    [f64] that [f64::from_str] gives. *)
Inductive NumberValue : str -> Value.value -> Prop :=
| NV_int t z : IntegerText t z -> InRange I64 z -> NumberValue t (VInteger z)
| NV_float t f : (forall z, IntegerText t z -> ~ InRange I64 z) ->
    f64_from_str t = Some f -> NumberValue t (VFloat f).

(** What separates two entries: a comma (with any white space before it), or the
    end of the line, or the end of the input. *)
Inductive VSep : str -> str -> Prop :=
| VS_comma w s : Ws w -> VSep (w ++ [44] ++ s) s
| VS_line i n s : Iws i -> LineEnd n -> VSep (i ++ n ++ s) s
| VS_end i : Iws i -> VSep i [].

(** Quoted labels *)
Inductive VLabels : list str -> str -> str -> Prop :=
| VL_nil r : VLabels [] r r
| VL_cons v ls i s s' r : Iws i -> GChars PlainLine v s ([34] ++ s') -> VLabels ls s' r ->
    VLabels (v :: ls) (i ++ [34] ++ s) r.

Section WithTables.
Context (U : ucd).

Inductive VKey : key -> str -> str -> Prop :=
| VK_ident t s r : GIdent U (Borrowed t) s r -> VKey (KeyIdent t) s r
| VK_string v s r : GChars PlainLine v s ([34] ++ r) -> VKey (KeyString v) ([34] ++ s) r.

Inductive VTerm : Value.value -> str -> str -> Prop :=
| VT_null r : VTerm VNull (lit "null" ++ r) r
| VT_true r : VTerm (VBoolean true) (lit "true" ++ r) r
| VT_false r : VTerm (VBoolean false) (lit "false" ++ r) r
| VT_number n t v r : NumLit n t -> Longest NumberText t r -> NumberValue t v -> VTerm v (t ++ r) r
| VT_quoted v s r : GChars Plain v s ([34] ++ r) -> VTerm (VString v) ([34] ++ s) r
| VT_heredoc c s r : GHeredoc U c s r -> VTerm (VString (cow_str c)) s r
| VT_list l s r : VItems l s r -> VTerm (VList l) ([91] ++ s) r
(** white space, including line ends, may precede the brace *)
| VT_object l w s r : Ws w -> VEntries l s ([125] ++ r) ->
    VTerm (VObject [Unmerged l]) (w ++ [123] ++ s) r

(** After "[": items separated by commas, with an optional trailing comma (also when
    there are no items) *)
with VItems : list Value.value -> str -> str -> Prop :=
| VI_nil w r : Ws w -> VItems [] (w ++ [93] ++ r) r
| VI_comma w1 w2 r : Ws w1 -> Ws w2 -> VItems [] (w1 ++ [44] ++ w2 ++ [93] ++ r) r
| VI_last v w1 w2 s r : Ws w1 -> Ws w2 ->
    VTerm v s (w2 ++ [93] ++ r) -> VItems [v] (w1 ++ s) r
| VI_last_comma v w1 w2 w3 s r : Ws w1 -> Ws w2 -> Ws w3 ->
    VTerm v s (w2 ++ [44] ++ w3 ++ [93] ++ r) -> VItems [v] (w1 ++ s) r
| VI_cons v v' l w1 w2 s s' r : Ws w1 -> Ws w2 ->
    VTerm v s (w2 ++ [44] ++ s') -> VItems (v' :: l) s' r ->
    VItems (v :: v' :: l) (w1 ++ s) r

(** Entries of a map or of the document, each ended by a separator: the last one, too *)
with VEntries : list (key * Value.value) -> str -> str -> Prop :=
| VE_nil w r : Ws w -> VEntries [] (w ++ r) r
| VE_cons k v l w s s1 s2 r : Ws w -> VEntry k v s s1 -> VSep s1 s2 -> VEntries l s2 r ->
    VEntries ((k, v) :: l) (w ++ s) r

(** [key = value], [name { entries }] (an object), [name "label" ... { entries }] (a block
    with one body) *)
with VEntry : key -> Value.value -> str -> str -> Prop :=
| VE_attr k v i1 i2 s s' r : Iws i1 -> Iws i2 ->
    VKey k s (i1 ++ [61] ++ i2 ++ s') -> VTerm v s' r -> VEntry k v s r
| VE_object t l w s s' r : Ws w ->
    GIdent U (Borrowed t) s (w ++ [123] ++ s') -> VEntries l s' ([125] ++ r) ->
    VEntry (KeyIdent t) (VObject [Unmerged l]) s r
| VE_block t ls l w s s1 s' r : Ws w -> ls <> [] ->
    GIdent U (Borrowed t) s s1 -> VLabels ls s1 (w ++ [123] ++ s') -> VEntries l s' ([125] ++ r) ->
    VEntry (KeyIdent t) (VBlock (Unmerged [(ls, Unmerged l)])) s r.

Scheme VTerm_mut := Induction for VTerm Sort Prop
with VItems_mut := Induction for VItems Sort Prop
with VEntries_mut := Induction for VEntries Sort Prop
with VEntry_mut := Induction for VEntry Sort Prop.
Combined Scheme old_mut from VTerm_mut, VItems_mut, VEntries_mut, VEntry_mut.

(** A document *)
Definition VDoc (l : list (key * Value.value)) (s : str) : Prop := VEntries l s [].
End WithTables.
