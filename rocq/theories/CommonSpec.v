(** * CommonSpec: SPECIFICATION of the documents that both parsers read

    A layout (LayoutSpec.v: tokens with their exact texts, and gaps) with, at the same time, the syntax
    tree [parse_str] gives for it and the entries [value::from_str] gives for it:
    [BDoc b l ps].  Compared with the layouts of [parse_str] alone there are no parentheses, keys
    of objects are identifiers or strings in quotes on one line, labels are in quotes, every
    member of an object is followed by a comma or a line end, also the last one, and a block on one line
    is empty.  Nothing here refers to a parser. *)
From Coq Require Import ZArith.
From Verif Require Import Base Ast Grammar NumConv NumSpec Kvp Value OldGrammar LayoutSpec.
Close Scope Z_scope.
Open Scope N_scope.
Open Scope list_scope.

(** Quoted labels, and the gap after them *)
Inductive BLabels : list str -> list item -> Prop :=
| BL_nil : BLabels [] [Gap GapInline]
| BL_cons v t ls ps : GChars PlainLine v t [34] -> BLabels ls ps -> BLabels (v :: ls) ([Gap GapInline; Tok ([34] ++ t)] ++ ps).
(** A block without labels is an object, with labels a block with one body *)
Definition block_value (ls : list str) (l : list (key * Value.value)) : Value.value :=
  match ls with [] => VObject [Unmerged l] | _ => VBlock (Unmerged [(ls, Unmerged l)]) end.

Section WithTables.
Context (U : ucd).

Inductive BKey : okey -> key -> str -> Prop :=
| BK_ident t : IdentText U t -> BKey (KIdent (Borrowed t)) (KeyIdent t) t
| BK_quoted v t : GChars PlainLine v t [34] -> BKey (KExpr (Borrowed ([34] ++ t))) (KeyString v) ([34] ++ t).

Inductive BTerm : expr -> Value.value -> list item -> bool -> Prop :=
| BT_null : BTerm ENull VNull [Tok (lit "null")] false
| BT_true : BTerm (EBool true) (VBoolean true) [Tok (lit "true")] false
| BT_false : BTerm (EBool false) (VBoolean false) [Tok (lit "false")] false
| BT_number n t v : NumLit n t -> NumberValue t v -> BTerm (ENumber n) v [Tok t] false
| BT_quoted v t : GChars Plain v t [34] -> BTerm (EString (Owned v)) (VString v) [Tok ([34] ++ t)] false
| BT_heredoc c t : GHeredoc U c (t ++ [10]) [10] -> BTerm (EString c) (VString (cow_str c)) [Tok t] true
| BT_tuple l l' ps : BItems l l' ps -> BTerm (ETuple l) (VList l') (Tok [91] :: ps) false
| BT_object l l' ps : BMembers l l' ps -> BTerm (EObject l) (VObject [Unmerged l']) (Tok [123] :: ps) false

(** Before an object there may be line ends, wherever it stands *)
with BExpr : expr -> Value.value -> list item -> bool -> Prop :=
| BX_term e v ps h : BTerm e v ps h -> BExpr e v ps h
| BX_lead l l' ps : BMembers l l' ps -> BExpr (EObject l) (VObject [Unmerged l']) (Gap GapWs :: Tok [123] :: ps) false

(** After "[" *)
with BItems : list expr -> list Value.value -> list item -> Prop :=
| BI_nil : BItems [] [] [Gap GapWs; Tok [93]]
| BI_comma : BItems [] [] [Gap GapWs; Tok [44]; Gap GapWs; Tok [93]]
| BI_last e v ps h : BExpr e v ps h -> BItems [e] [v] ([Gap GapWs] ++ ps ++ [ws_after h; Tok [93]])
| BI_last_comma e v ps h : BExpr e v ps h -> BItems [e] [v] ([Gap GapWs] ++ ps ++ [ws_after h; Tok [44]; Gap GapWs; Tok [93]])
| BI_cons e e' l v v' l' ps h qs : BExpr e v ps h -> BItems (e' :: l) (v' :: l') qs ->
    BItems (e :: e' :: l) (v :: v' :: l') ([Gap GapWs] ++ ps ++ [ws_after h; Tok [44]] ++ qs)

(** After "{" *)
with BMembers : list (okey * expr) -> list (key * Value.value) -> list item -> Prop :=
| BM_nil : BMembers [] [] [Gap GapWs; Tok [125]]
| BM_comma k k' t e v ps l l' qs : BKey k k' t -> BExpr e v ps false -> BMembers l l' qs ->
    BMembers ((k, e) :: l) ((k', v) :: l')
      ([Gap GapWs; Tok t; Gap GapInline; Tok [61]; Gap GapInline] ++ ps ++ [Gap GapInline; Tok [44]] ++ qs)
| BM_line k k' t e v ps h l l' qs : BKey k k' t -> BExpr e v ps h -> BMembers l l' qs ->
    BMembers ((k, e) :: l) ((k', v) :: l')
      ([Gap GapWs; Tok t; Gap GapInline; Tok [61]; Gap GapInline] ++ ps ++ end_after h ++ qs).

Inductive BElem : element -> key * Value.value -> list item -> bool -> Prop :=
| BE_attr i e v ps h : IdentText U i -> BExpr e v ps h ->
    BElem (Attr (Borrowed i) e) (KeyIdent i, v) ([Tok i; Gap GapInline; Tok [61]; Gap GapInline] ++ ps) h
| BE_empty t ls ps : IdentText U t -> BLabels ls ps ->
    BElem (Blk (Borrowed t) (map LString ls) []) (KeyIdent t, block_value ls [])
      ([Tok t] ++ ps ++ [Tok [123]; Gap GapInline; Tok [125]]) false
| BE_block t ls ps b l qs : IdentText U t -> BLabels ls ps -> BBody b l qs ->
    BElem (Blk (Borrowed t) (map LString ls) b) (KeyIdent t, block_value ls l)
      ([Tok t] ++ ps ++ [Tok [123]; Gap GapInline; Gap GapLine] ++ qs ++ [Tok [125]]) false

(** Elements, each with its line end *)
with BBody : body_t -> list (key * Value.value) -> list item -> Prop :=
| BB_nil : BBody [] [] [Gap GapWs]
| BB_cons el kv b l ps h qs : BElem el kv ps h -> BBody b l qs ->
    BBody (el :: b) (kv :: l) ([Gap GapWs] ++ ps ++ end_after h ++ qs).

(** A document.  Its last element needs no line end (unless it ends in a heredoc). *)
Inductive BDoc : body_t -> list (key * Value.value) -> list item -> Prop :=
| BD_nil : BDoc [] [] [Gap GapWs]
| BD_last el kv ps : BElem el kv ps false -> BDoc [el] [kv] ([Gap GapWs] ++ ps ++ [Gap GapInline])
| BD_cons el kv b l ps h qs : BElem el kv ps h -> BDoc b l qs ->
    BDoc (el :: b) (kv :: l) ([Gap GapWs] ++ ps ++ end_after h ++ qs).

Scheme BTerm_mut := Induction for BTerm Sort Prop
with BExpr_mut := Induction for BExpr Sort Prop
with BItems_mut := Induction for BItems Sort Prop
with BMembers_mut := Induction for BMembers Sort Prop.
Combined Scheme common_mut from BTerm_mut, BExpr_mut, BItems_mut, BMembers_mut.
Scheme BElem_mut := Induction for BElem Sort Prop
with BBody_mut := Induction for BBody Sort Prop.
Combined Scheme cbody_mut from BElem_mut, BBody_mut.
End WithTables.
