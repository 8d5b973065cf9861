(** * OldLayoutSpec: SPECIFICATION of the tokens of what [value::from_str] reads

    As LayoutSpec.v, for the value reader: [ODoc l ps] says that [ps] is a layout (tokens with
    their exact texts, and gaps) of a document with the entries [l].  Gaps and
    fillings are those of LayoutSpec.v, tokens those of Grammar.v and OldGrammar.v;
    nothing here refers to the parser. *)
From Coq Require Import ZArith.
From Verif Require Import Base Ast Grammar NumConv NumSpec Kvp Value OldGrammar LayoutSpec.
Close Scope Z_scope.
Open Scope N_scope.
Open Scope list_scope.

(** The quoted labels of a block *)
Inductive OLabels : list str -> list item -> Prop :=
| OL_nil : OLabels [] []
| OL_cons v t ls ps : GChars PlainLine v t [34] -> OLabels ls ps -> OLabels (v :: ls) ([Gap GapInline; Tok ([34] ++ t)] ++ ps).

Section WithTables.
Context (U : ucd).

Inductive OTerm : Value.value -> list item -> bool -> Prop :=
| OT_null : OTerm VNull [Tok (lit "null")] false
| OT_true : OTerm (VBoolean true) [Tok (lit "true")] false
| OT_false : OTerm (VBoolean false) [Tok (lit "false")] false
| OT_number n t v : NumLit n t -> NumberValue t v -> OTerm v [Tok t] false
| OT_quoted v t : GChars Plain v t [34] -> OTerm (VString v) [Tok ([34] ++ t)] false
| OT_heredoc c t : GHeredoc U c (t ++ [10]) [10] -> OTerm (VString (cow_str c)) [Tok t] true
| OT_list l ps : OItems l ps -> OTerm (VList l) (Tok [91] :: ps) false
| OT_object l ps : OEntries l ps -> OTerm (VObject [Unmerged l]) ([Gap GapWs; Tok [123]] ++ ps ++ [Tok [125]]) false

(** After "[" *)
with OItems : list Value.value -> list item -> Prop :=
| OI_nil : OItems [] [Gap GapWs; Tok [93]]
| OI_comma : OItems [] [Gap GapWs; Tok [44]; Gap GapWs; Tok [93]]
| OI_last v ps h : OTerm v ps h -> OItems [v] ([Gap GapWs] ++ ps ++ [ws_after h; Tok [93]])
| OI_last_comma v ps h : OTerm v ps h -> OItems [v] ([Gap GapWs] ++ ps ++ [ws_after h; Tok [44]; Gap GapWs; Tok [93]])
| OI_cons v v' l ps h qs : OTerm v ps h -> OItems (v' :: l) qs -> OItems (v :: v' :: l) ([Gap GapWs] ++ ps ++ [ws_after h; Tok [44]] ++ qs)

(** Entries, each with its comma or its line end *)
with OEntries : list (key * Value.value) -> list item -> Prop :=
| ON_nil : OEntries [] [Gap GapWs]
| ON_comma k v l ps h qs : OEntry k v ps h -> OEntries l qs -> OEntries ((k, v) :: l) ([Gap GapWs] ++ ps ++ [ws_after h; Tok [44]] ++ qs)
| ON_line k v l ps h qs : OEntry k v ps h -> OEntries l qs -> OEntries ((k, v) :: l) ([Gap GapWs] ++ ps ++ end_after h ++ qs)

with OEntry : key -> Value.value -> list item -> bool -> Prop :=
| OE_attr k t v ps h : VKey U k (t ++ [61]) [61] -> OTerm v ps h -> OEntry k v ([Tok t; Gap GapInline; Tok [61]; Gap GapInline] ++ ps) h
| OE_object t l ps : IdentText U t -> OEntries l ps ->
    OEntry (KeyIdent t) (VObject [Unmerged l]) ([Tok t; Gap GapWs; Tok [123]] ++ ps ++ [Tok [125]]) false
| OE_block t ls qs l ps : IdentText U t -> ls <> [] -> OLabels ls qs -> OEntries l ps ->
    OEntry (KeyIdent t) (VBlock (Unmerged [(ls, Unmerged l)])) ([Tok t] ++ qs ++ [Gap GapWs; Tok [123]] ++ ps ++ [Tok [125]]) false.

(** A document.  Its last entry needs no separator (unless it ends in a heredoc). *)
Inductive ODoc : list (key * Value.value) -> list item -> Prop :=
| OD_nil : ODoc [] [Gap GapWs]
| OD_last k v ps : OEntry k v ps false -> ODoc [(k, v)] ([Gap GapWs] ++ ps ++ [Gap GapInline])
| OD_comma k v l ps h qs : OEntry k v ps h -> ODoc l qs -> ODoc ((k, v) :: l) ([Gap GapWs] ++ ps ++ [ws_after h; Tok [44]] ++ qs)
| OD_line k v l ps h qs : OEntry k v ps h -> ODoc l qs -> ODoc ((k, v) :: l) ([Gap GapWs] ++ ps ++ end_after h ++ qs).

Scheme OTerm_mut := Induction for OTerm Sort Prop
with OItems_mut := Induction for OItems Sort Prop
with OEntries_mut := Induction for OEntries Sort Prop
with OEntry_mut := Induction for OEntry Sort Prop.
Combined Scheme olayout_mut from OTerm_mut, OItems_mut, OEntries_mut, OEntry_mut.
End WithTables.
