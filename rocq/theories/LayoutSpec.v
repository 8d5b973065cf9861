(** * LayoutSpec: SPECIFICATION of the tokens of a document and of what may stand between them

    A layout is a sequence of tokens, each with its exact text, and of gaps.  [LDoc b ps] says that
    [ps] is a layout of a document denoting [b]: every way of writing [b] has one (heredocs,
    parentheses, trailing commas, one-line blocks, any spelling of a string).  [Filled ps s]
    says that [s] is such a sequence with every gap filled with something allowed in it.
    Tokens are described with the grammar's own token classes (Grammar.v); nothing
    here refers to the parser. *)
From Verif Require Import Base Ast Grammar.

Inductive gap :=
| GapWs        (* any white space and comments, line ends included; may be empty *)
| GapInline    (* blanks and inline comments; may be empty *)
| GapInline1   (* the same, not empty: between two identifiers *)
| GapLine      (* a line end or a line comment *)
| GapNl        (* a line end: after a heredoc *)
| GapNlWs.     (* a line end and then any white space: after a heredoc *)
Inductive InGap : gap -> str -> Prop :=
| IG_ws w : Ws w -> InGap GapWs w
| IG_inline w : Iws w -> InGap GapInline w
| IG_inline1 w : Iws w -> w <> [] -> InGap GapInline1 w
| IG_line n : LineEnd n -> InGap GapLine n
| IG_nl e : Eol e -> InGap GapNl e
| IG_nlws e w : Eol e -> Ws w -> InGap GapNlWs (e ++ w).

Inductive item := Tok (t : str) | Gap (g : gap).
Inductive Filled : list item -> str -> Prop :=
| FL_nil : Filled [] []
| FL_tok t ps s : Filled ps s -> Filled (Tok t :: ps) (t ++ s)
| FL_gap g w ps s : InGap g w -> Filled ps s -> Filled (Gap g :: ps) (w ++ s).

(** Only a line end can follow the closing marker of a heredoc: the flag [h] says that the
    layout ends in one. *)
Definition ws_after (h : bool) : item := Gap (if h then GapNlWs else GapWs).
Definition end_after (h : bool) : list item := if h then [Gap GapNl] else [Gap GapInline; Gap GapLine].

Section WithTables.
Context (U : ucd).

Inductive LTerm : expr -> list item -> bool -> Prop :=
| LT_null : LTerm ENull [Tok (lit "null")] false
| LT_true : LTerm (EBool true) [Tok (lit "true")] false
| LT_false : LTerm (EBool false) [Tok (lit "false")] false
| LT_number n t : NumLit n t -> LTerm (ENumber n) [Tok t] false
| LT_quoted v t : GChars Plain v t [34] -> LTerm (EString (Owned v)) [Tok ([34] ++ t)] false
| LT_heredoc v t : GHeredoc U v (t ++ [10]) [10] -> LTerm (EString v) [Tok t] true
| LT_tuple l ps : LItems l ps -> LTerm (ETuple l) (Tok [91] :: ps) false
| LT_object l ps : LMembers l ps -> LTerm (EObject l) (Tok [123] :: ps) false
| LT_paren e ps h : LExpr e ps h -> LTerm e ([Tok [40]; Gap GapWs] ++ ps ++ [ws_after h; Tok [41]]) false

(** Before an object and before a parenthesis there may be line ends, wherever it stands *)
with LExpr : expr -> list item -> bool -> Prop :=
| LX_term e ps h : LTerm e ps h -> LExpr e ps h
| LX_lead e c ps h : c = 123 \/ c = 40 -> LTerm e (Tok [c] :: ps) h -> LExpr e (Gap GapWs :: Tok [c] :: ps) h

(** After "[" *)
with LItems : list expr -> list item -> Prop :=
| LI_nil : LItems [] [Gap GapWs; Tok [93]]
| LI_comma : LItems [] [Gap GapWs; Tok [44]; Gap GapWs; Tok [93]]
| LI_last e ps h : LExpr e ps h -> LItems [e] ([Gap GapWs] ++ ps ++ [ws_after h; Tok [93]])
| LI_last_comma e ps h : LExpr e ps h ->
    LItems [e] ([Gap GapWs] ++ ps ++ [ws_after h; Tok [44]; Gap GapWs; Tok [93]])
| LI_cons e e' l ps h qs : LExpr e ps h -> LItems (e' :: l) qs ->
    LItems (e :: e' :: l) ([Gap GapWs] ++ ps ++ [ws_after h; Tok [44]] ++ qs)

(** After "{".  A key is a token: the tree holds its text. *)
with LMembers : list (okey * expr) -> list item -> Prop :=
| LM_nil : LMembers [] [Gap GapWs; Tok [125]]
| LM_comma k t e ps l qs : GKey U k (t ++ [61]) [61] -> LExpr e ps false -> LMembers l qs ->
    LMembers ((k, e) :: l) ([Gap GapWs; Tok t; Gap GapInline; Tok [61]; Gap GapInline] ++ ps ++ [Gap GapInline; Tok [44]] ++ qs)
| LM_line k t e ps h l qs : GKey U k (t ++ [61]) [61] -> LExpr e ps h -> LMembers l qs ->
    LMembers ((k, e) :: l) ([Gap GapWs; Tok t; Gap GapInline; Tok [61]; Gap GapInline] ++ ps ++ end_after h ++ qs)
| LM_last k t e ps : GKey U k (t ++ [61]) [61] -> LExpr e ps false ->
    LMembers [(k, e)] ([Gap GapWs; Tok t; Gap GapInline; Tok [61]; Gap GapInline] ++ ps ++ [Gap GapInline; Tok [125]]).

Inductive LAttr : cow -> expr -> list item -> bool -> Prop :=
| LA i e ps h : IdentText U i -> LExpr e ps h ->
    LAttr (Borrowed i) e ([Tok i; Gap GapInline; Tok [61]; Gap GapInline] ++ ps) h.

(** The labels after an identifier ([id = true]) or a quoted label *)
Inductive LLabels : bool -> list label -> list item -> Prop :=
| LL_nil id : LLabels id [] [Gap GapInline]
| LL_ident id i ls ps : IdentText U i -> LLabels true ls ps ->
    LLabels id (LIdent (Borrowed i) :: ls) ([Gap (if id then GapInline1 else GapInline); Tok i] ++ ps)
| LL_string id v t ls ps : GChars PlainLine v t [34] -> LLabels false ls ps ->
    LLabels id (LString v :: ls) ([Gap GapInline; Tok ([34] ++ t)] ++ ps).

Inductive LElem : element -> list item -> bool -> Prop :=
| LE_attr i e ps h : LAttr i e ps h -> LElem (Attr i e) ps h
| LE_one_line_empty t ls ps : IdentText U t -> LLabels true ls ps ->
    LElem (Blk (Borrowed t) ls []) ([Tok t] ++ ps ++ [Tok [123]; Gap GapInline; Tok [125]]) false
| LE_one_line t ls ps n v qs : IdentText U t -> LLabels true ls ps -> LAttr n v qs false ->
    LElem (Blk (Borrowed t) ls [Attr n v]) ([Tok t] ++ ps ++ [Tok [123]; Gap GapInline] ++ qs ++ [Gap GapInline; Tok [125]]) false
| LE_block t ls ps b qs : IdentText U t -> LLabels true ls ps -> LBody b qs ->
    LElem (Blk (Borrowed t) ls b) ([Tok t] ++ ps ++ [Tok [123]; Gap GapInline; Gap GapLine] ++ qs ++ [Tok [125]]) false

(** Elements, each with its line end *)
with LBody : body_t -> list item -> Prop :=
| LB_nil : LBody [] [Gap GapWs]
| LB_cons el b ps h qs : LElem el ps h -> LBody b qs -> LBody (el :: b) ([Gap GapWs] ++ ps ++ end_after h ++ qs).

(** A document.  Its last element needs no line end (unless it ends in a heredoc). *)
Inductive LDoc : body_t -> list item -> Prop :=
| LD_nil : LDoc [] [Gap GapWs]
| LD_last el ps : LElem el ps false -> LDoc [el] ([Gap GapWs] ++ ps ++ [Gap GapInline])
| LD_cons el b ps h qs : LElem el ps h -> LDoc b qs -> LDoc (el :: b) ([Gap GapWs] ++ ps ++ end_after h ++ qs).

Scheme LTerm_mut := Induction for LTerm Sort Prop
with LExpr_mut := Induction for LExpr Sort Prop
with LItems_mut := Induction for LItems Sort Prop
with LMembers_mut := Induction for LMembers Sort Prop.
Combined Scheme layout_mut from LTerm_mut, LExpr_mut, LItems_mut, LMembers_mut.
Scheme LElem_mut := Induction for LElem Sort Prop
with LBody_mut := Induction for LBody Sort Prop.
Combined Scheme lbody_mut from LElem_mut, LBody_mut.
End WithTables.
