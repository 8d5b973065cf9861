(** * CrlfSpec: SPECIFICATION of changing the line ends of a text to those of Windows

    [crlf] puts a carriage return (13) before every line feed (10).  [AddCr s s']: [s'] is [s] with carriage returns put before
    some of its line feeds.  The [Cr] relations: the two trees are the same except that strings (and the
    texts of object keys that are expressions) may differ in that way.  Nothing here refers to the parsers. *)
From Coq Require Import ZArith.
From Verif Require Import Base Ast NumConv Kvp Value.
Close Scope Z_scope.

Fixpoint crlf (s : str) : str :=
  match s with
  | [] => []
  | c :: s' => if c =? 10 then 13 :: 10 :: crlf s' else c :: crlf s'
  end.

Inductive AddCr : str -> str -> Prop :=
| AC_nil : AddCr [] []
| AC_same c s s' : AddCr s s' -> AddCr (c :: s) (c :: s')
| AC_cr s s' : AddCr s s' -> AddCr (10 :: s) (13 :: 10 :: s').

Inductive CrCow : cow -> cow -> Prop :=
| CC_borrowed s s' : AddCr s s' -> CrCow (Borrowed s) (Borrowed s')
| CC_owned s s' : AddCr s s' -> CrCow (Owned s) (Owned s').

Inductive CrKey : okey -> okey -> Prop :=
| CK_ident i : CrKey (KIdent i) (KIdent i)
| CK_expr e e' : CrCow e e' -> CrKey (KExpr e) (KExpr e').

Inductive CrExpr : expr -> expr -> Prop :=
| CE_null : CrExpr ENull ENull
| CE_number n : CrExpr (ENumber n) (ENumber n)
| CE_bool b : CrExpr (EBool b) (EBool b)
| CE_string s s' : CrCow s s' -> CrExpr (EString s) (EString s')
| CE_tuple l l' : CrExprs l l' -> CrExpr (ETuple l) (ETuple l')
| CE_object l l' : CrMembers l l' -> CrExpr (EObject l) (EObject l')
with CrExprs : list expr -> list expr -> Prop :=
| CEs_nil : CrExprs [] []
| CEs_cons e e' l l' : CrExpr e e' -> CrExprs l l' -> CrExprs (e :: l) (e' :: l')
with CrMembers : list (okey * expr) -> list (okey * expr) -> Prop :=
| CMs_nil : CrMembers [] []
| CMs_cons k k' e e' l l' : CrKey k k' -> CrExpr e e' -> CrMembers l l' -> CrMembers ((k, e) :: l) ((k', e') :: l').

Inductive CrElem : element -> element -> Prop :=
| CL_attr n e e' : CrExpr e e' -> CrElem (Attr n e) (Attr n e')
| CL_block t ls b b' : CrBody b b' -> CrElem (Blk t ls b) (Blk t ls b')
with CrBody : body_t -> body_t -> Prop :=
| CB_nil : CrBody [] []
| CB_cons el el' b b' : CrElem el el' -> CrBody b b' -> CrBody (el :: b) (el' :: b').

Inductive CrValue : value -> value -> Prop :=
| CV_same v : CrValue v v
| CV_string s s' : AddCr s s' -> CrValue (VString s) (VString s')
| CV_list l l' : Forall2 CrValue l l' -> CrValue (VList l) (VList l')
| CV_object l l' : CrEntries l l' -> CrValue (VObject [Unmerged l]) (VObject [Unmerged l'])
| CV_block ls l l' : CrEntries l l' -> CrValue (VBlock (Unmerged [(ls, Unmerged l)])) (VBlock (Unmerged [(ls, Unmerged l')]))
with CrEntries : list (key * value) -> list (key * value) -> Prop :=
| CVE_nil : CrEntries [] []
| CVE_cons k v v' l l' : CrValue v v' -> CrEntries l l' -> CrEntries ((k, v) :: l) ((k, v') :: l').

(** No string and no expression used as a key goes over a line end. *)
Inductive OneLine : expr -> Prop :=
| OL_null : OneLine ENull
| OL_number n : OneLine (ENumber n)
| OL_bool b : OneLine (EBool b)
| OL_string s : ~ In 10 (cow_str s) -> OneLine (EString s)
| OL_tuple l : (forall e, In e l -> OneLine e) -> OneLine (ETuple l)
| OL_object l : (forall k e, In (k, e) l -> (forall t, k = KExpr t -> ~ In 10 (cow_str t)) /\ OneLine e) -> OneLine (EObject l).
Inductive OneLineBody : body_t -> Prop :=
| OB_body b : (forall n e, In (Attr n e) b -> OneLine e) -> (forall t ls b', In (Blk t ls b') b -> OneLineBody b') -> OneLineBody b.
