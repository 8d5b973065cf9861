(** * SerdeErrSpec: SPECIFICATION side for the errors of deserialisation: where things
    occur in a source or in a type *)
From Verif Require Import Base Ast Blocks NumConv Serde.

(** [x] is a part of an expression. *)
Inductive SubExpr (x : expr) : expr -> Prop :=
| SE_self : SubExpr x x
| SE_tuple e l : In e l -> SubExpr x e -> SubExpr x (ETuple l)
| SE_object k e l : In (k, e) l -> SubExpr x e -> SubExpr x (EObject l).
(** [x] occurs in a source: an expression; a body, in an attribute or, at any depth, in
    a block; the blocks of one type. *)
Inductive HasExpr (x : expr) : src -> Prop :=
| HE_expr e : SubExpr x e -> HasExpr x (SExpr e)
| HE_attr n e b : In (Attr n e) b -> SubExpr x e -> HasExpr x (SBody b)
| HE_blk t ls bd b : In (Blk t ls bd) b -> HasExpr x (SBody bd) -> HasExpr x (SBody b)
| HE_blocks p bd bb : In (p, bd) (flat_iter bb) -> HasExpr x (SBody bd) -> HasExpr x (SBlock bb).
(** The body [x] occurs in a source. *)
Inductive HasBody (x : body_t) : src -> Prop :=
| HB_self : HasBody x (SBody x)
| HB_blk t ls bd b : In (Blk t ls bd) b -> HasBody x (SBody bd) -> HasBody x (SBody b)
| HB_blocks p bd bb : In (p, bd) (flat_iter bb) -> HasBody x (SBody bd) -> HasBody x (SBlock bb).

(** [x] is a part of a type. *)
Inductive SubTy (x : ty) : ty -> Prop :=
| ST_self : SubTy x x
| ST_option t : SubTy x t -> SubTy x (TOption t)
| ST_newtype t : SubTy x t -> SubTy x (TNewtype t)
| ST_seq t : SubTy x t -> SubTy x (TSeq t)
| ST_tuple t l : In t l -> SubTy x t -> SubTy x (TTuple l)
| ST_map k t : SubTy x t -> SubTy x (TMap k t)
| ST_struct f t l : In (f, t) l -> SubTy x t -> SubTy x (TStruct l).

(** The identifier [k] is the key of two elements of an object. *)
Definition RepeatedKey (k : str) (l : list (okey * expr)) : Prop :=
  exists l1 i e l2 i' e' l3, l = l1 ++ (KIdent i, e) :: l2 ++ (KIdent i', e') :: l3 /\ cow_str i = k /\ cow_str i' = k.
(** Two attributes of a body are called [k]. *)
Definition RepeatedAttr (k : str) (b : body_t) : Prop :=
  exists b1 n e b2 n' e' b3, b = b1 ++ Attr n e :: b2 ++ Attr n' e' :: b3 /\ cow_str n = k /\ cow_str n' = k.
(** Some object or body of the source has nothing called [f]. *)
Definition LacksKey (f : str) (s : src) : Prop :=
  (exists l, HasExpr (EObject l) s /\ forall i e, In (KIdent i, e) l -> cow_str i <> f) \/
  (exists b, HasBody b s /\ (forall n e, In (Attr n e) b -> cow_str n <> f) /\ forall t ls bd, In (Blk t ls bd) b -> cow_str t <> f).

(** What each error says about the source and the target type.  (For numbers of parsed
    documents, C86_parsed says the same in terms of their text.)  [ECustom CInvalidType],
    [CInvalidValue] and [CInvalidLength] are the target's own complaints. *)
Definition Cause (e : de_error) (t : ty) (s : src) : Prop :=
  match e with
  | EParseError _ => False
  | EParseInt => exists n, HasExpr (ENumber n) s /\ is_float n = false /\ as_int I64 n = None
  | EParseFloat => exists n, HasExpr (ENumber n) s /\ is_float n = true /\ as_f64 n = None
  | ETupleLength k k' => k <> k' /\ exists ts l, SubTy (TTuple ts) t /\ length ts = k /\ HasExpr (ETuple l) s /\ length l = k'
  | EObjectDuplicateKey k => exists l, HasExpr (EObject l) s /\ RepeatedKey k l
  | EBodyDuplicateKey k => exists b, HasBody b s /\ RepeatedAttr k b
  | ECustom (CMissingField f) => LacksKey f s /\ exists fs t', SubTy (TStruct fs) t /\ In (f, t') fs /\ forall t'', t' <> TOption t''
  | ECustom (CDuplicateField _) => False
  | ECustom _ => True
  end.
