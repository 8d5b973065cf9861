(** * FailSpec: SPECIFICATION of how reading a document as a Rust type fails

    DenSpec.v says which parts of a document mean a value of a type.  [Fails vo t x p] says
    of the others what goes wrong first: reading [x] as a [t] ends with the problem [p].
    Everything before the first problem means a value ([Den]).  The only freedom is the
    order [vo] in which the types of blocks of a body are visited. *)
From Coq Require Import ZArith.
From Verif Require Import Base Ast Blocks NumConv NumSpec Grammar Serde SerdeSpec SerdeExactSpec DenSpec.
Open Scope nat_scope.

Inductive problem := Error (e : de_error) | Panic.

(** An order of visiting: for every body, the types of its blocks, each once. *)
Definition Visiting (vo : body_t -> list str) : Prop :=
  forall b, NoDup (vo b) /\ forall t, In t (vo b) <-> exists c, In c (block_list b) /\ cow_str (b_type c) = t.

(** ** Kinds of parts *)
Inductive kind := KNull | KBool | KInt | KFloat | KBorrowed | KOwned | KItems | KMembers.
Inductive Kind : node -> kind -> Prop :=
| K_null : Kind (Expr ENull) KNull
| K_bool b : Kind (Expr (EBool b)) KBool
| K_int n z : IntLit n z -> Kind (Expr (ENumber n)) KInt
| K_float n f : FloatLit n f -> Kind (Expr (ENumber n)) KFloat
| K_borrowed s : Kind (Expr (EString (Borrowed s))) KBorrowed
| K_owned s : Kind (Expr (EString (Owned s))) KOwned
| K_items x items : Items x items -> Kind x KItems
| K_object l : Kind (Expr (EObject l)) KMembers
| K_body b : Kind (Body b) KMembers
| K_block b : Kind (Group [b]) KMembers.
(** Which kinds a type takes at all *)
Definition takes (t : ty) (k : kind) : bool :=
  match t, k with
  | TUnit, KNull | TBool, KBool | TInt _, KInt => true
  | TF64, (KInt | KFloat) | TF32, (KInt | KFloat) => true
  | TChar, (KBorrowed | KOwned) | TString, (KBorrowed | KOwned) | TStr, KBorrowed => true
  | TBytes, (KBorrowed | KOwned | KItems) => true
  | TSeq _, KItems | TTuple _, KItems | TNewtype _, KItems => true
  | TMap _ _, KMembers => true
  | TStruct _, (KItems | KMembers) => true
  | TIgnored, _ | TAny, _ => true
  | _, _ => false
  end.
(** The type is asked to take the part itself: an option passes on what is not a body, a
    newtype any expression, and a list takes a single block as a list of one. *)
Definition direct (t : ty) (x : node) : bool :=
  match t, x with
  | TOption _, (Expr _ | Group _) => false
  | TNewtype _, Expr _ => false
  | TSeq _, Group [_] => false
  | _, _ => true
  end.

(** ** Lists and tuples *)
(** read item by item as one type *)
Inductive ListOf : ty -> ty -> Prop :=
| LO_seq t : ListOf (TSeq t) t
| LO_bytes : ListOf TBytes (TInt U8)
| LO_ignored : ListOf TIgnored TIgnored
| LO_any : ListOf TAny TAny.
(** read item by item as these types *)
Inductive Positions : ty -> node -> list ty -> Prop :=
| Pos_tuple ts l : length l = length ts -> Positions (TTuple ts) (Expr (ETuple l)) ts
| Pos_tuple_blocks ts bs : Positions (TTuple ts) (Group bs) ts
| Pos_struct fs x : Positions (TStruct fs) x (map snd fs).

(** ** Maps *)
(** What is handed out: a name ([None]: the key is not an identifier), a part ([None]:
    blocks with labels), and what happens if the name was there before. *)
Definition offer : Type := option str * option node * problem.
Definition oname (o : offer) : option str := fst (fst o).
Definition opart (o : offer) : option node := snd (fst o).
Inductive Offers (vo : body_t -> list str) : node -> list offer -> Prop :=
| Of_object l os :
    Forall2 (fun ke (o : offer) => match fst ke with
      | KIdent i => o = (Some (cow_str i), Some (Expr (snd ke)), Error (EObjectDuplicateKey (cow_str i)))
      | KExpr _ => o = (None, Some (Expr (snd ke)), Panic)
      end) l os -> Offers vo (Expr (EObject l)) os
| Of_body b groups :
    Forall2 (fun t (o : offer) => exists r part, o = (Some t, part, Panic) /\ LastRun t (block_list b) r /\
      (((forall c, In c r -> b_labels c = []) /\ part = Some (Group (map b_body r))) \/
       ((exists c, In c r /\ b_labels c <> []) /\ part = None))) (vo b) groups ->
    Offers vo (Body b) (map (fun a => (Some (fst a), Some (Expr (snd a)), Error (EBodyDuplicateKey (fst a)))) (attr_list b) ++ groups)
| Of_block b os : Offers vo (Body b) os -> Offers vo (Group [b]) os.

(** The targets that take members: the type of the keys, the type read for each name. *)
Inductive MapReads : ty -> kty -> (str -> ty) -> Prop :=
| MR_map k t : MapReads (TMap k t) k (fun _ => t)
| MR_struct fs : MapReads (TStruct fs) KTString (field_type fs)
| MR_ignored : MapReads TIgnored KTString (fun _ => TIgnored)
| MR_any : MapReads TAny KTString (fun _ => TAny).
Definition KeyFits (k : kty) (n : str) : Prop :=
  match k with KTString => True | KTChar => exists c, n = [c] | KTStr => False end.
Definition key_error (k : kty) : de_error := ECustom (match k with KTStr => CInvalidType | _ => CInvalidValue end).
(** Nothing is wrong up to here *)
Definition AllFine (k : kty) (reads : str -> ty) (os : list offer) : Prop :=
  NoDup (map oname os) /\
  Forall (fun o => exists n y d, oname o = Some n /\ opart o = Some y /\ KeyFits k n /\ Den (reads n) y d) os.

Section Fails.
Variable vo : body_t -> list str.
Inductive Fails : ty -> node -> problem -> Prop :=
(* an integer that no [i64] can hold *)
| F_number t n lt z : direct t (Expr (ENumber n)) = true ->
    NumLit n lt -> IntegerText lt z -> ~ InRange I64 z -> Fails t (Expr (ENumber n)) (Error EParseInt)
(* the wrong kind *)
| F_kind t x k : direct t x = true -> Kind x k -> takes t k = false -> Fails t x (Error (ECustom CInvalidType))
(* the wrong value *)
| F_int it n z : IntLit n z -> ~ InRange it z -> Fails (TInt it) (Expr (ENumber n)) (Error (ECustom CInvalidValue))
| F_char s : (forall c, cow_str s <> [c]) -> Fails TChar (Expr (EString s)) (Error (ECustom CInvalidValue))
(* options and newtypes *)
| F_some t e p : e <> ENull -> Fails t (Expr e) p -> Fails (TOption t) (Expr e) p
| F_some_blocks t b bs p : Fails t (Group (b :: bs)) p -> Fails (TOption t) (Group (b :: bs)) p
| F_newtype t e p : Fails t (Expr e) p -> Fails (TNewtype t) (Expr e) p
| F_newtype_blocks t b b' bs p : Fails t (Body b) p -> Fails (TNewtype t) (Group (b :: b' :: bs)) p
(* lists *)
| F_list t t' x l1 y l2 p : ListOf t t' -> Items x (l1 ++ y :: l2) ->
    Forall (fun z => exists d, Den t' z d) l1 -> Fails t' y p -> Fails t x p
| F_list_one t b p : Fails t (Body b) p -> Fails (TSeq t) (Group [b]) p
(* a fixed number of elements *)
| F_length ts l : length ts <> length l -> Fails (TTuple ts) (Expr (ETuple l)) (Error (ETupleLength (length ts) (length l)))
| F_position T x ts1 t ts2 l1 y l2 p : Positions T x (ts1 ++ t :: ts2) -> Items x (l1 ++ y :: l2) ->
    Forall2 (fun t' z => exists d, Den t' z d) ts1 l1 -> Fails t y p -> Fails T x p
| F_short T x ts1 t ts2 l : Positions T x (ts1 ++ t :: ts2) -> Items x l ->
    Forall2 (fun t' z => exists d, Den t' z d) ts1 l -> Fails T x (Error (ECustom CInvalidLength))
(* members: no identifier; a name that was there before; a key that does not fit; blocks
   with labels; a value *)
| F_no_name T k reads x os1 o os2 : MapReads T k reads -> Offers vo x (os1 ++ o :: os2) -> AllFine k reads os1 ->
    oname o = None -> Fails T x Panic
| F_again T k reads x os1 o os2 n : MapReads T k reads -> Offers vo x (os1 ++ o :: os2) -> AllFine k reads os1 ->
    oname o = Some n -> In (Some n) (map oname os1) -> Fails T x (snd o)
| F_key T k reads x os1 o os2 n : MapReads T k reads -> Offers vo x (os1 ++ o :: os2) -> AllFine k reads os1 ->
    oname o = Some n -> ~ In (Some n) (map oname os1) -> ~ KeyFits k n -> Fails T x (Error (key_error k))
| F_labels T k reads x os1 o os2 n : MapReads T k reads -> Offers vo x (os1 ++ o :: os2) -> AllFine k reads os1 ->
    oname o = Some n -> ~ In (Some n) (map oname os1) -> KeyFits k n -> opart o = None -> Fails T x Panic
| F_value T k reads x os1 o os2 n y p : MapReads T k reads -> Offers vo x (os1 ++ o :: os2) -> AllFine k reads os1 ->
    oname o = Some n -> ~ In (Some n) (map oname os1) -> KeyFits k n -> opart o = Some y -> Fails (reads n) y p -> Fails T x p
(* all members are fine, but a field is missing that is no option: the first such field *)
| F_missing fs1 f t fs2 x os : Offers vo x os -> AllFine KTString (field_type (fs1 ++ (f, t) :: fs2)) os ->
    ~ In (Some f) (map oname os) -> (forall t', t <> TOption t') ->
    (forall f' t', In (f', t') fs1 -> In (Some f') (map oname os) \/ exists t'', t' = TOption t'') ->
    Fails (TStruct (fs1 ++ (f, t) :: fs2)) x (Error (ECustom (CMissingField f))).
End Fails.
