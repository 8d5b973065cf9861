(** * IoSpec: SPECIFICATION of UTF-8, readers and trees up to ownership *)
From Verif Require Import Base Ast Utf8.

(** The UTF-8 encoding of a Unicode scalar value (RFC 3629, section 3). *)
Definition utf8_char (c : char) : list N :=
  if c <? 128 then [c]
  else if c <? 2048 then [192 + c / 64; 128 + c mod 64]
  else if c <? 65536 then [224 + c / 4096; 128 + (c / 64) mod 64; 128 + c mod 64]
  else [240 + c / 262144; 128 + (c / 4096) mod 64; 128 + (c / 64) mod 64; 128 + c mod 64].
Definition utf8 (s : str) : list N := flat_map utf8_char s.

(** A Rust [str]: its characters are Unicode scalar values. *)
Definition IsStr (s : str) : Prop := Forall (fun c => valid_char c = true) s.

(** What a reader delivers until the end of its stream, and failing readers. *)
Inductive Delivers : list read_event -> list N -> Prop :=
| D_end : Delivers [] []
| D_zero r : Delivers (Chunk [] :: r) []
| D_chunk bs r b : bs <> [] -> Delivers r b -> Delivers (Chunk bs :: r) (bs ++ b)
| D_intr r b : Delivers r b -> Delivers (Interrupted :: r) b.
Inductive FailsRead : list read_event -> Prop :=
| FR_error r : FailsRead (ReadError :: r)
| FR_chunk bs r : bs <> [] -> FailsRead r -> FailsRead (Chunk bs :: r)
| FR_intr r : FailsRead r -> FailsRead (Interrupted :: r).

(** ** Equality of trees up to who owns the strings *)
Definition SameCow (a b : cow) : Prop := cow_str a = cow_str b.
Inductive SameOpt {A} (R : A -> A -> Prop) : option A -> option A -> Prop :=
| SO_none : SameOpt R None None
| SO_some a b : R a b -> SameOpt R (Some a) (Some b).
Inductive SameExp : exponent_t -> exponent_t -> Prop :=
| SX p d d' : SameCow d d' -> SameExp (mk_exponent p d) (mk_exponent p d').
Inductive SameNumber : number_t -> number_t -> Prop :=
| SN i i' p w w' f f' e e' : SameCow i i' -> SameOpt SameCow w w' -> SameOpt SameCow f f' ->
    SameOpt SameExp e e' -> SameNumber (mk_number i p w f e) (mk_number i' p w' f' e').
Inductive SameKey : okey -> okey -> Prop :=
| SK_ident i i' : SameCow i i' -> SameKey (KIdent i) (KIdent i')
| SK_expr i i' : SameCow i i' -> SameKey (KExpr i) (KExpr i').
Inductive SameExpr : expr -> expr -> Prop :=
| SE_null : SameExpr ENull ENull
| SE_number n n' : SameNumber n n' -> SameExpr (ENumber n) (ENumber n')
| SE_bool b : SameExpr (EBool b) (EBool b)
| SE_string s s' : SameCow s s' -> SameExpr (EString s) (EString s')
| SE_tuple l l' : Forall2 SameExpr l l' -> SameExpr (ETuple l) (ETuple l')
| SE_object l l' :
    Forall2 (fun a b => SameKey (fst a) (fst b) /\ SameExpr (snd a) (snd b)) l l' ->
    SameExpr (EObject l) (EObject l').
Inductive SameLabel : label -> label -> Prop :=
| SL_string s : SameLabel (LString s) (LString s)
| SL_ident i i' : SameCow i i' -> SameLabel (LIdent i) (LIdent i').
Inductive SameElem : element -> element -> Prop :=
| SEl_attr n n' v v' : SameCow n n' -> SameExpr v v' -> SameElem (Attr n v) (Attr n' v')
| SEl_blk t t' ls ls' b b' : SameCow t t' -> Forall2 SameLabel ls ls' -> Forall2 SameElem b b' ->
    SameElem (Blk t ls b) (Blk t' ls' b').
Definition SameBody : body_t -> body_t -> Prop := Forall2 SameElem.

(** ** No string is borrowed from the input *)
Definition OwnedCow (c : cow) : Prop := exists s, c = Owned s.
Definition OwnedOpt {A} (P : A -> Prop) (o : option A) : Prop := forall a, o = Some a -> P a.
Definition OwnedNumber (n : number_t) : Prop :=
  OwnedCow (num_input n) /\ OwnedOpt OwnedCow (num_whole n) /\ OwnedOpt OwnedCow (num_fraction n) /\
  OwnedOpt (fun e => OwnedCow (exp_digits e)) (num_exponent n).
Definition OwnedKey (k : okey) : Prop :=
  match k with KIdent i => OwnedCow i | KExpr i => OwnedCow i end.
Inductive OwnedExpr : expr -> Prop :=
| OE_null : OwnedExpr ENull
| OE_number n : OwnedNumber n -> OwnedExpr (ENumber n)
| OE_bool b : OwnedExpr (EBool b)
| OE_string s : OwnedCow s -> OwnedExpr (EString s)
| OE_tuple l : Forall OwnedExpr l -> OwnedExpr (ETuple l)
| OE_object l : Forall (fun kv => OwnedKey (fst kv) /\ OwnedExpr (snd kv)) l -> OwnedExpr (EObject l).
Definition OwnedLabel (l : label) : Prop :=
  match l with LString _ => True | LIdent i => OwnedCow i end.
Inductive OwnedElem : element -> Prop :=
| OEl_attr n v : OwnedCow n -> OwnedExpr v -> OwnedElem (Attr n v)
| OEl_blk t ls b : OwnedCow t -> Forall OwnedLabel ls -> Forall OwnedElem b -> OwnedElem (Blk t ls b).
Definition OwnedBody : body_t -> Prop := Forall OwnedElem.
