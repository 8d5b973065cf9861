(** * AnySpec: SPECIFICATION for targets of any type: which documents can make a reading
    panic, and which documents no type can tell apart

    Targets ([target]) are those of AnyTarget.v; the parts of a document ([node]) those of
    DenSpec.v. *)
From Coq Require Import SpecFloat.
From Verif Require Import Base Ast Blocks NumConv NumSpec Grammar Serde SerdeSpec DenSpec FailSpec AnyTarget.
Open Scope nat_scope.

(** ** Targets that keep to the protocol of maps: a value is asked for only after its key
    was given, once.  serde says of others that they may panic. *)
CoInductive Polite {D} : target D -> Prop :=
| P_target m sc so nt sq mp : PoliteI so -> PoliteI nt -> PoliteS sq -> PoliteM false mp -> Polite (Target m sc so nt sq mp)
with PoliteI {D} : inner D -> Prop :=
| PI_ret o : PoliteI (IRet o)
| PI_ask c k : Polite c -> PoliteI (IAsk c k)
with PoliteS {D} : sclient D -> Prop :=
| PS_ret o : PoliteS (SRet o)
| PS_item c k : Polite c -> (forall a, PoliteS (k a)) -> PoliteS (SItem c k)
| PS_size k : (forall n, PoliteS (k n)) -> PoliteS (SSize k)
with PoliteM {D} : bool -> mclient D -> Prop :=   (* [true]: a key was given, its value not yet *)
| PM_ret w o : PoliteM w (MRet o)
| PM_key w k : (forall x, PoliteM true (k (GotKey x))) -> PoliteM false (k NoKey) -> (forall e, PoliteM false (k (DupKey e))) -> PoliteM w (MKey k)
| PM_val c k : Polite c -> (forall o, PoliteM false (k o)) -> PoliteM true (MVal c k)
| PM_size w k : (forall n, PoliteM w (k n)) -> PoliteM w (MSize k).

(** ** Where a reading can panic: a key that is no identifier, an attribute and a block of one
    name, labels - in a part that can be reached: of members of one name the first, of the
    blocks of one type the last run of consecutive ones *)
Inductive Hazard : node -> Prop :=
| H_key l k e : In (KExpr k, e) l -> Hazard (Expr (EObject l))
| H_member l1 k e l2 : (forall k' e', In (KIdent k', e') l1 -> cow_str k' <> cow_str k) ->
    Hazard (Expr e) -> Hazard (Expr (EObject (l1 ++ (KIdent k, e) :: l2)))
| H_item l e : In e l -> Hazard (Expr e) -> Hazard (Expr (ETuple l))
| H_attr b l1 n e l2 : attr_list b = l1 ++ (n, e) :: l2 -> ~ In n (map fst l1) -> Hazard (Expr e) -> Hazard (Body b)
| H_clash b c : In c (block_list b) -> In (cow_str (b_type c)) (map fst (attr_list b)) -> Hazard (Body b)
| H_labels b t r c : LastRun t (block_list b) r -> In c r -> b_labels c <> [] -> Hazard (Body b)
| H_block b t r c : LastRun t (block_list b) r -> In c r -> Hazard (Body (b_body c)) -> Hazard (Body b)
| H_group bs b : In b bs -> Hazard (Body b) -> Hazard (Group bs).

(** ** What looks alike: nulls, equal booleans, equal strings (if both or none are borrowed
    from the text, see C44), numbers of the same value, tuples and groups item by item, objects and bodies
    member by member; of a name that was there before only the name counts.  [vo]: the
    order in which the types of blocks are visited. *)
Section Alike.
Variable vo : body_t -> list str.
Inductive Alike : node -> node -> Prop :=
| A_null : Alike (Expr ENull) (Expr ENull)
| A_bool b : Alike (Expr (EBool b)) (Expr (EBool b))
| A_string s : Alike (Expr (EString s)) (Expr (EString s))
| A_int n n' z : IntLit n z -> IntLit n' z -> Alike (Expr (ENumber n)) (Expr (ENumber n'))
| A_float n n' f : FloatLit n f -> FloatLit n' f -> Alike (Expr (ENumber n)) (Expr (ENumber n'))
| A_large n n' t t' z z' : NumLit n t -> IntegerText t z -> ~ InRange I64 z ->
    NumLit n' t' -> IntegerText t' z' -> ~ InRange I64 z' -> Alike (Expr (ENumber n)) (Expr (ENumber n'))
| A_tuple l l' : Forall2 (fun e e' => Alike (Expr e) (Expr e')) l l' -> Alike (Expr (ETuple l)) (Expr (ETuple l'))
| A_object l l' os os' : Offers vo (Expr (EObject l)) os -> Offers vo (Expr (EObject l')) os' -> AlikeM [] os os' ->
    Alike (Expr (EObject l)) (Expr (EObject l'))
| A_body b b' os os' : Offers vo (Body b) os -> Offers vo (Body b') os' -> AlikeM [] os os' -> Alike (Body b) (Body b')
| A_group bs bs' : Forall2 (fun b b' => Alike (Body b) (Body b')) bs bs' -> Alike (Group bs) (Group bs')
(* the members, after those with the names [seen] *)
with AlikeM : list str -> list offer -> list offer -> Prop :=
| AM_nil seen : AlikeM seen [] []
| AM_first seen n y y' p p' os os' : ~ In n seen -> Alike y y' -> AlikeM (n :: seen) os os' ->
    AlikeM seen ((Some n, Some y, p) :: os) ((Some n, Some y', p') :: os')
| AM_again seen n y y' p os os' : In n seen -> AlikeM seen os os' ->
    AlikeM seen ((Some n, y, p) :: os) ((Some n, y', p) :: os').
End Alike.

(** ** Targets that come to an end.  [StepsT F c]: of one part [c] asks finitely many
    questions whatever the answers are - with [n] items or members still to come, none of
    which it is told twice - and hands only targets in [F] smaller parts; options and
    newtypes, which hand on the same part, are followed finitely often.  The targets handed
    smaller parts may go on like that for ever, as those of recursive types do. *)
Section Fair.
Context {D : Type}.
Variable F : target D -> Prop.
Inductive StepsS : nat -> sclient D -> Prop :=
| SS_ret n o : StepsS n (SRet o)
| SS_size n k : StepsS n (k n) -> StepsS n (SSize k)
| SS_end c k : StepsS 0 (k None) -> StepsS 0 (SItem c k)
| SS_item n c k : F c -> (forall o, StepsS n (k (Some o))) -> StepsS (S n) (SItem c k).
Inductive StepsM : nat -> mclient D -> Prop :=
| SM_ret n o : StepsM n (MRet o)
| SM_size n k : StepsM n (k n) -> StepsM n (MSize k)
| SM_end k : StepsM 0 (k NoKey) -> StepsM 0 (MKey k)
| SM_key n k : (forall x, StepsM n (k (GotKey x))) -> (forall e, StepsM n (k (DupKey e))) -> StepsM (S n) (MKey k)
| SM_val n c k : F c -> (forall o, StepsM n (k o)) -> StepsM n (MVal c k).
Inductive StepsT : target D -> Prop :=
| ST m sc so nt sq mp : StepsI so -> StepsI nt -> (forall n, StepsS n sq) -> (forall n, StepsM n mp) -> StepsT (Target m sc so nt sq mp)
with StepsI : inner D -> Prop :=
| SI_ret o : StepsI (IRet o)
| SI_ask c k : StepsT c -> StepsI (IAsk c k).
End Fair.
Definition Fair {D} (c : target D) : Prop := exists F : target D -> Prop, F c /\ forall c', F c' -> StepsT F c'.
