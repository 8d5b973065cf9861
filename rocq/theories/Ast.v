(** * Ast: the data types of the crate's syntax tree *)
From Verif Require Import Base.

(** lib/src/parser/number.rs:205-211 [Exponent] *)
Record exponent_t := mk_exponent {
  exp_positive : bool;
  exp_digits : cow
}.

(** lib/src/parser/number.rs:13-25 [Number], 28-42 [Number::new] *)
Record number_t := mk_number {
  num_input : cow;
  num_positive : bool;
  num_whole : option cow;
  num_fraction : option cow;
  num_exponent : option exponent_t
}.

(** lib/src/parser/object.rs:22-38 [ObjectElementIdentifier] *)
Inductive okey :=
| KIdent (i : cow)
| KExpr (e : cow).

(** lib/src/parser/expression.rs:51-65 [Expression]; [Tuple] is
    [Vec<Expression>] (tuple.rs:17), [Object] is
    [Vec<(ObjectElementIdentifier, Expression)>] (object.rs:95-97). *)
Inductive expr :=
| ENull
| ENumber (n : number_t)
| EBool (b : bool)
| EString (s : cow)
| ETuple (l : list expr)
| EObject (l : list (okey * expr)).

(** lib/src/parser/block.rs:60-64 [BlockLabel] ([StringLiteral] is [String],
    string.rs:21) *)
Inductive label :=
| LString (s : str)
| LIdent (i : cow).

(** lib/src/parser/block.rs:25-31 [Block] (with its [type], [labels], [body])
    and body.rs:20-31 [Body] = [Vec<BodyElement>]. *)
Inductive element :=
| Attr (name : cow) (value : expr)
| Blk (type : cow) (labels : list label) (body : list element).

Definition body_t := list element.

(** Induction principles going through the nested lists. *)
Section ExprInd.
  Variable P : expr -> Prop.
  Hypothesis Hnull : P ENull.
  Hypothesis Hnum : forall n, P (ENumber n).
  Hypothesis Hbool : forall b, P (EBool b).
  Hypothesis Hstr : forall s, P (EString s).
  Hypothesis Htup : forall l, Forall P l -> P (ETuple l).
  Hypothesis Hobj : forall l, Forall (fun ke => P (snd ke)) l -> P (EObject l).
  Fixpoint expr_ind' (e : expr) : P e :=
    match e with
    | ENull => Hnull
    | ENumber n => Hnum n
    | EBool b => Hbool b
    | EString s => Hstr s
    | ETuple l =>
        Htup l ((fix go (l : list expr) : Forall P l :=
          match l with
          | [] => Forall_nil _
          | x :: l' => Forall_cons x (expr_ind' x) (go l')
          end) l)
    | EObject l =>
        Hobj l ((fix go (l : list (okey * expr)) : Forall (fun ke => P (snd ke)) l :=
          match l with
          | [] => Forall_nil _
          | x :: l' => Forall_cons x (expr_ind' (snd x)) (go l')
          end) l)
    end.
End ExprInd.

Section ElementInd.
  Variable P : element -> Prop.
  Hypothesis Hattr : forall n v, P (Attr n v).
  Hypothesis Hblk : forall t ls b, Forall P b -> P (Blk t ls b).
  Fixpoint element_ind' (e : element) : P e :=
    match e with
    | Attr n v => Hattr n v
    | Blk t ls b =>
        Hblk t ls b ((fix go (l : list element) : Forall P l :=
          match l with
          | [] => Forall_nil _
          | x :: l' => Forall_cons x (element_ind' x) (go l')
          end) b)
    end.
End ElementInd.
