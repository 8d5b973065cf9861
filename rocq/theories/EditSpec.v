(** * EditSpec: SPECIFICATION of places in a document

    A place in an expression is an expression with a hole; a place for a body is a document with a hole
    in place of the body of one of its blocks (or of all of it).  [plug] and
    [bplug] fill the hole.  Nothing here refers to the parser. *)
From Verif Require Import Base Ast.

Inductive ectx :=
| Hole
| InTuple (l1 : list expr) (c : ectx) (l2 : list expr)
| InObject (l1 : list (okey * expr)) (k : okey) (c : ectx) (l2 : list (okey * expr)).
Fixpoint plug (c : ectx) (e : expr) : expr :=
  match c with
  | Hole => e
  | InTuple l1 c l2 => ETuple (l1 ++ plug c e :: l2)
  | InObject l1 k c l2 => EObject (l1 ++ (k, plug c e) :: l2)
  end.

Inductive bctx :=
| Top
| Within (b1 : body_t) (t : cow) (ls : list label) (c : bctx) (b2 : body_t).
Fixpoint bplug (c : bctx) (b : body_t) : body_t :=
  match c with
  | Top => b
  | Within b1 t ls c b2 => b1 ++ Blk t ls (bplug c b) :: b2
  end.

Definition is_attr (el : element) : bool := match el with Attr _ _ => true | Blk _ _ _ => false end.
