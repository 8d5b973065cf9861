(** * VEditSpec: SPECIFICATION of places in what [value::from_str] returns

    A value with a hole; the hole is in a list, in an object or in a block, at any depth.  Nothing here
    refers to the parser. *)
From Coq Require Import ZArith.
From Verif Require Import Base Ast NumConv Kvp Value CommonSpec.
Close Scope Z_scope.

Inductive vctx :=
| VHole
| VInList (l1 : list value) (c : vctx) (l2 : list value)
| VInObject (l1 : list (key * value)) (k : key) (c : vctx) (l2 : list (key * value))
| VInBlock (ls : list str) (l1 : list (key * value)) (k : key) (c : vctx) (l2 : list (key * value)).
Fixpoint vplug (c : vctx) (v : value) : value :=
  match c with
  | VHole => v
  | VInList l1 c l2 => VList (l1 ++ vplug c v :: l2)
  | VInObject l1 k c l2 => VObject [Unmerged (l1 ++ (k, vplug c v) :: l2)]
  | VInBlock ls l1 k c l2 => VBlock (Unmerged [(ls, Unmerged (l1 ++ (k, vplug c v) :: l2))])
  end.
(** Objects and blocks can be written without "=" before them. *)
Definition BlockLike (v : value) : Prop := match v with VObject _ | VBlock _ => True | _ => False end.
