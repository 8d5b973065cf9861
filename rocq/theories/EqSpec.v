(** * EqSpec: SPECIFICATION side for equality of trees and values *)
From Coq Require Import SpecFloat Permutation.
From Verif Require Import Base Ast Blocks NumConv NumSpec Kvp Value.

(** A tree without its numbers, and without the distinction between borrowed and owned
    strings: names, order, labels (with their kind), strings, booleans, nesting. *)
Definition own (c : cow) : cow := Owned (cow_str c).
Definition no_number : expr := ENumber (mk_number (Owned []) true None None None).
Definition skel_key (k : okey) : okey := match k with KIdent i => KIdent (own i) | KExpr e => KExpr (own e) end.
Fixpoint skel_expr (e : expr) : expr :=
  match e with
  | ENull => ENull
  | ENumber _ => no_number
  | EBool b => EBool b
  | EString s => EString (own s)
  | ETuple l => ETuple (map skel_expr l)
  | EObject l => EObject (map (fun ke => (skel_key (fst ke), skel_expr (snd ke))) l)
  end.
Definition skel_label (l : label) : label := match l with LString s => LString s | LIdent i => LIdent (own i) end.
Fixpoint skel_elem (el : element) : element :=
  match el with
  | Attr n v => Attr (own n) (skel_expr v)
  | Blk t ls b => Blk (own t) (map skel_label ls) (map skel_elem b)
  end.
Definition skeleton (b : body_t) : body_t := map skel_elem b.

(** The numbers of a tree in source order. *)
Fixpoint numbers_expr (e : expr) : list number_t :=
  match e with
  | ENumber n => [n]
  | ETuple l => flat_map numbers_expr l
  | EObject l => flat_map (fun ke => numbers_expr (snd ke)) l
  | _ => []
  end.
Fixpoint numbers_elem (el : element) : list number_t :=
  match el with
  | Attr _ v => numbers_expr v
  | Blk _ _ b => flat_map numbers_elem b
  end.
Definition numbers (b : body_t) : list number_t := flat_map numbers_elem b.

(** Integer literals that the comparison can read: without a minus sign up to
    [u128::MAX], with one down to [i128::MIN].  (Literals with a fraction or an exponent
    are always fine.) *)
Definition Readable (t : str) : Prop := forall z, IntegerText t z ->
  (NoMinus t /\ InRange U128 z) \/ (~ NoMinus t /\ InRange I128 z).

(** No float in the value is a NaN (no document contains one). *)
Inductive NoNaN : value -> Prop :=
| NN_null : NoNaN VNull
| NN_int i : NoNaN (VInteger i)
| NN_float f : f <> S754_nan -> NoNaN (VFloat f)
| NN_bool b : NoNaN (VBoolean b)
| NN_string s : NoNaN (VString s)
| NN_list l : Forall NoNaN l -> NoNaN (VList l)
| NN_object l : Forall NoNaNMap l -> NoNaN (VObject l)
| NN_block b : Forall (fun kv => NoNaNMap (snd kv)) (entries b) -> NoNaN (VBlock b)
with NoNaNMap : mapvalues -> Prop :=
| NN_map p : Forall (fun kv => NoNaN (snd kv)) (entries p) -> NoNaNMap p.

(** ** Equality of values, declaratively: vectors in order, tables by their entries in
    any order, numbers and texts by value (floats as IEEE 754 compares them: NaN differs
    from itself, the two zeros are equal).  A table never equals a vector. *)
Inductive vsame : value -> value -> Prop :=
| VS_null : vsame VNull VNull
| VS_int i : vsame (VInteger i) (VInteger i)
| VS_float f g : SFeqb f g = true -> vsame (VFloat f) (VFloat g)
| VS_bool b : vsame (VBoolean b) (VBoolean b)
| VS_string s : vsame (VString s) (VString s)
| VS_list l l' : Forall2 vsame l l' -> vsame (VList l) (VList l')
| VS_object l l' : Forall2 msame l l' -> vsame (VObject l) (VObject l')
| VS_block_u l l' : Forall2 (fun a b => fst a = fst b /\ msame (snd a) (snd b)) l l' -> vsame (VBlock (Unmerged l)) (VBlock (Unmerged l'))
| VS_block_m l l1 l' : Permutation l' l1 -> Forall2 (fun a b => fst a = fst b /\ msame (snd a) (snd b)) l l1 -> vsame (VBlock (Merged l)) (VBlock (Merged l'))
with msame : mapvalues -> mapvalues -> Prop :=
| MS_u l l' : Forall2 (fun a b => fst a = fst b /\ vsame (snd a) (snd b)) l l' -> msame (Unmerged l) (Unmerged l')
| MS_m l l1 l' : Permutation l' l1 -> Forall2 (fun a b => fst a = fst b /\ vsame (snd a) (snd b)) l l1 -> msame (Merged l) (Merged l').

(** ** Equality of block indexes, declaratively: the same lists of bodies, in order, under
    the same types and labels; tables in any order. *)
Inductive bsame : bbody -> bbody -> Prop :=
| BS_body l l' : Forall2 (fun a b => skeleton a = skeleton b /\ Forall2 (fun n m => number_eq n m = true) (numbers a) (numbers b)) l l' ->
    bsame (BBody l) (BBody l')
| BS_labels e e' m m1 m' :
    Forall2 (fun a b => skeleton a = skeleton b /\ Forall2 (fun n m => number_eq n m = true) (numbers a) (numbers b)) e e' ->
    Permutation m' m1 -> Forall2 (fun a b => skel_label (fst a) = skel_label (fst b) /\ bsame (snd a) (snd b)) m m1 ->
    bsame (BLabels e m) (BLabels e' m').
Inductive blocks_same : blocks_t -> blocks_t -> Prop :=
| BSS m m1 m' : Permutation m' m1 -> Forall2 (fun a b => cow_str (fst a) = cow_str (fst b) /\ bsame (snd a) (snd b)) m m1 -> blocks_same m m'.
(** Tables have distinct keys (as [HashMap]s have). *)
Inductive DistinctKeys : bbody -> Prop :=
| DK_body l : DistinctKeys (BBody l)
| DK_labels e m : NoDup (map (fun kv => skel_label (fst kv)) m) -> Forall (fun kv => DistinctKeys (snd kv)) m -> DistinctKeys (BLabels e m).
Definition DistinctBlocks (m : blocks_t) : Prop :=
  NoDup (map (fun kv => cow_str (fst kv)) m) /\ Forall (fun kv => DistinctKeys (snd kv)) m.
(** All bodies in an index. *)
Definition all_bodies (b : bbody) : list body_t := map snd (flat_iter b).
