(** * Equality: the [PartialEq] implementations of trees, block indexes and values

    All of them are derived, except that of [Number] (number.rs:158-202, [number_eq] in
    NumConv.v).  [Cow] compares contents, [Vec] lengths and elements in order,
    [HashMap] (external: std) lengths, and for every entry of the left table whether
    the right table has an equal value under that key. *)
From Coq Require Import SpecFloat.
From Verif Require Import Base Ast Blocks NumConv Kvp Value.

(** [PartialEq for Vec<T>] (external: std) *)
Definition list_eqb {A} (f : A -> A -> bool) : list A -> list A -> bool :=
  fix list_eqb (l l' : list A) : bool :=
  match l, l' with
  | [], [] => true
  | x :: l1, y :: l2 => f x y && list_eqb l1 l2
  | _, _ => false
  end.
(** [PartialEq for HashMap<K, V>] (external: std) *)
Definition hm_eqb {K V} (k_eqb : K -> K -> bool) (f : V -> V -> bool) (m m' : list (K * V)) : bool :=
  Nat.eqb (length m) (length m') &&
  forallb (fun kv =>
    match find (fun kv' => k_eqb (fst kv') (fst kv)) m' with
    | Some kv' => f (snd kv) (snd kv')
    | None => false
    end) m.

(** object.rs:23 derived [PartialEq for ObjectElementIdentifier] *)
Definition okey_eqb (a b : okey) : bool :=
  match a, b with
  | KIdent x, KIdent y => cow_eqb x y
  | KExpr x, KExpr y => cow_eqb x y
  | _, _ => false
  end.
(** expression.rs:51 derived [PartialEq for Expression] *)
Fixpoint expr_eqb (a b : expr) {struct a} : bool :=
  match a, b with
  | ENull, ENull => true
  | ENumber n, ENumber m => number_eq n m
  | EBool x, EBool y => Bool.eqb x y
  | EString s, EString t => cow_eqb s t
  | ETuple l, ETuple l' => list_eqb expr_eqb l l'
  | EObject l, EObject l' =>
      list_eqb (fun ke ke' => okey_eqb (fst ke) (fst ke') && expr_eqb (snd ke) (snd ke')) l l'
  | _, _ => false
  end.
(** body.rs:27 derived [PartialEq for BodyElement], attribute.rs:24 (a pair), block.rs:26
    derived [PartialEq for Block] *)
Fixpoint element_eqb (a b : element) {struct a} : bool :=
  match a, b with
  | Attr n v, Attr n' v' => cow_eqb n n' && expr_eqb v v'
  | Blk t ls bd, Blk t' ls' bd' => cow_eqb t t' && (list_eqb label_eqb ls ls' && list_eqb element_eqb bd bd')
  | _, _ => false
  end.
(** body.rs:20 [Body] is a [Vec] *)
Definition body_eqb : body_t -> body_t -> bool := list_eqb element_eqb.

(** block.rs:395 derived [PartialEq for BlockBody] *)
Fixpoint bbody_eqb (a b : bbody) {struct a} : bool :=
  match a, b with
  | BBody l, BBody l' => list_eqb body_eqb l l'
  | BLabels e m, BLabels e' m' => list_eqb body_eqb e e' && hm_eqb label_eqb bbody_eqb m m'
  | _, _ => false
  end.
(** block.rs:187 derived [PartialEq for Blocks] *)
Definition blocks_eqb : blocks_t -> blocks_t -> bool := hm_eqb cow_eqb bbody_eqb.

(** lib.rs:149 derived [PartialEq for KeyValuePairs] *)
Definition kvp_eqb {K V} (k_eqb : K -> K -> bool) (f : V -> V -> bool) (p q : kvp K V) : bool :=
  match p, q with
  | Merged m, Merged m' => hm_eqb k_eqb f m m'
  | Unmerged l, Unmerged l' => list_eqb (fun a b => k_eqb (fst a) (fst b) && f (snd a) (snd b)) l l'
  | _, _ => false
  end.
(** value.rs:12 derived [PartialEq for Value]; floats compare as in IEEE 754 *)
Fixpoint value_eqb (a b : value) {struct a} : bool :=
  match a, b with
  | VNull, VNull => true
  | VInteger i, VInteger j => Z.eqb i j
  | VFloat x, VFloat y => SFeqb x y
  | VBoolean x, VBoolean y => Bool.eqb x y
  | VString s, VString t => str_eqb s t
  | VList l, VList l' => list_eqb value_eqb l l'
  | VObject l, VObject l' => list_eqb (kvp_eqb key_eqb value_eqb) l l'
  | VBlock p, VBlock q => kvp_eqb labels_eqb (kvp_eqb key_eqb value_eqb) p q
  | _, _ => false
  end.
Definition mapvalues_eqb : mapvalues -> mapvalues -> bool := kvp_eqb key_eqb value_eqb.
