(** * Kvp: KeyValuePairs, OneOrMany and their iterators
    (lib/src/lib.rs, lib/src/iter.rs)

    A [HashMap] is the list of its entries, in the order in which it currently
    iterates.  That order is unspecified: an operation that changes the table may
    leave it in any order (results of such operations are relations), and a lookup
    may probe in any order ([hm_get] is a relation). *)
From Coq Require Import Permutation.
From Verif Require Import Base.

(** lib.rs:71-78 [OneOrMany] *)
Inductive one_or_many (T : Type) := One (x : T) | Many (l : list T).
Arguments One {T} x.
Arguments Many {T} l.

(** lib.rs:99-104 [len] *)
Definition oom_len {T} (o : one_or_many T) : nat :=
  match o with One _ => 1%nat | Many l => length l end.
(** lib.rs:106-108 *)
Definition oom_is_empty {T} (o : one_or_many T) : bool := Nat.eqb (oom_len o) 0.
(** lib.rs:110-120 *)
Definition oom_is_one {T} (o : one_or_many T) : bool := match o with One _ => true | Many _ => false end.
Definition oom_is_many {T} (o : one_or_many T) : bool := negb (oom_is_one o).
(** lib.rs:129-135; [None] is the panic *)
Definition oom_unwrap_one {T} (o : one_or_many T) : option T := match o with One x => Some x | Many _ => None end.
(** lib.rs:137-143; [None] is the panic *)
Definition oom_unwrap_many {T} (o : one_or_many T) : option (list T) := match o with Many l => Some l | One _ => None end.

(** ** Iterators: what is still to come.  iter.rs:10-13, 44-47 [OneOrManyIterator],
    [OneOrManyIntoIterator]: [std::iter::Once] is an optional item, a slice or vector
    iterator the rest of the list. *)
Inductive oom_iter (T : Type) := IOne (o : option T) | IMany (l : list T).
Arguments IOne {T} o.
Arguments IMany {T} l.
(** lib.rs:122-127, iter.rs:15-22 [iter], [(&self).into_iter] and iter.rs:49-59 [into_iter] *)
Definition oom_into_iter {T} (o : one_or_many T) : oom_iter T :=
  match o with One x => IOne (Some x) | Many l => IMany l end.
(** iter.rs:27-32 and 64-69 [next] *)
Definition oom_next {T} (i : oom_iter T) : option T * oom_iter T :=
  match i with
  | IOne o => (o, IOne None)
  | IMany [] => (None, IMany [])
  | IMany (x :: l) => (Some x, IMany l)
  end.
(** iter.rs:34-39 and 71-76 [size_hint] *)
Definition oom_size_hint {T} (i : oom_iter T) : nat * option nat :=
  match i with
  | IOne (Some _) => (1%nat, Some 1%nat)
  | IOne None => (O, Some O)
  | IMany l => (length l, Some (length l))
  end.

(** ** lib.rs:146-156 [KeyValuePairs] *)
Inductive kvp (K V : Type) := Merged (m : list (K * V)) | Unmerged (l : list (K * V)).
Arguments Merged {K V} m.
Arguments Unmerged {K V} l.

(** The entries in iteration order. *)
Definition entries {K V} (p : kvp K V) : list (K * V) := match p with Merged m => m | Unmerged l => l end.

(** lib.rs:162-171 *)
Definition kvp_len {K V} (p : kvp K V) : nat :=
  match p with Merged m => length m | Unmerged l => length l end.
Definition kvp_is_empty {K V} (p : kvp K V) : bool := Nat.eqb (kvp_len p) 0.
(** lib.rs:173-185; [None] is the panic *)
Definition unwrap_merged {K V} (p : kvp K V) : option (list (K * V)) := match p with Merged m => Some m | Unmerged _ => None end.
Definition unwrap_unmerged {K V} (p : kvp K V) : option (list (K * V)) := match p with Merged _ => None | Unmerged l => Some l end.

(** Iterators over tables and vectors: which of the two, and the rest.
    iter.rs:140-143, 168-171, 196-202, 222-226 *)
Inductive kv_iter (T : Type) := KMerged (l : list T) | KUnmerged (l : list T).
Arguments KMerged {T} l.
Arguments KUnmerged {T} l.
(** lib.rs:187-192, iter.rs:96-106 [iter]; iter.rs:108-123 [into_iter] *)
Definition kvp_iter {K V} (p : kvp K V) : kv_iter (K * V) :=
  match p with Merged m => KMerged m | Unmerged l => KUnmerged l end.
(** lib.rs:194-201 [keys] *)
Definition kvp_keys {K V} (p : kvp K V) : kv_iter K :=
  match p with Merged m => KMerged (map fst m) | Unmerged l => KUnmerged (map fst l) end.
(** lib.rs:203-210 [values] *)
Definition kvp_values {K V} (p : kvp K V) : kv_iter V :=
  match p with Merged m => KMerged (map snd m) | Unmerged l => KUnmerged (map snd l) end.
(** iter.rs:148-156, 176-184, 207-212, 231-236 [next] *)
Definition kv_next {T} (i : kv_iter T) : option T * kv_iter T :=
  match i with
  | KMerged [] => (None, KMerged [])
  | KMerged (x :: l) => (Some x, KMerged l)
  | KUnmerged [] => (None, KUnmerged [])
  | KUnmerged (x :: l) => (Some x, KUnmerged l)
  end.
(** iter.rs:158-163, 186-191, 214-219, 238-243 [size_hint] *)
Definition kv_size_hint {T} (i : kv_iter T) : nat * option nat :=
  match i with KMerged l => (length l, Some (length l)) | KUnmerged l => (length l, Some (length l)) end.

(** ** Lookup.  [Q] is the borrowed form of the key ([K: Borrow<Q>]). *)
Section Lookup.
  Context {K V Q : Type} (borrow : K -> Q) (q_eqb : Q -> Q -> bool).
  (** [HashMap::get]: an entry whose key borrows as [q], if there is one.  (The
      standard library asks for [Borrow] to agree with [Eq] and [Hash]; where it does
      not and several entries match, any of them may be found.) *)
  Definition hm_get (m : list (K * V)) (q : Q) (r : option V) : Prop :=
    match r with
    | Some v => exists k, In (k, v) m /\ q_eqb q (borrow k) = true
    | None => forall k v, In (k, v) m -> q_eqb q (borrow k) = false
    end.
  (** lib.rs:212-228 [get_single] *)
  Definition get_single (p : kvp K V) (q : Q) (r : option V) : Prop :=
    match p with
    | Merged m => hm_get m q r
    | Unmerged l => r = option_map snd (find (fun kv => q_eqb q (borrow (fst kv))) l)
    end.
  (** lib.rs:230-251 [get] *)
  Definition get (p : kvp K V) (q : Q) (r : option (one_or_many V)) : Prop :=
    match p with
    | Merged m => exists o, hm_get m q o /\ r = option_map One o
    | Unmerged l =>
        let values := map snd (filter (fun kv => q_eqb q (borrow (fst kv))) l) in
        r = match values with [] => None | _ => Some (Many values) end
    end.
  (** iter.rs:125-138 [Index]: the outer [None] is the panic *)
  Definition index (p : kvp K V) (q : Q) (r : option V) : Prop := get_single p q r.
End Lookup.

(** ** Insertion *)
Section Insert.
  Context {K V : Type} (k_eqb : K -> K -> bool).
  (** [HashMap::insert]: an existing key keeps its entry and gets the new value *)
  Fixpoint hm_put (k : K) (v : V) (m : list (K * V)) : list (K * V) :=
    match m with
    | [] => [(k, v)]
    | (k', v') :: m' => if k_eqb k' k then (k', v) :: m' else (k', v') :: hm_put k v m'
    end.
  (** [HashMap::extend] and [collect]: insertions one after the other, the table
      being rearranged at will *)
  Inductive hm_extend : list (K * V) -> list (K * V) -> list (K * V) -> Prop :=
  | HX_nil m m' : Permutation m m' -> hm_extend m [] m'
  | HX_cons m k v m1 l m' : Permutation (hm_put k v m) m1 -> hm_extend m1 l m' -> hm_extend m ((k, v) :: l) m'.
  (** iter.rs:81-94 [Extend] *)
  Definition kvp_extend (p : kvp K V) (l : list (K * V)) (r : kvp K V) : Prop :=
    match p with
    | Unmerged l0 => r = Unmerged (l0 ++ l)
    | Merged m => exists m', hm_extend m l m' /\ r = Merged m'
    end.
End Insert.
