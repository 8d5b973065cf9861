(** * Value: the document values of lib/src/value.rs and merging

    Results of operations that build or change a [HashMap] are relations, because
    the table's order is unspecified (see Kvp.v). *)
From Coq Require Import Permutation ZArith SpecFloat.
From Verif Require Import Base Kvp.

(** lib/src/parser/literals/key.rs:11-16 [Key].  Simplification: whether the text is
    borrowed or owned is not recorded (the equality, hash and dereference of [Cow] do
    not see it), so [as_owned] (key.rs:42-60) is the identity here. *)
Inductive key := KeyIdent (s : str) | KeyString (s : str).
(** key.rs:35-40 [unwrap], 62-71 [Deref], 85-89 [Borrow<str>] *)
Definition key_str (k : key) : str := match k with KeyIdent s => s | KeyString s => s end.
(** key.rs:12 derived [PartialEq] *)
Definition key_eqb (a b : key) : bool :=
  match a, b with
  | KeyIdent x, KeyIdent y => str_eqb x y
  | KeyString x, KeyString y => str_eqb x y
  | _, _ => false
  end.
(** key.rs:91-95 [Hash]: what is fed to the hasher *)
Definition key_hash_input (k : key) : str := key_str k.
(** key.rs:42-60 [as_owned] *)
Definition key_as_owned (k : key) : key :=
  match k with KeyIdent s => KeyIdent s | KeyString s => KeyString s end.
(** key.rs:73-83 [From<&str>] and [From<String>] *)
Definition key_from_str (s : str) : key := KeyIdent s.

(** [Vec<String>] equality *)
Fixpoint labels_eqb (a b : list str) : bool :=
  match a, b with
  | [], [] => true
  | x :: a', y :: b' => str_eqb x y && labels_eqb a' b'
  | _, _ => false
  end.

(** value.rs:12-38 [Value] and its type aliases [MapValues], [Block] *)
Inductive value :=
| VNull
| VInteger (i : Z)
| VFloat (f : spec_float)
| VBoolean (b : bool)
| VString (s : str)
| VList (l : list value)
| VObject (l : list (kvp key value))
| VBlock (b : kvp (list str) (kvp key value)).
Notation mapvalues := (kvp key value).
Notation blockvalues := (kvp (list str) (kvp key value)).

Section ValueInd.
  Variable P : value -> Prop.
  Variable Q : mapvalues -> Prop.
  Hypothesis Hnull : P VNull.
  Hypothesis Hint : forall i, P (VInteger i).
  Hypothesis Hfloat : forall f, P (VFloat f).
  Hypothesis Hbool : forall b, P (VBoolean b).
  Hypothesis Hstring : forall s, P (VString s).
  Hypothesis Hlist : forall l, Forall P l -> P (VList l).
  Hypothesis Hobject : forall l, Forall Q l -> P (VObject l).
  Hypothesis Hblock : forall b, Forall (fun kv => Q (snd kv)) (entries b) -> P (VBlock b).
  Hypothesis Hmap : forall p, Forall (fun kv => P (snd kv)) (entries p) -> Q p.
  Fixpoint value_ind' (v : value) : P v :=
    let go_pairs := fix go (l : list (key * value)) : Forall (fun kv => P (snd kv)) l :=
      match l with [] => Forall_nil _ | x :: l' => Forall_cons x (value_ind' (snd x)) (go l') end in
    let map_ind (p : mapvalues) : Q p :=
      Hmap p match p return Forall (fun kv => P (snd kv)) (entries p) with Merged m => go_pairs m | Unmerged l => go_pairs l end in
    match v with
    | VNull => Hnull
    | VInteger i => Hint i
    | VFloat f => Hfloat f
    | VBoolean b => Hbool b
    | VString s => Hstring s
    | VList l => Hlist l ((fix go (l : list value) : Forall P l :=
        match l with [] => Forall_nil _ | x :: l' => Forall_cons x (value_ind' x) (go l') end) l)
    | VObject l => Hobject l ((fix go (l : list mapvalues) : Forall Q l :=
        match l with [] => Forall_nil _ | x :: l' => Forall_cons x (map_ind x) (go l') end) l)
    | VBlock b => Hblock b
        (let go := fix go (l : list (list str * mapvalues)) : Forall (fun kv => Q (snd kv)) l :=
           match l with [] => Forall_nil _ | x :: l' => Forall_cons x (map_ind (snd x)) (go l') end in
         match b return Forall (fun kv => Q (snd kv)) (entries b) with Merged m => go m | Unmerged l => go l end)
    end.
  Lemma value_map_ind : (forall v, P v) /\ (forall p, Q p).
  Proof.
    split; [exact value_ind'|]. intros p. apply Hmap. apply Forall_forall. intros kv _. apply value_ind'.
  Qed.
End ValueInd.

(** constants.rs:1-10, value.rs:79-90 [variant_name] *)
Inductive variant := NNull | NInteger | NFloat | NBoolean | NString | NList | NObject | NBlock.
Definition variant_name (v : value) : variant :=
  match v with
  | VNull => NNull | VInteger _ => NInteger | VFloat _ => NFloat | VBoolean _ => NBoolean
  | VString _ => NString | VList _ => NList | VObject _ => NObject | VBlock _ => NBlock
  end.
(** value.rs:92-101 *)
Definition is_scalar (v : value) : bool :=
  match v with VInteger _ | VFloat _ | VBoolean _ | VString _ => true | _ => false end.
Definition is_aggregate (v : value) : bool := negb (is_scalar v).

(** value.rs:103-115 [len]; [None] is the panic *)
Definition v_len (v : value) : option nat :=
  if is_scalar v then Some 1%nat
  else match v with
       | VList l => Some (length l)
       | VObject l => Some (length l)
       | VBlock b => Some (kvp_len b)
       | _ => None
       end.
(** value.rs:118-120 *)
Definition v_is_empty (v : value) : option bool := option_map (fun n => Nat.eqb n 0) (v_len v).

(** Folding a sum, or a conjunction with short circuit, over results that may
    panic: [iter().fold(0, ...)] and [iter().all(...)] *)
Definition sum_p {A} (f : A -> option nat) : list A -> option nat :=
  fix sum_p (l : list A) : option nat :=
  match l with
  | [] => Some O
  | x :: l' => match f x with
               | None => None
               | Some n => match sum_p l' with None => None | Some m => Some (n + m)%nat end
               end
  end.
Definition all_p {A} (f : A -> option bool) : list A -> option bool :=
  fix all_p (l : list A) : option bool :=
  match l with
  | [] => Some true
  | x :: l' => match f x with
               | None => None
               | Some false => Some false
               | Some true => all_p l'
               end
  end.

(** lib.rs:254-269 [len_scalar] of [KeyValuePairs] *)
Definition kvp_len_scalar {K V} (f : V -> option nat) (p : kvp K V) : option nat :=
  match p with
  | Unmerged l => sum_p (fun kv => f (snd kv)) l
  | Merged m => sum_p (fun kv => f (snd kv)) m
  end.
(** value.rs:494-507, lib.rs:280-287 [len_scalar] (and the same for references, tables and arrays: 271-278, 300-330) *)
Fixpoint len_scalar (v : value) : option nat :=
  if is_scalar v then Some 1%nat
  else match v with
       | VList l => sum_p len_scalar l
       | VObject l => sum_p (kvp_len_scalar len_scalar) l
       | VBlock b => kvp_len_scalar (kvp_len_scalar len_scalar) b
       | _ => None
       end.

(** lib.rs:352-370, 385-424 [is_merged], [is_unmerged] of [KeyValuePairs] *)
Definition kvp_is_merged {K V} (f : V -> option bool) (p : kvp K V) : option bool :=
  match p with
  | Merged m => all_p (fun kv => f (snd kv)) m
  | Unmerged _ => Some false
  end.
Definition kvp_is_unmerged {K V} (f : V -> option bool) (p : kvp K V) : option bool :=
  match p with
  | Merged _ => Some false
  | Unmerged l => all_p (fun kv => f (snd kv)) l
  end.
(** value.rs:509-535, lib.rs:372-383 [is_merged], [is_unmerged] *)
Fixpoint is_merged (v : value) : option bool :=
  if is_scalar v then Some true
  else match v with
       | VList l => all_p is_merged l
       | VObject l => all_p (kvp_is_merged is_merged) l
       | VBlock b => kvp_is_merged (kvp_is_merged is_merged) b
       | _ => None
       end.
Fixpoint is_unmerged (v : value) : option bool :=
  if is_scalar v then Some true
  else match v with
       | VList l => all_p is_unmerged l
       | VObject l => all_p (kvp_is_unmerged is_unmerged) l
       | VBlock b => kvp_is_unmerged (kvp_is_unmerged is_unmerged) b
       | _ => None
       end.

Definition map_is_merged : mapvalues -> option bool := kvp_is_merged is_merged.
Definition map_is_unmerged : mapvalues -> option bool := kvp_is_unmerged is_unmerged.
Definition map_len_scalar : mapvalues -> option nat := kvp_len_scalar len_scalar.
(** lib.rs:37-39 [is_empty_scalar], for values and for maps *)
Definition is_empty_scalar (v : value) : option bool := option_map (fun n => Nat.eqb n 0) (len_scalar v).
Definition map_is_empty_scalar (p : mapvalues) : option bool := option_map (fun n => Nat.eqb n 0) (map_len_scalar p).
(** lib.rs:333-350 [is_merged], [is_unmerged] of [OneOrMany] *)
Definition oom_is_merged {T} (f : T -> option bool) (o : one_or_many T) : option bool :=
  match o with One x => f x | Many l => all_p f l end.
Definition oom_is_unmerged {T} (f : T -> option bool) (o : one_or_many T) : option bool :=
  match o with One x => f x | Many l => all_p f l end.

(** value.rs:595-610, lib.rs:426-500 [as_owned]; a table made owned is a
    new table *)
Inductive v_as_owned : value -> value -> Prop :=
| AO_null : v_as_owned VNull VNull
| AO_int i : v_as_owned (VInteger i) (VInteger i)
| AO_float f : v_as_owned (VFloat f) (VFloat f)
| AO_bool b : v_as_owned (VBoolean b) (VBoolean b)
| AO_string s : v_as_owned (VString s) (VString s)
| AO_list l l' : Forall2 v_as_owned l l' -> v_as_owned (VList l) (VList l')
| AO_object l l' : Forall2 m_as_owned l l' -> v_as_owned (VObject l) (VObject l')
| AO_block_u l l' : Forall2 (fun a b => fst b = fst a /\ m_as_owned (snd a) (snd b)) l l' ->
    v_as_owned (VBlock (Unmerged l)) (VBlock (Unmerged l'))
| AO_block_m l l' m : Forall2 (fun a b => fst b = fst a /\ m_as_owned (snd a) (snd b)) l l' ->
    hm_extend labels_eqb [] l' m -> v_as_owned (VBlock (Merged l)) (VBlock (Merged m))
with m_as_owned : mapvalues -> mapvalues -> Prop :=
| AO_unmerged l l' : Forall2 (fun a b => fst b = key_as_owned (fst a) /\ v_as_owned (snd a) (snd b)) l l' ->
    m_as_owned (Unmerged l) (Unmerged l')
| AO_merged l l' m : Forall2 (fun a b => fst b = key_as_owned (fst a) /\ v_as_owned (snd a) (snd b)) l l' ->
    hm_extend key_eqb [] l' m -> m_as_owned (Merged l) (Merged m).

(** ** Merging *)
(** errors.rs:27-46: the two merge errors with their fields *)
Inductive merge_error :=
| IllegalMultipleEntries (k : str) (v : variant)
| ErrorMergingKeys (k : str) (existing incoming : variant).
Inductive mres (A : Type) := MOk (x : A) | MErr (e : merge_error).
Arguments MOk {A} x.
Arguments MErr {A} e.

(** A computation with unspecified choices: its possible results. *)
Definition M (A : Type) := mres A -> Prop.
Definition mret {A} (x : A) : M A := fun r => r = MOk x.
Definition mfail {A} (e : merge_error) : M A := fun r => r = MErr e.
(** the [?] operator *)
Definition mbind {A B} (c : M A) (f : A -> M B) : M B := fun r =>
  (exists x, c (MOk x) /\ f x r) \/ (exists e, c (MErr e) /\ r = MErr e).
(** any result in the set *)
Definition mchoose {A} (P : A -> Prop) : M A := fun r => exists x, P x /\ r = MOk x.
(** [into_iter().map(f).collect::<Result<Vec<_>, _>>()] *)
Definition mmap {A B} (f : A -> M B) : list A -> M (list B) :=
  fix mmap (l : list A) : M (list B) :=
  match l with
  | [] => mret []
  | x :: l' => mbind (f x) (fun y => mbind (mmap l') (fun ys => mret (y :: ys)))
  end.

(** value.rs:795-833: merging [new] into the entry [old] of key [k] *)
Definition merge_into (k : key) (old new : value) : M value :=
  match old with
  | VObject ms =>
      match new with
      | VObject incoming => mret (VObject (ms ++ incoming))
      | _ => mfail (ErrorMergingKeys (key_str k) NObject (variant_name new))
      end
  | VBlock b =>
      match new with
      | VBlock incoming => mchoose (fun v => exists b', kvp_extend labels_eqb b (entries incoming) b' /\ v = VBlock b')
      | _ => mfail (ErrorMergingKeys (key_str k) NBlock (variant_name new))
      end
  | _ => mfail (IllegalMultipleEntries (key_str k) (variant_name old))
  end.
(** value.rs:790-836: the entry of [k] in the table, vacant or occupied *)
Fixpoint merge_entry (k : key) (v : value) (m : list (key * value)) : M (list (key * value)) :=
  match m with
  | [] => mret [(k, v)]
  | (k', old) :: m' =>
      if key_eqb k' k then mbind (merge_into k' old v) (fun v' => mret ((k', v') :: m'))
      else mbind (merge_entry k v m') (fun m'' => mret ((k', old) :: m''))
  end.
(** value.rs:782-839 [MapValues::new_merged]: the loop *)
Definition map_new_merged (vmerge : value -> M value) : list (key * value) -> list (key * value) -> M mapvalues :=
  fix map_new_merged (m : list (key * value)) (l : list (key * value)) {struct l} : M mapvalues :=
  match l with
  | [] => mchoose (fun p => exists m', Permutation m m' /\ p = Merged m')
  | (k, v) :: l' =>
      mbind (vmerge v) (fun v' =>
      mbind (merge_entry k v' m) (fun m1 =>
      mbind (mchoose (Permutation m1)) (fun m2 => map_new_merged m2 l')))
  end.
(** value.rs:848-854 [MapValues::merge] (and 856-862 [as_merged], the same on a copy) *)
Definition map_merge_with (vmerge : value -> M value) (p : mapvalues) : M mapvalues :=
  match p with
  | Unmerged l => map_new_merged vmerge [] l
  | Merged m => mret (Merged m)
  end.
(** value.rs:614-628 [Block::new_merged]: the loop *)
Fixpoint block_new_merged (mmerge : mapvalues -> M mapvalues) (m : list (list str * mapvalues)) (l : list (list str * mapvalues)) : M blockvalues :=
  match l with
  | [] => mchoose (fun p => exists m', Permutation m m' /\ p = Merged m')
  | (ls, p) :: l' =>
      mbind (mmerge p) (fun p' =>
      mbind (mchoose (Permutation (hm_put labels_eqb ls p' m))) (fun m2 => block_new_merged mmerge m2 l'))
  end.

(** value.rs:404-431 [Value::merge].  In the [Block] case the maps have been merged
    when [Block::new_merged] calls [merge] on them once more, and that is the
    identity on a merged map (value.rs:848-854): [mret]. *)
Fixpoint merge (v : value) : M value :=
  match v with
  | VNull | VInteger _ | VFloat _ | VBoolean _ | VString _ => mret v
  | VList l => mbind (mmap merge l) (fun l' => mret (VList l'))
  | VObject l => mbind (mmap (map_merge_with merge) l) (fun l' => mret (VObject l'))
  | VBlock b =>
      mbind (mmap (fun kv => mbind (map_merge_with merge (snd kv)) (fun p => mret (fst kv, p)))
                  (match b with Merged m => m | Unmerged l => l end)) (fun l' =>
      mbind (block_new_merged mret [] l') (fun b' => mret (VBlock b')))
  end.
Definition map_merge : mapvalues -> M mapvalues := map_merge_with merge.
(** value.rs:643-649 [Block::merge] (and 651-657 [as_merged]) *)
Definition block_merge (b : blockvalues) : M blockvalues :=
  match b with
  | Unmerged l => block_new_merged map_merge [] l
  | Merged m => mret (Merged m)
  end.
(** value.rs:659-665, 864-870 [unmerge] (and [as_unmerged], 667-677, 872-882):
    the table's entries in the order it iterates *)
Definition unmerge {K V} (p : kvp K V) : kvp K V := match p with Merged m => Unmerged m | Unmerged l => Unmerged l end.
(** value.rs:753-767 [borrow_keys]: the same pairs (the table is rebuilt) *)
Definition borrow_keys (b r : blockvalues) : Prop :=
  match b with
  | Merged m => exists m', hm_extend labels_eqb [] m m' /\ r = Merged m'
  | Unmerged l => r = Unmerged l
  end.

(** lib.rs:80-96 [MergeBehaviour] *)
Inductive merge_behaviour := MBError | MBTakeFirst | MBTakeLast.
