(** * Blocks: the block index of lib/src/parser/block.rs

    A [HashMap] is modelled by the list of its entries.  The order of that list
    stands for the unspecified order in which the table probes and iterates; it
    carries no information: see [Reorder] in BlockSpec.v, by which every theorem lets
    the table be permuted after every operation. *)
From Verif Require Import Base Ast.

(** lib/src/parser/block.rs:25-31 [Block]: type, labels, body *)
Record block_t := mk_block { b_type : cow; b_labels : list label; b_body : body_t }.

(** block.rs:66-69, 97-104 [BlockLabel::as_str], [Borrow<str>] *)
Definition label_str (l : label) : str :=
  match l with LString s => s | LIdent i => cow_str i end.
(** block.rs:71-76 [BlockLabel::as_cow] *)
Definition label_cow (l : label) : cow :=
  match l with LString s => Owned s | LIdent i => i end.
(** block.rs:60 derived [PartialEq]: variants are distinguished *)
Definition label_eqb (a b : label) : bool :=
  match a, b with
  | LString s, LString t => str_eqb s t
  | LIdent s, LIdent t => str_eqb (cow_str s) (cow_str t)
  | _, _ => false
  end.
(** block.rs:79-83 [Hash]: the string is what is fed to the hasher *)
Definition label_hash_input (l : label) : str := label_str l.
(** block.rs:85-95 [PartialEq<S: AsRef<str>>] *)
Definition label_eq_str (l : label) (s : str) : bool :=
  match l with LString t => str_eqb t s | LIdent t => str_eqb (cow_str t) s end.

(** block.rs:395-407 [BlockBody] *)
Inductive bbody :=
| BBody (bodies : list body_t)
| BLabels (empty : list body_t) (labels : list (label * bbody)).

Section BBodyInd.
  Variable P : bbody -> Prop.
  Hypothesis Hb : forall bs, P (BBody bs).
  Hypothesis Hl : forall e m, Forall (fun kv => P (snd kv)) m -> P (BLabels e m).
  Fixpoint bbody_ind' (b : bbody) : P b :=
    match b with
    | BBody bs => Hb bs
    | BLabels e m =>
        Hl e m ((fix go (m : list (label * bbody)) : Forall (fun kv => P (snd kv)) m :=
          match m with
          | [] => Forall_nil _
          | x :: m' => Forall_cons x (bbody_ind' (snd x)) (go m')
          end) m)
    end.
End BBodyInd.

(** block.rs:702-706 [Default], 410-412 [BlockBody::new] *)
Definition bdefault : bbody := BBody [].

(** block.rs:656-677 [body_to_labels] and 414-421: what appending to the default
    value gives ([new_body.append(labels, body)]; proved to be [append bdefault]). *)
Fixpoint append_default (ls : list label) (body : body_t) : bbody :=
  match ls with
  | [] => BBody [body]
  | l :: ls' => BLabels [] [(l, append_default ls' body)]
  end.

(** block.rs:414-442 [BlockBody::append] *)
Fixpoint append (b : bbody) (ls : list label) (body : body_t) {struct b} : bbody :=
  match b with
  | BBody bodies =>
      match ls with
      | [] => BBody (bodies ++ [body])
      | l :: ls' => BLabels bodies [(l, append_default ls' body)]
      end
  | BLabels e m =>
      match ls with
      | [] => BLabels (e ++ [body]) m
      | l :: ls' =>
          BLabels e
            ((fix entry (m : list (label * bbody)) : list (label * bbody) :=
                match m with
                | [] => [(l, BBody [body])]
                | (k, x) :: m' =>
                    if label_eqb k l then (k, append x ls' body) :: m' else (k, x) :: entry m'
                end) m)
      end
  end.

(** block.rs:691-700 [Extend] and 680-689 [FromIterator] *)
Definition extend (b : bbody) (l : list (list label * body_t)) : bbody :=
  fold_left (fun b lb => append b (fst lb) (snd lb)) l b.

(** block.rs:444-461 [BlockBody::get] (and 463-480 [get_mut], the same node) *)
Fixpoint bget (b : bbody) (path : list str) : option bbody :=
  match path with
  | [] => Some b
  | p :: ps =>
      match b with
      | BBody _ => None
      | BLabels _ m =>
          match find (fun kv => str_eqb (label_str (fst kv)) p) m with
          | None => None
          | Some (_, x) => bget x ps
          end
      end
  end.

(** block.rs:482-508 [flat_iter] *)
Fixpoint flat_iter (b : bbody) : list (list str * body_t) :=
  match b with
  | BBody bodies => map (fun body => ([], body)) bodies
  | BLabels e m =>
      map (fun body => ([], body)) e ++
      flat_map (fun kv => map (fun pb => (label_str (fst kv) :: fst pb, snd pb)) (flat_iter (snd kv))) m
  end.
(** block.rs:510-537 [flat_iter_mut]: what is yielded *)
Fixpoint flat_iter_mut (b : bbody) : list (list str * body_t) :=
  match b with
  | BBody bodies => map (fun body => ([], body)) bodies
  | BLabels e m =>
      map (fun body => ([], body)) e ++
      flat_map (fun kv => map (fun pb => (label_str (fst kv) :: fst pb, snd pb)) (flat_iter_mut (snd kv))) m
  end.
(** block.rs:539-560 [flat_into_iter] *)
Fixpoint flat_into_iter (b : bbody) : list (list cow * body_t) :=
  match b with
  | BBody bodies => map (fun body => ([], body)) bodies
  | BLabels e m =>
      map (fun body => ([], body)) e ++
      flat_map (fun kv => map (fun pb => (label_cow (fst kv) :: fst pb, snd pb)) (flat_into_iter (snd kv))) m
  end.

(** block.rs:562-575 [len_blocks] *)
Fixpoint len_blocks (b : bbody) : nat :=
  match b with
  | BBody bodies => length bodies
  | BLabels e m => length e + fold_left (fun acc kv => len_blocks (snd kv) + acc) m 0
  end%nat.

(** block.rs:577-585 [has_further_labels] *)
Definition has_further_labels (b : bbody) : bool :=
  match b with BBody _ => false | BLabels _ m => match m with [] => false | _ => true end end.
(** block.rs:587-593 [get_empty] *)
Definition get_empty (b : bbody) : list body_t :=
  match b with BBody bodies => bodies | BLabels e _ => e end.
(** block.rs:595-601 [get_labels] *)
Definition get_labels (b : bbody) : option (list (label * bbody)) :=
  match b with BBody _ => None | BLabels _ m => Some m end.

(** [BTreeSet<usize>] as a strictly sorted list *)
Fixpoint set_insert (n : nat) (s : list nat) : list nat :=
  match s with
  | [] => [n]
  | x :: s' => if Nat.eqb n x then s else if Nat.ltb n x then n :: s else x :: set_insert n s'
  end.
Definition set_collect (l : list nat) : list nat := fold_left (fun s n => set_insert n s) l [].

(** block.rs:603-623 [label_lens] *)
Fixpoint label_lens (b : bbody) : list nat :=
  match b with
  | BBody _ => set_collect [0%nat]
  | BLabels e m =>
      let it := flat_map (fun kv => map S (label_lens (snd kv))) m in
      match e with
      | [] => set_collect it
      | _ => set_collect (it ++ [0%nat])
      end
  end.

Definition opt_nat_eqb (a b : option nat) : bool :=
  match a, b with
  | Some x, Some y => Nat.eqb x y
  | None, None => true
  | _, _ => false
  end.

(** block.rs:625-650 [label_lens_uniform] *)
Fixpoint label_lens_uniform (b : bbody) : option nat :=
  match b with
  | BBody _ => Some 0%nat
  | BLabels e m =>
      match m with
      | [] => Some 0%nat
      | (_, x) :: m' =>
          match e with
          | _ :: _ => None
          | [] =>
              match label_lens_uniform x with
              | None => None
              | Some n =>
                  if forallb (fun kv => opt_nat_eqb (label_lens_uniform (snd kv)) (Some n)) m'
                  then Some n else None
              end
          end
      end
  end.
(** block.rs:652-654 [is_label_lens_uniform] *)
Definition is_label_lens_uniform (b : bbody) : bool :=
  match label_lens_uniform b with Some _ => true | None => false end.

(** ** [Blocks]: block.rs:186-393 *)
Definition blocks_t := list (cow * bbody).
Definition cow_eqb (a b : cow) : bool := str_eqb (cow_str a) (cow_str b).

(** [HashMap::insert]: an existing key is kept, its value replaced *)
Fixpoint hm_insert {V} (m : list (cow * V)) (k : cow) (v : V) : list (cow * V) :=
  match m with
  | [] => [(k, v)]
  | (k', v') :: m' => if cow_eqb k' k then (k', v) :: m' else (k', v') :: hm_insert m' k v
  end.

(** [itertools::group_by] on the block type: runs of consecutive equal types *)
Fixpoint group_by_type (l : list block_t) : list (cow * list (list label * body_t)) :=
  match l with
  | [] => []
  | b :: l' =>
      match group_by_type l' with
      | (k, g) :: gs =>
          if cow_eqb (b_type b) k then (b_type b, (b_labels b, b_body b) :: g) :: gs
          else (b_type b, [(b_labels b, b_body b)]) :: (k, g) :: gs
      | [] => [(b_type b, [(b_labels b, b_body b)])]
      end
  end.

(** block.rs:193-207 [Blocks::new], 375-382 [FromIterator] *)
Definition blocks_new (l : list block_t) : blocks_t :=
  fold_left (fun m kg => hm_insert m (fst kg) (extend bdefault (snd kg))) (group_by_type l) [].

(** block.rs:209-220 [Blocks::append] *)
Fixpoint blocks_append (m : blocks_t) (b : block_t) : blocks_t :=
  match m with
  | [] => [(b_type b, append bdefault (b_labels b) (b_body b))]
  | (k, x) :: m' =>
      if cow_eqb k (b_type b) then (k, append x (b_labels b) (b_body b)) :: m'
      else (k, x) :: blocks_append m' b
  end.
(** block.rs:384-393 [Extend] *)
Definition blocks_extend (m : blocks_t) (l : list block_t) : blocks_t := fold_left blocks_append l m.

(** block.rs:222-231 [Blocks::get] *)
Definition blocks_get (m : blocks_t) (t : str) (path : list str) : option bbody :=
  match find (fun kv => str_eqb (cow_str (fst kv)) t) m with
  | None => None
  | Some (_, x) => bget x path
  end.

(** block.rs:253-270 [Blocks::flat_iter] *)
Definition blocks_flat_iter (m : blocks_t) : list (str * list str * body_t) :=
  flat_map (fun kv => map (fun pb => (cow_str (fst kv), fst pb, snd pb)) (flat_iter (snd kv))) m.
(** block.rs:272-291 [Blocks::flat_iter_mut] *)
Definition blocks_flat_iter_mut (m : blocks_t) : list (str * list str * body_t) :=
  flat_map (fun kv => map (fun pb => (cow_str (fst kv), fst pb, snd pb)) (flat_iter_mut (snd kv))) m.
(** block.rs:293-306 [Blocks::flat_into_iter] *)
Definition blocks_flat_into_iter (m : blocks_t) : list (cow * list cow * body_t) :=
  flat_map (fun kv => map (fun pb => (fst kv, fst pb, snd pb)) (flat_into_iter (snd kv))) m.

(** block.rs:308-316 [len], [is_empty] *)
Definition blocks_len (m : blocks_t) : nat := length m.
Definition blocks_is_empty (m : blocks_t) : bool := Nat.eqb (blocks_len m) 0.
(** block.rs:318-323 [Blocks::len_blocks] *)
Definition blocks_len_blocks (m : blocks_t) : nat :=
  fold_left (fun acc kv => len_blocks (snd kv) + acc)%nat m 0%nat.
(** block.rs:325-345 *)
Definition blocks_label_lens (m : blocks_t) : list (str * list nat) :=
  map (fun kv => (cow_str (fst kv), label_lens (snd kv))) m.
Definition blocks_label_lens_uniform (m : blocks_t) : list (str * option nat) :=
  map (fun kv => (cow_str (fst kv), label_lens_uniform (snd kv))) m.
Definition blocks_is_label_lens_uniform (m : blocks_t) : list (str * bool) :=
  map (fun kv => (cow_str (fst kv), is_label_lens_uniform (snd kv))) m.
