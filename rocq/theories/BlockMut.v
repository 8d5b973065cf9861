(** * BlockMut: changes made through the mutable references that
    lib/src/parser/block.rs hands out

    A [&mut BlockBody] or [&mut Body] is modelled by what the collection has become
    when the caller is done with it: the function the caller applies to the node, or
    the list of the bodies the caller writes. *)
From Verif Require Import Base Ast Blocks.

(** block.rs:463-480 [BlockBody::get_mut], and then [f] applied to the node in place.  The entry is
    the one that [get] finds: the same key, hash and table. *)
Fixpoint bupdate (b : bbody) (path : list str) (f : bbody -> bbody) {struct path} : option bbody :=
  match path with
  | [] => Some (f b)
  | p :: ps =>
      match b with
      | BBody _ => None
      | BLabels e m =>
          option_map (BLabels e)
            ((fix hm_get_mut (m : list (label * bbody)) : option (list (label * bbody)) :=
               match m with
               | [] => None
               | (k, x) :: m' =>
                   if str_eqb (label_str k) p
                   then option_map (fun x' => (k, x') :: m') (bupdate x ps f)
                   else option_map (cons (k, x)) (hm_get_mut m')
               end) m)
      end
  end.

(** block.rs:233-242 [Blocks::get_mut], and then [f] applied to the node in place *)
Fixpoint blocks_update (m : blocks_t) (t : str) (path : list str) (f : bbody -> bbody) : option blocks_t :=
  match m with
  | [] => None
  | (k, x) :: m' =>
      if str_eqb (cow_str k) t
      then option_map (fun x' => (k, x') :: m') (bupdate x path f)
      else option_map (cons (k, x)) (blocks_update m' t path f)
  end.

(** [slice::iter_mut] with the bodies written into the items one after the other, as
    far as there are any; and the bodies that are left *)
Fixpoint put_list (bs new : list body_t) : list body_t * list body_t :=
  match bs, new with
  | [], _ => ([], new)
  | _, [] => (bs, [])
  | _ :: bs', n :: new' => let (r, rest) := put_list bs' new' in (n :: r, rest)
  end.

(** block.rs:510-537 [BlockBody::flat_iter_mut], and then the given bodies written
    through the references as they come *)
Fixpoint flat_put (b : bbody) (new : list body_t) : bbody * list body_t :=
  match b with
  | BBody bodies => let (bs, rest) := put_list bodies new in (BBody bs, rest)
  | BLabels e m =>
      let (e', rest) := put_list e new in
      let (m', rest') :=
        (fix nested (m : list (label * bbody)) (new : list body_t) : list (label * bbody) * list body_t :=
           match m with
           | [] => ([], new)
           | (k, x) :: m' =>
               let (x', rest) := flat_put x new in
               let (m'', rest') := nested m' rest in ((k, x') :: m'', rest')
           end) m rest in
      (BLabels e' m', rest')
  end.

(** block.rs:276-291 [Blocks::flat_iter_mut], likewise *)
Fixpoint blocks_flat_put (m : blocks_t) (new : list body_t) : blocks_t * list body_t :=
  match m with
  | [] => ([], new)
  | (k, x) :: m' =>
      let (x', rest) := flat_put x new in
      let (m'', rest') := blocks_flat_put m' rest in ((k, x') :: m'', rest')
  end.

(** block.rs:245-247 [iter], 348-355, 357-364 [into_iter]: types and their blocks *)
Definition blocks_iter (m : blocks_t) : list (cow * bbody) := m.
(** block.rs:249-251 [iter_mut], 366-373 [into_iter] of [&mut]: only the blocks can be
    changed; here by a function that may depend on the type *)
Definition blocks_iter_mut (m : blocks_t) (f : str -> bbody -> bbody) : blocks_t :=
  map (fun kv => (fst kv, f (cow_str (fst kv)) (snd kv))) m.
