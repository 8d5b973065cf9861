(** * BlockSpec: SPECIFICATION side for the block index *)
From Coq Require Import Permutation.
From Verif Require Import Base Ast Blocks.

(** The tables may be in any order: [Reorder b b'] permutes them at every level. *)
Inductive Reorder : bbody -> bbody -> Prop :=
| RO_body bs : Reorder (BBody bs) (BBody bs)
| RO_labels e m m1 m' : Permutation m m1 ->
    Forall2 (fun a b => fst a = fst b /\ Reorder (snd a) (snd b)) m1 m' ->
    Reorder (BLabels e m) (BLabels e m').
Inductive ReorderBlocks : blocks_t -> blocks_t -> Prop :=
| ROB m m1 m' : Permutation m m1 ->
    Forall2 (fun a b => fst a = fst b /\ Reorder (snd a) (snd b)) m1 m' -> ReorderBlocks m m'.

(** Histories: what can be reached from the empty collection by appending the given
    blocks in turn, the tables being in any order at any time. *)
Inductive Built : list (list label * body_t) -> bbody -> Prop :=
| Built_new : Built [] bdefault
| Built_append h b ls body b' :
    Built h b -> Reorder (append b ls body) b' -> Built (h ++ [(ls, body)]) b'.
Inductive BlocksBuilt : list block_t -> blocks_t -> Prop :=
| BB_new : BlocksBuilt [] []
| BB_append h m b m' :
    BlocksBuilt h m -> ReorderBlocks (blocks_append m b) m' -> BlocksBuilt (h ++ [b]) m'.

(** Two labels written alike are of the same kind (quoted or identifier). *)
Definition SameKind (a b : label) : Prop :=
  match a, b with LString _, LString _ => True | LIdent _, LIdent _ => True | _, _ => False end.
Definition Consistent (ls : list label) : Prop :=
  forall a b, In a ls -> In b ls -> label_str a = label_str b -> SameKind a b.
Definition history_labels (h : list (list label * body_t)) : list label := flat_map fst h.

(** [KnownPath b ls]: all labels but possibly the last were seen before in this
    place - or nothing labelled was. *)
Inductive KnownPath : bbody -> list label -> Prop :=
| KP_nil b : KnownPath b []
| KP_one b l : KnownPath b [l]
| KP_unlabelled bs ls : KnownPath (BBody bs) ls
| KP_step e m k x l ls : In (k, x) m -> label_eqb k l = true -> KnownPath x ls ->
    KnownPath (BLabels e m) (l :: ls).

(** The blocks of one type in a list of blocks. *)
Definition of_type (t : str) (l : list block_t) : list (list label * body_t) :=
  map (fun b => (b_labels b, b_body b)) (filter (fun b => str_eqb (cow_str (b_type b)) t) l).

Definition is_prefix {A} (p l : list A) : Prop := exists r, l = p ++ r.
