(** * BlockExactSpec: SPECIFICATION of where the block index puts every block

    A label is identified by its kind (quoted or not) and its text. *)
From Verif Require Import Base Ast.

Definition label_id (l : label) : bool * str :=
  match l with LString s => (true, s) | LIdent i => (false, cow_str i) end.
Notation lpath := (list (bool * str)) (only parsing).

(** [q] begins some path in use; [q] begins some longer path in use *)
Definition Used (P : list lpath) (q : lpath) : Prop := exists r, In (q ++ r) P.
Definition Branch (P : list lpath) (q : lpath) : Prop := exists x r, In (q ++ x :: r) P.

(** Where a block with the labels [ls] goes when the paths [P] are in use: under all
    of its labels, unless on the way the labels leave the known ones at a place that
    has others - there, only the first new label is kept. *)
Inductive Placed (P : list lpath) : lpath -> lpath -> Prop :=
| Placed_cut q x r : Branch P q -> ~ Used P (q ++ [x]) -> Placed P (q ++ x :: r) (q ++ [x])
| Placed_whole ls : (forall q x r, ls = q ++ x :: r -> Branch P q -> Used P (q ++ [x])) -> Placed P ls ls.

(** What an index holds, in the order in which it was appended *)
Inductive Contents : list (list label * body_t) -> list (lpath * body_t) -> Prop :=
| Contents_nil : Contents [] []
| Contents_snoc h c ls body p :
    Contents h c -> Placed (map fst c) (map label_id ls) p ->
    Contents (h ++ [(ls, body)]) (c ++ [(p, body)]).

(** The bodies held at exactly this path, in order *)
Inductive HeldAt (p : lpath) : list (lpath * body_t) -> list body_t -> Prop :=
| HA_nil : HeldAt p [] []
| HA_here b c bs : HeldAt p c bs -> HeldAt p ((p, b) :: c) (b :: bs)
| HA_other q b c bs : q <> p -> HeldAt p c bs -> HeldAt p ((q, b) :: c) bs.
