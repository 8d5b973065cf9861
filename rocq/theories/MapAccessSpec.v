(** * MapAccessSpec: SPECIFICATION side for clients of a map access: what each call sees
    depends only on the calls made before it *)
From Verif Require Import Base Ast Blocks BlockSpec Serde SerdeSpec MapAccess.
Local Open Scope nat_scope.

(** One thing to be handed out: its key ([None]: not an identifier), its value, and what
    happens when its name has been handed out before. *)
Definition offer : Type := option cow * src * obs.
(** The members of an object. *)
Definition object_offer (ke : okey * expr) : offer :=
  match fst ke with
  | KIdent c => (Some c, SExpr (snd ke), ODup (EObjectDuplicateKey (cow_str c)))
  | KExpr c => (None, SExpr (snd ke), OPanic)
  end.
(** An attribute of a body. *)
Definition attr_offer (el : element) : list offer :=
  match el with
  | Attr n e => [(Some n, SExpr e, ODup (EBodyDuplicateKey (cow_str n)))]
  | Blk _ _ _ => []
  end.
(** What a body has to hand out: its attributes in source order; then, in any order, one
    thing per type of block: the blocks of the last run of consecutive blocks of that
    type, appended one by one to an empty collection. *)
Definition BodyOffers (b : body_t) (es : list offer) : Prop :=
  exists types : list (cow * bbody),
    es = flat_map attr_offer b ++ map (fun tb => (Some (fst tb), SBlock (snd tb), OPanic)) types /\
    NoDup (map (fun tb => cow_str (fst tb)) types) /\
    (forall t, In t (map (fun tb => cow_str (fst tb)) types) <-> exists c, In c (block_list b) /\ cow_str (b_type c) = t) /\
    (forall t x, In (t, x) types -> exists r, LastRun (cow_str t) (block_list b) r /\ Built (map (fun c => (b_labels c, b_body c)) r) x).

Definition named (n : str) (o : offer) : Prop := exists c, fst (fst o) = Some c /\ cow_str c = n.
(** How many keys were asked for. *)
Definition keys (h : list op) : nat := length (filter (fun o => match o with NextKey => true | _ => false end) h).
(** The [k]-th request for a key (from 0) gives the key [c], with the value [s]. *)
Definition GivesKey (es : list offer) (k : nat) (c : cow) (s : src) : Prop :=
  exists es1 d es2, es = es1 ++ (Some c, s, d) :: es2 /\ length es1 = k /\ ~ Exists (named (cow_str c)) es1.
(** The value of the last key given, if it was not asked for yet. *)
Definition Waiting (es : list offer) (h : list op) (s : src) : Prop :=
  exists h1 h2 c, h = h1 ++ NextKey :: h2 /\ GivesKey es (keys h1) c s /\ ~ In NextValue h2 /\
    forall h3 h4 c' s', h2 = h3 ++ NextKey :: h4 -> ~ GivesKey es (keys h1 + 1 + keys h3) c' s'.

(** [Sees es h o x]: after the calls [h], the call [o] sees [x]. *)
Inductive Sees (es : list offer) (h : list op) : op -> obs -> Prop :=
| Sees_size : Sees es h SizeHint (OSize (length es - keys h))
| Sees_end : length es <= keys h -> Sees es h NextKey OEnd
| Sees_key c s : GivesKey es (keys h) c s -> Sees es h NextKey (OKey c)
| Sees_again es1 c s d es2 : es = es1 ++ (Some c, s, d) :: es2 -> length es1 = keys h -> Exists (named (cow_str c)) es1 -> Sees es h NextKey d
| Sees_no_name es1 s d es2 : es = es1 ++ (None, s, d) :: es2 -> length es1 = keys h -> Sees es h NextKey OPanic
| Sees_value s : Waiting es h s -> Sees es h NextValue (OVal s)
| Sees_nothing : (forall s, ~ Waiting es h s) -> Sees es h NextValue OPanic.

(** What a client sees that asks for a key, then its value, then the next key and so on,
    and gives up at the first error; [done] was handed out before. *)
Inductive InTurn (done : list offer) : list offer -> list obs -> Prop :=
| IT_end : InTurn done [] [OEnd]
| IT_entry c s d es out : ~ Exists (named (cow_str c)) done ->
    InTurn (done ++ [(Some c, s, d)]) es out -> InTurn done ((Some c, s, d) :: es) (OKey c :: OVal s :: out)
| IT_again c s d es : Exists (named (cow_str c)) done -> InTurn done ((Some c, s, d) :: es) [d]
| IT_no_name s d es : InTurn done ((None, s, d) :: es) [OPanic].
