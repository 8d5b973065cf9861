(** * MapAccess: the two [serde::de::MapAccess] implementations as state machines

    [Serde.v] uses the list of steps that a map visitor sees when it asks for keys and
    values in turn.  Here the state of the accesses is explicit, and any client may call
    the three methods in any order; PropMapAccess.v proves that asking in turn gives
    those steps. *)
From Verif Require Import Base Ast Blocks Serde.

(** serde/de/object.rs:10-18 [ObjectMapAccess] and serde/de/body.rs:88-96 [MapAccess]:
    the rest of the entries, the value that waits to be taken, the names seen. *)
Record access (K V : Type) := mk_access { ma_rest : list (K * V); ma_value : option V; ma_seen : list str }.
Arguments mk_access {K V}. Arguments ma_rest {K V}. Arguments ma_value {K V}. Arguments ma_seen {K V}.
(** object.rs:20-28, body.rs:98-106 [new] *)
Definition access_new {K V} (l : list (K * V)) : access K V := mk_access l None [].

(** What a call does.  [OKey c]: the seed is run on the key [c] (its result is the
    caller's); [OVal s]: the seed is run on the value [s]; [OEnd] is [Ok(None)], [ODup]
    an error, [OPanic] unwinds. *)
Inductive obs := OKey (c : cow) | OEnd | ODup (e : de_error) | OVal (s : src) | OSize (n : nat) | OPanic.

(** object.rs:33-51 [next_key_seed].  [as_str] of a key that is an expression panics
    (parser/object.rs [ObjectElementIdentifier::as_str], [unimplemented]). *)
Definition object_next_key (a : access okey expr) : obs * access okey expr :=
  match ma_rest a with
  | [] => (OEnd, a)
  | (k, v) :: rest =>
      match k with
      | KExpr _ => (OPanic, mk_access rest (ma_value a) (ma_seen a))
      | KIdent c =>
          if seen_mem (cow_str c) (ma_seen a) then (ODup (EObjectDuplicateKey (cow_str c)), mk_access rest (ma_value a) (ma_seen a))
          else (OKey c, mk_access rest (Some v) (cow_str c :: ma_seen a))
      end
  end.
(** object.rs:53-59 [next_value_seed] *)
Definition object_next_value (a : access okey expr) : obs * access okey expr :=
  match ma_value a with
  | None => (OPanic, a)
  | Some v => (OVal (SExpr v), mk_access (ma_rest a) None (ma_seen a))
  end.

(** body.rs:128-155 [next_key_seed] *)
Definition body_next_key (a : access cow body_value) : obs * access cow body_value :=
  match ma_rest a with
  | [] => (OEnd, a)
  | (c, BVExpr e) :: rest =>
      if seen_mem (cow_str c) (ma_seen a) then (ODup (EBodyDuplicateKey (cow_str c)), mk_access rest (ma_value a) (ma_seen a))
      else (OKey c, mk_access rest (Some (BVExpr e)) (cow_str c :: ma_seen a))
  | (c, BVBlock b) :: rest =>
      if seen_mem (cow_str c) (ma_seen a) then (OPanic, mk_access rest (ma_value a) (ma_seen a))
      else (OKey c, mk_access rest (Some (BVBlock b)) (cow_str c :: ma_seen a))
  end.
(** body.rs:157-165 [next_value_seed] *)
Definition body_next_value (a : access cow body_value) : obs * access cow body_value :=
  match ma_value a with
  | None => (OPanic, a)
  | Some (BVExpr e) => (OVal (SExpr e), mk_access (ma_rest a) None (ma_seen a))
  | Some (BVBlock b) => (OVal (SBlock b), mk_access (ma_rest a) None (ma_seen a))
  end.

(** object.rs:61-65, body.rs:167-171 [size_hint]: [vec::IntoIter]'s lower bound, which is
    the exact number of what is left *)
Definition size_hint {K V} (a : access K V) : obs * access K V := (OSize (length (ma_rest a)), a).

(** A client: any sequence of calls, cut short by a panic. *)
Inductive op := NextKey | NextValue | SizeHint.
Section Run.
  Context {K V : Type}.
  Variable next_key next_value : access K V -> obs * access K V.
  Definition call_op (o : op) (a : access K V) : obs * access K V :=
    match o with NextKey => next_key a | NextValue => next_value a | SizeHint => size_hint a end.
  Fixpoint run (h : list op) (a : access K V) : list obs :=
    match h with
    | [] => []
    | o :: h' => match call_op o a with (OPanic, _) => [OPanic] | (x, a') => x :: run h' a' end
    end.
End Run.
(** What a client of a fresh access sees. *)
Definition object_run (l : list (okey * expr)) (h : list op) : list obs := run object_next_key object_next_value h (access_new l).
Definition body_run (ord : blocks_t -> blocks_t) (b : body_t) (h : list op) : list obs :=
  run body_next_key body_next_value h (access_new (build_map_access_iter ord b)).
