(** * KeyDe: a [Key] as a deserialiser (lib/src/parser/literals/key.rs:100-130) *)
From Verif Require Import Base Value Serde.

(** key.rs:111-118 [deserialize_any], key.rs:120-124: every other method is forwarded to
    it.  [visit_str] hands over a string that does not outlive the call; for the targets
    in [ty] it is answered as an owned one ([VString]). *)
Definition key_call (k : key) (m : method) : event := Serde.VString (key_str k).

(** [T::deserialize(key)]: a string has no components to go on with *)
Definition deserialize_key (t : ty) (k : key) : dres data :=
  visit (fun _ _ => DeFuel) t (key_call k (method_of t)).
