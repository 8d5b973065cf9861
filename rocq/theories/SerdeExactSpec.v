(** * SerdeExactSpec: SPECIFICATION side for the exact outcome of reading maps *)
From Verif Require Import Base Ast Serde.

(** [MapTarget T reads]: the target [T] takes a map, and reads what is called [k] as
    [reads k]: a map reads everything as one type; a struct its fields as their types
    and ignores everything else. *)
Definition field_type (fs : list (str * ty)) (k : str) : ty :=
  match find (fun ft => str_eqb (fst ft) k) fs with Some ft => snd ft | None => TIgnored end.
Inductive MapTarget : ty -> (str -> ty) -> Prop :=
| MT_map t : MapTarget (TMap KTString t) (fun _ => t)
| MT_any : MapTarget TAny (fun _ => TAny)
| MT_ignored : MapTarget TIgnored (fun _ => TIgnored)
| MT_struct fs : MapTarget (TStruct fs) (field_type fs).
