(** * VCutSpec: SPECIFICATION of entries of [value::from_str] that were cut short

    [VCutShort l' l]: [l'] is a beginning of [l], or would be one if the number of its last entry had not lost its end. *)
From Verif Require Import Base Ast Grammar Kvp Value OldGrammar.

(** [v] is the value of a number literal of which the one of [v'] is a proper continuation. *)
Definition VCutNumber (v v' : Value.value) : Prop :=
  exists t u, u <> [] /\ NumberText t /\ NumberValue t v /\ NumberText (t ++ u) /\ NumberValue (t ++ u) v'.
Inductive VCutShort : list (key * Value.value) -> list (key * Value.value) -> Prop :=
| VC_entries l1 l2 : VCutShort l1 (l1 ++ l2)
| VC_number l1 k v v' l2 : VCutNumber v v' -> VCutShort (l1 ++ [(k, v)]) (l1 ++ (k, v') :: l2).
