(** * DebugSpec: SPECIFICATION of what is assumed of the standard library's texts

    [FloatsIn P v]: every float in the value [v] satisfies [P]; [StringsIn Q v]: every string, key and label
    in it satisfies [Q].  [GoodFloatTexts]: what is used of the text of a float: it is not empty, has no line
    feed, blank or comma in it, and different floats have different texts (Rust documents that reading the
    text gives the float back). *)
From Coq Require Import ZArith SpecFloat.
From Verif Require Import Base IoSpec Kvp Value ReachSpec.
Close Scope Z_scope.
Open Scope N_scope.

Inductive FloatsIn (P : spec_float -> Prop) : value -> Prop :=
| FI_null : FloatsIn P VNull
| FI_int i : FloatsIn P (VInteger i)
| FI_float f : P f -> FloatsIn P (VFloat f)
| FI_bool b : FloatsIn P (VBoolean b)
| FI_string s : FloatsIn P (VString s)
| FI_list l : Forall (FloatsIn P) l -> FloatsIn P (VList l)
| FI_object l : Forall (FloatsInMap P) l -> FloatsIn P (VObject l)
| FI_block b : Forall (fun kv => FloatsInMap P (snd kv)) (entries b) -> FloatsIn P (VBlock b)
with FloatsInMap (P : spec_float -> Prop) : mapvalues -> Prop :=
| FI_map p : Forall (fun kv => FloatsIn P (snd kv)) (entries p) -> FloatsInMap P p.

Definition key_chars (k : key) : str := match k with KeyIdent s | KeyString s => s end.
Inductive StringsIn (Q : str -> Prop) : value -> Prop :=
| SI_null : StringsIn Q VNull
| SI_int i : StringsIn Q (VInteger i)
| SI_float f : StringsIn Q (VFloat f)
| SI_bool b : StringsIn Q (VBoolean b)
| SI_string s : Q s -> StringsIn Q (VString s)
| SI_list l : Forall (StringsIn Q) l -> StringsIn Q (VList l)
| SI_object l : Forall (StringsInMap Q) l -> StringsIn Q (VObject l)
| SI_block b : Forall (fun kv => Forall Q (fst kv) /\ StringsInMap Q (snd kv)) (entries b) -> StringsIn Q (VBlock b)
with StringsInMap (Q : str -> Prop) : mapvalues -> Prop :=
| SI_map p : Forall (fun kv => Q (key_chars (fst kv)) /\ StringsIn Q (snd kv)) (entries p) -> StringsInMap Q p.

(** The floats there are: finite ones of 53 bits and the infinities ([NotNaN], ReachSpec.v) *)
Definition GoodFloatTexts (show : spec_float -> str) : Prop :=
  (forall f g, NotNaN 53 1024 f -> NotNaN 53 1024 g -> show f = show g -> f = g) /\
  (forall f, NotNaN 53 1024 f -> show f <> [] /\ forall c, In c (show f) -> c <> 10 /\ c <> 32 /\ c <> 44 /\ valid_char c = true).
