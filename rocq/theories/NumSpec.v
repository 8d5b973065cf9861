(** * NumSpec: SPECIFICATION of integer literals *)
From Verif Require Import Base Ast Grammar NumConv.
Open Scope Z_scope.

(** [IntegerText t z]: [t] is an optional sign and digits, denoting [z]. *)
Inductive IntegerText : str -> Z -> Prop :=
| IT b sg d : Sign b sg -> d <> [] -> Digits d ->
    IntegerText (sg ++ d) (if b then Z.of_N (value 10 0 d) else - Z.of_N (value 10 0 d)).

(** The integer types: the smallest and the greatest value of each. *)
Definition least (t : int_ty) : Z :=
  match t with
  | U8 | U16 | U32 | U64 | U128 => 0
  | I8 => -128
  | I16 => -32768
  | I32 => -2147483648
  | I64 => -9223372036854775808
  | I128 => -170141183460469231731687303715884105728
  end.
Definition greatest (t : int_ty) : Z :=
  match t with
  | U8 => 255
  | U16 => 65535
  | U32 => 4294967295
  | U64 => 18446744073709551615
  | U128 => 340282366920938463463374607431768211455
  | I8 => 127
  | I16 => 32767
  | I32 => 2147483647
  | I64 => 9223372036854775807
  | I128 => 170141183460469231731687303715884105727
  end.
Definition InRange (t : int_ty) (z : Z) : Prop := least t <= z <= greatest t.
Arguments InRange !t z /.
(** the signed types *)
Definition Signed (t : int_ty) : Prop := t = I8 \/ t = I16 \/ t = I32 \/ t = I64 \/ t = I128.

(** No minus sign in front (what unsigned types insist on). *)
Definition NoMinus (t : str) : Prop := forall t', t <> 45%N :: t'.
