(** * FloatEqSpec: SPECIFICATION of when two 64-bit floats are "the same" to the equality
    of numbers

    The equality of numbers compares magnitudes and forgives a small difference.  Exactly:
    the magnitudes are equal, or they differ by at least the least normal number, 2^-1022,
    and by less than 2^-52 of their sum, as a float (the largest one if it overflows). *)
From Coq Require Import ZArith Reals SpecFloat.
From Verif Require Import Base FloatSpec.
Open Scope R_scope.

Definition largest_f64 : R := IZR (2 ^ 53 - 1) * powerRZ 2 971.
Definition finite_or_largest (h : spec_float) : R :=
  match h with S754_infinity _ => largest_f64 | _ => real_of h end.
Definition SameMagnitude (f g : spec_float) : Prop :=
  match f, g with
  | S754_nan, _ | _, S754_nan => False
  | S754_infinity _, S754_infinity _ => True
  | S754_infinity _, _ | _, S754_infinity _ => False
  | _, _ => Rabs (real_of f) = Rabs (real_of g)
  end.
Definition Forgiven (f g : spec_float) : Prop :=
  match f, g with
  | S754_nan, _ | _, S754_nan | S754_infinity _, _ | _, S754_infinity _ => False
  | _, _ =>
      let u := Rabs (real_of f) in
      let t := Rabs (real_of g) in
      exists sum, CorrectlyRounded 53 1024 false (u + t) sum /\
        powerRZ 2 (-1022) <= Rabs (u - t) < powerRZ 2 (-52) * finite_or_largest sum
  end.
