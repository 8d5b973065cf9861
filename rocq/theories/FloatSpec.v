(** * FloatSpec: SPECIFICATION of reading decimal text as a binary float

    Real numbers are those of Coq's standard library.  A format has [p] bits of
    significand and exponents below [x]: (24, 128) for [f32], (53, 1024) for [f64]. *)
From Coq Require Import ZArith Reals SpecFloat.
From Verif Require Import Base Ast Grammar.
Open Scope R_scope.

(** The value of a finite float [+/- m * 2^e]. *)
Definition real_of (f : spec_float) : R :=
  match f with
  | S754_finite s m e => (if s then -1 else 1) * IZR (Z.pos m) * powerRZ 2 e
  | _ => 0
  end.
(** The finite floats of a format: zeros, normal numbers (a significand of exactly [p]
    bits) and subnormal ones (a smaller significand, the least exponent). *)
Definition least_exp (p x : Z) : Z := (3 - x - p)%Z.
Definition FiniteFloat (p x : Z) (f : spec_float) : Prop :=
  match f with
  | S754_zero _ => True
  | S754_finite _ m e =>
      ((2 ^ (p - 1) <= Z.pos m < 2 ^ p /\ least_exp p x <= e <= x - p) \/ (Z.pos m < 2 ^ (p - 1) /\ e = least_exp p x))%Z
  | _ => False
  end.
Definition EvenSignificand (f : spec_float) : Prop :=
  match f with S754_finite _ m _ => Z.even (Z.pos m) = true | _ => True end.

(** [f] is a float nearest to [v]; if another one is as near, [f] is the one with the
    even significand. *)
Record Nearest (p x : Z) (v : R) (f : spec_float) : Prop := {
  N_float : FiniteFloat p x f;
  N_near : forall g, FiniteFloat p x g -> Rabs (real_of f - v) <= Rabs (real_of g - v);
  N_tie : forall g, FiniteFloat p x g -> Rabs (real_of f - v) = Rabs (real_of g - v) -> real_of g = real_of f \/ EvenSignificand f }.

(** Half a unit above the largest finite float: from here on the result is infinite. *)
Definition limit (p x : Z) : R := powerRZ 2 x - powerRZ 2 (x - p - 1).

(** [f] is [v] rounded to nearest, ties to even (IEEE 754), with the sign [neg]. *)
Definition CorrectlyRounded (p x : Z) (neg : bool) (v : R) (f : spec_float) : Prop :=
  match f with
  | S754_nan => False
  | S754_infinity s => s = neg /\ limit p x <= Rabs v
  | S754_zero s | S754_finite s _ _ => s = neg /\ Rabs v < limit p x /\ Nearest p x v f
  end.

(** The value of digits, and the number a decimal text stands for; [true]: it has a
    minus sign. *)
Definition digits_real (d : str) : R := IZR (Z.of_N (value 10 0 d)).
Definition part (o : option str) : str := match o with Some d => d | None => [] end.
Inductive ExponentText : str -> Z -> Prop :=
| ET_none : ExponentText [] 0
| ET_some e b sg d : e = 101%N \/ e = 69%N -> Sign b sg -> d <> [] -> Digits d ->
    ExponentText ([e] ++ sg ++ d) (if b then Z.of_N (value 10 0 d) else - Z.of_N (value 10 0 d)).
Inductive DecimalText : str -> bool -> R -> Prop :=
| DT b sg w f m k xt : Sign b sg -> Mantissa w f m -> ExponentText xt k ->
    DecimalText (sg ++ m ++ xt) (negb b)
      ((if b then 1 else -1) * (digits_real (part w) + digits_real (part f) / 10 ^ length (part f)) * powerRZ 10 k).

(** An [f64] made an [f32]. *)
Definition sign_bit (f : spec_float) : bool := match f with S754_zero s | S754_infinity s | S754_finite s _ _ => s | S754_nan => false end.
Definition Narrowed (f g : spec_float) : Prop :=
  match f with
  | S754_nan | S754_infinity _ => g = f
  | _ => CorrectlyRounded 24 128 (sign_bit f) (real_of f) g
  end.
