(** * NumConv: conversions and comparison of numbers (lib/src/parser/number.rs) *)
From Coq Require Import SpecFloat.
From Verif Require Import Base Ast.
Open Scope Z_scope.

(** ** Rust's integer types *)
Inductive int_ty := U8 | U16 | U32 | U64 | U128 | I8 | I16 | I32 | I64 | I128.
Definition ty_signed (t : int_ty) : bool :=
  match t with U8 | U16 | U32 | U64 | U128 => false | _ => true end.
Definition ty_bits (t : int_ty) : Z :=
  match t with
  | U8 | I8 => 8 | U16 | I16 => 16 | U32 | I32 => 32 | U64 | I64 => 64 | U128 | I128 => 128
  end.
Definition ty_min (t : int_ty) : Z := if ty_signed t then - 2 ^ (ty_bits t - 1) else 0.
Definition ty_max (t : int_ty) : Z :=
  if ty_signed t then 2 ^ (ty_bits t - 1) - 1 else 2 ^ ty_bits t - 1.

(** Checked arithmetic: [None] on overflow. *)
Definition checked (t : int_ty) (z : Z) : option Z :=
  if (ty_min t <=? z) && (z <=? ty_max t) then Some z else None.

(** ** [<int as FromStr>::from_str] (external code: [from_str_radix(s, 10)]): a
    [+] is accepted for every type, a [-] for signed types only; each step of the
    accumulation is checked. *)
Fixpoint parse_digits (t : int_ty) (neg : bool) (acc : Z) (s : str) : option Z :=
  match s with
  | [] => Some acc
  | c :: s' =>
      if is_dec_digit c then
        match checked t (acc * 10) with
        | None => None
        | Some a =>
            let d := Z.of_N (c - 48) in
            match checked t (if neg then a - d else a + d) with
            | None => None
            | Some a' => parse_digits t neg a' s'
            end
        end
      else None
  end.
Definition int_from_str (t : int_ty) (s : str) : option Z :=
  match s with
  | [] => None
  | c :: s' =>
      let '(neg, ds) :=
        if N.eqb c c_plus then (false, s')
        else if N.eqb c c_minus && ty_signed t then (true, s')
        else (false, s) in
      match ds with
      | [] => None
      | _ => parse_digits t neg 0 ds
      end
  end.

(** number.rs:105-132 [as_u8] ... [as_i128] *)
Definition as_int (t : int_ty) (n : number_t) : option Z := int_from_str t (cow_str (num_input n)).

(** ** Classification *)
(** number.rs:44-47 *)
Definition is_signed (n : number_t) : bool :=
  match num_fraction n, num_exponent n with None, None => true | _, _ => false end.
(** number.rs:49-52 *)
Definition is_unsigned (n : number_t) : bool := is_signed n && num_positive n.
(** number.rs:54-57 *)
Definition is_float (n : number_t) : bool := negb (is_signed n).

(** ** [to_string] of integers (external code: [fmt::Display]): digits are
    produced from the least significant one. The fuel is enough (proved). *)
Fixpoint dec_loop (fuel : nat) (n : N) (acc : str) : str :=
  match fuel with
  | O => acc
  | S f =>
      let acc' := ((48 + n mod 10) :: acc)%N in
      if (n / 10 =? 0)%N then acc' else dec_loop f (n / 10)%N acc'
  end.
Definition dec_str (n : N) : str := dec_loop (S (N.size_nat n)) n [].
Definition int_to_string (z : Z) : str :=
  if z <? 0 then c_minus :: dec_str (Z.abs_N z) else dec_str (Z.abs_N z).

(** ** [From<int>]: number.rs:59-82.  [None] is a panic: [n.abs()] overflows for
    the smallest value of a signed type, which panics when overflow checks are on
    ([checks]) and wraps to the value itself otherwise. *)
Definition from_uint (z : Z) : number_t :=
  mk_number (Owned (int_to_string z)) true (Some (Owned (int_to_string z))) None None.
Definition int_abs (checks : bool) (t : int_ty) (z : Z) : option Z :=
  if z =? ty_min t then (if checks then None else Some z) else Some (Z.abs z).
Definition from_sint (checks : bool) (t : int_ty) (z : Z) : option number_t :=
  match int_abs checks t z with
  | None => None
  | Some a =>
      Some (mk_number (Owned (int_to_string z)) (0 <=? z) (Some (Owned (int_to_string a))) None None)
  end.
Definition number_from (checks : bool) (t : int_ty) (z : Z) : option number_t :=
  if ty_signed t then from_sint checks t z else Some (from_uint z).

(** ** [<f64 as FromStr>::from_str] (external code), for decimal literals:
    the nearest double, ties to even, of the decimal value.  ([f64_special], below: the
    texts Rust prints for infinities and NaN; newer releases also read other spellings
    of them, which no number of this crate has.) *)
Notation prec := 53 (only parsing).
Notation emax := 1024 (only parsing).
Definition dec_value (d : str) : Z := fold_left (fun a c => a * 10 + Z.of_N (c - 48)) d 0.
Definition round_decimal (neg : bool) (m e : Z) : spec_float :=
  match m with
  | Zpos p =>
      if 0 <=? e then
        match m * 10 ^ e with
        | Zpos q => binary_round prec emax neg q 0
        | _ => S754_zero neg
        end
      else
        let '(mz, ez, lz) := SFdiv_core_binary prec emax m 0 (10 ^ (- e)) 0 in
        binary_round_aux prec emax neg mz ez lz
  | _ => S754_zero neg
  end.
Fixpoint digits_span (s : str) : str * str :=
  match s with
  | [] => ([], [])
  | c :: s' => if is_dec_digit c then let (a, b) := digits_span s' in (c :: a, b) else ([], s)
  end.
Definition sign_of (s : str) : bool * str :=
  match s with
  | c :: s' => if N.eqb c c_plus then (false, s') else if N.eqb c c_minus then (true, s') else (false, s)
  | [] => (false, [])
  end.
Definition f64_decimal (s : str) : option spec_float :=
  let '(neg, s1) := sign_of s in
  let '(w, s2) := digits_span s1 in
  let '(f, s3) :=
    match s2 with
    | c :: s2' => if N.eqb c c_dot then digits_span s2' else ([], s2)
    | [] => ([], [])
    end in
  match w ++ f with
  | [] => None
  | _ =>
      let m := dec_value (w ++ f) in
      let k := Z.of_nat (length f) in
      match s3 with
      | [] => Some (round_decimal neg m (- k))
      | c :: s4 =>
          if N.eqb c 101 || N.eqb c 69 then
            let '(eneg, s5) := sign_of s4 in
            let '(x, s6) := digits_span s5 in
            match x, s6 with
            | _ :: _, [] =>
                Some (round_decimal neg m ((if eneg then - dec_value x else dec_value x) - k))
            | _, _ => None
            end
          else None
      end
  end.

Definition f64_special (s : str) : option spec_float :=
  let '(neg, s1) := sign_of s in
  if str_eqb s1 (lit "inf") then Some (S754_infinity neg)
  else if str_eqb s1 (lit "NaN") then Some S754_nan
  else None.
Definition f64_from_str (s : str) : option spec_float :=
  match f64_decimal s with Some f => Some f | None => f64_special s end.

(** number.rs:105-134 [as_f64] *)
Definition as_f64 (n : number_t) : option spec_float := f64_from_str (cow_str (num_input n)).

(** [std::f64] constants *)
Definition f64_MIN_POSITIVE : spec_float := S754_finite false 4503599627370496 (-1074).
Definition f64_EPSILON : spec_float := S754_finite false 4503599627370496 (-104).
Definition f64_MAX : spec_float := S754_finite false 9007199254740991 971.
(** [f64::min]: the other operand when one is NaN *)
Definition f64_min (a b : spec_float) : spec_float :=
  match a, b with
  | S754_nan, _ => b
  | _, S754_nan => a
  | _, _ => if SFltb a b then a else b
  end.

(** ** [PartialEq for Number]: number.rs:158-202 *)
Definition float_eq (a b : spec_float) : bool :=
  let us := SFabs a in
  let them := SFabs b in
  let diff := SFabs (SFsub prec emax us them) in
  if SFeqb us them then true
  else if SFeqb us (S754_zero false) || SFeqb them (S754_zero false) || SFltb diff f64_MIN_POSITIVE
  then SFltb diff (SFmul prec emax f64_EPSILON f64_MIN_POSITIVE)
  else SFltb (SFdiv prec emax diff (f64_min (SFadd prec emax us them) f64_MAX)) f64_EPSILON.

Definition number_eq (a b : number_t) : bool :=
  if is_float a || is_float b then
    match as_f64 a, as_f64 b with
    | Some us, Some them => float_eq us them
    | _, _ => false
    end
  else if is_unsigned a && is_unsigned b then
    match as_int U128 a, as_int U128 b with
    | Some us, Some them => us =? them
    | _, _ => false
    end
  else
    match as_int I128 a, as_int I128 b with
    | Some us, Some them => us =? them
    | _, _ => false
    end.

(** ** [Hash for Number]: derived (number.rs:13, 205): what is fed to the hasher is
    the content of every field. *)
Definition number_hash_input (n : number_t)
  : str * bool * option str * option str * option (bool * str) :=
  (cow_str (num_input n), num_positive n, option_map cow_str (num_whole n),
   option_map cow_str (num_fraction n),
   option_map (fun e => (exp_positive e, cow_str (exp_digits e))) (num_exponent n)).
