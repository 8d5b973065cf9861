(** * FloatConv: numbers made from and read as floats of both sizes
    (lib/src/parser/number.rs)

    The text that Rust prints for a float ([Display], external code) is a parameter
    [show] of the model; PropFloat.v says what is assumed of it. *)
From Coq Require Import ZArith SpecFloat.
From Verif Require Import Base Ast NumConv.
Open Scope Z_scope.

(** [<f32 as FromStr>::from_str], [<f64 as FromStr>::from_str] (external code): as
    [f64_from_str] of NumConv.v, for a format of [p] bits of precision and exponents
    below [x]. *)
Section Format.
Variables p x : Z.
Definition round_dec (neg : bool) (m e : Z) : spec_float :=
  match m with
  | Zpos _ =>
      if 0 <=? e then
        match m * 10 ^ e with
        | Zpos q => binary_round p x neg q 0
        | _ => S754_zero neg
        end
      else
        let '(mz, ez, lz) := SFdiv_core_binary p x m 0 (10 ^ (- e)) 0 in
        binary_round_aux p x neg mz ez lz
  | _ => S754_zero neg
  end.
Definition float_decimal (s : str) : option spec_float :=
  let '(neg, s1) := sign_of s in
  let '(w, s2) := digits_span s1 in
  let '(f, s3) :=
    match s2 with
    | c :: s2' => if N.eqb c c_dot then digits_span s2' else ([], s2)
    | [] => ([], [])
    end in
  match w ++ f with
  | [] => None
  | _ =>
      let m := dec_value (w ++ f) in
      let k := Z.of_nat (length f) in
      match s3 with
      | [] => Some (round_dec neg m (- k))
      | c :: s4 =>
          if N.eqb c 101 || N.eqb c 69 then
            let '(eneg, s5) := sign_of s4 in
            let '(x, s6) := digits_span s5 in
            match x, s6 with
            | _ :: _, [] => Some (round_dec neg m ((if eneg then - dec_value x else dec_value x) - k))
            | _, _ => None
            end
          else None
      end
  end.

Definition float_from_str (s : str) : option spec_float :=
  match float_decimal s with Some f => Some f | None => f64_special s end.

(** number.rs:105-131 [as_f32], [as_f64]: [self.input.parse()] *)
Definition as_float (n : number_t) : option spec_float := float_from_str (cow_str (num_input n)).

(** [str::split(".")]: the parts between the points, at least one *)
Fixpoint split_dot (s : str) : list str :=
  match s with
  | [] => [[]]
  | c :: s' =>
      match split_dot s' with
      | part :: parts => if N.eqb c c_dot then [] :: part :: parts else (c :: part) :: parts
      | [] => []
      end
  end.

(** number.rs:85-103 [From<f32>], [From<f64>].  The constant [-1.0] is the significand
    [2^(p-1)] scaled back. *)
Definition minus_one : spec_float := S754_finite true (Z.to_pos (2 ^ (p - 1))) (- (p - 1)).
Definition from_float (show : spec_float -> str) (n : spec_float) : number_t :=
  let string := if SFleb (S754_zero false) n then show n else show (SFmul p x n minus_one) in
  let parts := split_dot string in
  let whole := option_map Owned (nth_error parts 0) in
  let fraction := option_map Owned (nth_error parts 1) in
  mk_number (Owned (show n)) (SFleb (S754_zero false) n) whole fraction None.
End Format.
Notation as_f32 := (as_float 24 128).
Notation from_f32 := (from_float 24 128).
Notation from_f64 := (from_float 53 1024).
