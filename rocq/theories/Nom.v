(** * Nom: the nom 4.2.3 combinators used by the crate (external code)

    These are the macros and functions of nom 4.2.3 on [CompleteStr] input,
    as used in lib/src/parser/*.rs.  nom's source is not part of the
    repository; see DESIGN.md for how each one was pinned down. *)
From Verif Require Import Base.

(** Prefix test of [Compare<&str> for &str], and [tag!]. *)
Fixpoint strip_prefix (t s : str) : option str :=
  match t, s with
  | [], _ => Some s
  | x :: t', y :: s' => if x =? y then strip_prefix t' s' else None
  | _ :: _, [] => None
  end.

Definition tag (t : str) : parser str := fun s =>
  match strip_prefix t s with
  | Some r => Ok r t
  | None => Err
  end.

(** [char!] *)
Definition char_p (c : char) : parser char := fun s =>
  match s with
  | x :: r => if x =? c then Ok r c else Err
  | [] => Err
  end.

(** Longest prefix satisfying a predicate, and the rest
    ([InputTakeAtPosition::split_at_position] with the negated predicate). *)
Fixpoint span (p : char -> bool) (s : str) : str * str :=
  match s with
  | [] => ([], [])
  | c :: s' =>
      if p c then let (a, b) := span p s' in (c :: a, b) else ([], s)
  end.

(** [take_while!] / [split_at_position]: never fails on [CompleteStr]. *)
Definition take_while (p : char -> bool) : parser str := fun s =>
  let (a, b) := span p s in Ok b a.

(** [take_while1!] / [split_at_position1] *)
Definition take_while1 (p : char -> bool) : parser str := fun s =>
  match span p s with
  | ([], _) => Err
  | (a, b) => Ok b a
  end.

(** [take_while_m_n!] for predicates accepting only ASCII characters (the
    only use in the crate), where byte and character counts coincide. *)
Definition take_while_m_n (m n : nat) (p : char -> bool) : parser str := fun s =>
  let (a, _) := span p s in
  if Nat.leb m (length a)
  then Ok (skipn (Nat.min n (length a)) s) (firstn (Nat.min n (length a)) s)
  else Err.

(** [find_substring] and [take_until!] (the delimiter is not consumed). *)
Fixpoint find_split (t s : str) : option (str * str) :=
  match strip_prefix t s with
  | Some _ => Some ([], s)
  | None =>
      match s with
      | [] => None
      | c :: s' =>
          match find_split t s' with
          | Some (a, b) => Some (c :: a, b)
          | None => None
          end
      end
  end.

Definition take_until (t : str) : parser str := fun s =>
  match find_split t s with
  | Some (a, b) => Ok b a
  | None => Err
  end.

(** [alt!] and [alt_complete!] with two branches (nested for more): the next
    branch is tried on [Err::Error] only; a [Failure] is returned as is. *)
Definition alt {A} (p q : parser A) : parser A := fun s =>
  match p s with
  | Err => q s
  | r => r
  end.

(** [opt!] *)
Definition opt {A} (p : parser A) : parser (option A) := fun s =>
  match p s with
  | Ok r v => Ok r (Some v)
  | Err => Ok s None
  | Fail q => Fail q
  | Panic => Panic
  | OutOfFuel => OutOfFuel
  end.

(** [peek!] *)
Definition peek {A} (p : parser A) : parser A := fun s =>
  bind (p s) (fun _ v => Ok s v).

(** [recognize!]: the consumed prefix of the input ([Offset] + [Slice]). *)
Definition recognize {A} (p : parser A) : parser str := fun s =>
  bind (p s) (fun r _ => Ok r (firstn (length s - length r) s)).

(** [verify!] *)
Definition verify {A} (p : parser A) (f : A -> bool) : parser A := fun s =>
  bind (p s) (fun r v => if f v then Ok r v else Err).

(** [eof!] *)
Definition eof : parser str := fun s =>
  match s with
  | [] => Ok [] []
  | _ => Err
  end.

(** [map!] / [alt!(p => { f })] *)
Definition pmap {A B} (f : A -> B) (p : parser A) : parser B := fun s =>
  map_res f (p s).

(** [delimited!], [preceded!], [terminated!] *)
Definition preceded {A B} (p : parser A) (q : parser B) : parser B := fun s =>
  bind (p s) (fun r _ => q r).
Definition terminated {A B} (p : parser A) (q : parser B) : parser A := fun s =>
  bind (p s) (fun r v => bind (q r) (fun r' _ => Ok r' v)).
Definition delimited {A B C} (p : parser A) (q : parser B) (t : parser C) : parser B :=
  fun s => bind (p s) (fun r _ => bind (q r) (fun r' v => bind (t r') (fun r'' _ => Ok r'' v))).

(** [exact!] *)
Definition exact {A} (p : parser A) : parser A := terminated p eof.

(** [return_error!]: turns an error into a [Failure] whose context records the input
    the macro was applied to. *)
Definition return_error {A} (p : parser A) : parser A := fun s =>
  match p s with
  | Err | Fail _ => Fail s
  | r => r
  end.

(** [many0!]: an iteration that consumes nothing ends the loop successfully
    (its value is dropped) because [CompleteStr] is always at EOF. *)
Fixpoint many0_loop {A} (fuel : nat) (p : parser A) (s : str) : res (list A) :=
  match fuel with
  | O => OutOfFuel
  | S f =>
      match p s with
      | Ok r v =>
          if str_eqb r s then Ok s []
          else map_res (cons v) (many0_loop f p r)
      | Err => Ok s []
      | Fail q => Fail q
      | Panic => Panic
      | OutOfFuel => OutOfFuel
      end
  end.

Definition many0 {A} (p : parser A) : parser (list A) := fun s =>
  many0_loop (S (length s)) p s.

(** [many1!]: the first application must succeed; then as [many0!]. *)
Definition many1 {A} (p : parser A) : parser (list A) := fun s =>
  bind (p s) (fun r v => map_res (cons v) (many0_loop (S (length r)) p r)).

(** [separated_list!] *)
Fixpoint sep_loop {A B} (fuel : nat) (sep : parser B) (p : parser A) (s : str)
  : res (list A) :=
  match fuel with
  | O => OutOfFuel
  | S f =>
      match sep s with
      | Ok s2 _ =>
          if Nat.eqb (length s2) (length s) then Ok s []
          else
            match p s2 with
            | Ok s3 v =>
                if Nat.eqb (length s3) (length s2) then Err
                else map_res (cons v) (sep_loop f sep p s3)
            | Err => Ok s []
            | Fail q => Fail q
            | Panic => Panic
            | OutOfFuel => OutOfFuel
            end
      | Err => Ok s []
      | Fail q => Fail q
      | Panic => Panic
      | OutOfFuel => OutOfFuel
      end
  end.

Definition separated_list {A B} (sep : parser B) (p : parser A) : parser (list A) :=
  fun s =>
    match p s with
    | Ok r v =>
        if Nat.eqb (length r) (length s) then Err
        else map_res (cons v) (sep_loop (S (length r)) sep p r)
    | Err => Ok s []
    | Fail q => Fail q
    | Panic => Panic
    | OutOfFuel => OutOfFuel
    end.

(** [nom::eol] ([line_ending]): ["\n"] or ["\r\n"]. *)
Definition eol : parser str := alt (tag [c_lf]) (tag [c_cr; c_lf]).

(** [nom::space0]: spaces and tabs. *)
Definition space0 : parser str :=
  take_while (fun c => (c =? c_space) || (c =? c_tab)).

(** [nom::digit] *)
Definition digit : parser str := take_while1 is_dec_digit.

(** [eat_separator!] *)
Definition eat_separator (chars : str) : parser str :=
  take_while (fun c => existsb (N.eqb c) chars).

(** [escaped_transform!(take_while1!(normal), '\\', transform)].  Each round
    consumes a run of normal characters or one control character plus what
    the transformer consumes; any other character ends the string. *)
Fixpoint escaped_loop (fuel : nat) (normal : char -> bool) (transform : parser str)
  (s : str) : res str :=
  match fuel with
  | O => OutOfFuel
  | S f =>
      match s with
      | [] => Ok [] []
      | c :: s' =>
          match span normal s with
          | (a :: a', b) => map_res (app (a :: a')) (escaped_loop f normal transform b)
          | ([], _) =>
              if c =? c_backslash then
                match s' with
                | [] => Err
                | _ =>
                    bind (transform s') (fun r o =>
                      map_res (app o) (escaped_loop f normal transform r))
                end
              else Ok s []
          end
      end
  end.

Definition escaped_transform (normal : char -> bool) (transform : parser str)
  : parser str := fun s => escaped_loop (S (length s)) normal transform s.
