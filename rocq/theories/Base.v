(** * Base: characters, strings, parser results

    Rust [char]s are modelled as [N] (Unicode scalar values), Rust [str]s as
    lists of [char]s.  Where the code works with BYTE offsets into a [str]
    (only [unindent_heredoc], lib/src/parser/string.rs:60-83, and
    [parse_slice]) the byte length of a character is taken into account
    explicitly through [utf8_len]. *)
From Coq Require Export String Ascii NArith ZArith Lia Bool List.
Export ListNotations.
Open Scope N_scope.

Notation char := N (only parsing).
Notation str := (list N) (only parsing).

(** ASCII string literals, for keywords and examples. *)
Fixpoint lit (s : string) : str :=
  match s with
  | EmptyString => []
  | String a s' => N_of_ascii a :: lit s'
  end.

(** Character constants (notations, so that arithmetic sees the numerals). *)
Notation c_tab := 9%N (only parsing).
Notation c_lf := 10%N (only parsing).
Notation c_cr := 13%N (only parsing).
Notation c_space := 32%N (only parsing).
Notation c_dquote := 34%N (only parsing).
Notation c_hash := 35%N (only parsing).
Notation c_lparen := 40%N (only parsing).
Notation c_rparen := 41%N (only parsing).
Notation c_star := 42%N (only parsing).
Notation c_plus := 43%N (only parsing).
Notation c_comma := 44%N (only parsing).
Notation c_minus := 45%N (only parsing).
Notation c_dot := 46%N (only parsing).
Notation c_slash := 47%N (only parsing).
Notation c_lt := 60%N (only parsing).
Notation c_eq := 61%N (only parsing).
Notation c_question := 63%N (only parsing).
Notation c_lbracket := 91%N (only parsing).
Notation c_backslash := 92%N (only parsing).
Notation c_rbracket := 93%N (only parsing).
Notation c_underscore := 95%N (only parsing).
Notation c_lbrace := 123%N (only parsing).
Notation c_rbrace := 125%N (only parsing).

(** Content equality of strings ([PartialEq for str]). *)
Fixpoint str_eqb (a b : str) : bool :=
  match a, b with
  | [], [] => true
  | x :: a', y :: b' => (x =? y) && str_eqb a' b'
  | _, _ => false
  end.

(** A Rust [char] is a Unicode scalar value. *)
Definition valid_char (c : char) : bool :=
  (c <? 55296) || ((57344 <=? c) && (c <=? 1114111)).

(** [char::len_utf8] *)
Definition utf8_len (c : char) : nat :=
  if c <? 128 then 1%nat
  else if c <? 2048 then 2%nat
  else if c <? 65536 then 3%nat
  else 4%nat.

(** [char::is_digit(10 / 8 / 16)]: ASCII only (string.rs:23-29 for 16 and 8). *)
Definition is_dec_digit (c : char) : bool := (48 <=? c) && (c <=? 57).
Definition is_oct_digit (c : char) : bool := (48 <=? c) && (c <=? 55).
Definition is_hex_digit (c : char) : bool :=
  is_dec_digit c || ((65 <=? c) && (c <=? 70)) || ((97 <=? c) && (c <=? 102)).

(** ** Unicode tables

    [unic_ucd_ident::is_id_start], [is_id_continue] and
    [char::is_alphanumeric] are table lookups in external code.  Their ASCII
    part is fixed below (and, as UAX #31 defines it, ID_Continue contains
    ID_Start); outside ASCII they are arbitrary functions [U], over
    which every theorem quantifies. *)
Record ucd := mk_ucd {
  u_id_start : char -> bool;
  u_id_continue : char -> bool;
  u_alphanumeric : char -> bool
}.

Definition is_ascii_alpha (c : char) : bool :=
  ((65 <=? c) && (c <=? 90)) || ((97 <=? c) && (c <=? 122)).

Definition is_id_start (U : ucd) (c : char) : bool :=
  if c <? 128 then is_ascii_alpha c else u_id_start U c.

Definition is_id_continue (U : ucd) (c : char) : bool :=
  if c <? 128 then is_ascii_alpha c || is_dec_digit c || (c =? c_underscore)
  else u_id_start U c || u_id_continue U c.

Definition is_alphanumeric (U : ucd) (c : char) : bool :=
  if c <? 128 then is_ascii_alpha c || is_dec_digit c else u_alphanumeric U c.

(** An instance for executable examples: nothing outside ASCII. *)
Definition ascii_ucd : ucd :=
  mk_ucd (fun _ => false) (fun _ => false) (fun _ => false).

(** ** [Cow<'a, str>]

    Equality of [Cow]s is equality of contents in Rust, but whether a [Cow]
    is borrowed from the input is observable through serde
    (lib/src/serde/de.rs:134-142), so the flavour is kept. *)
Inductive cow :=
| Borrowed (s : str)
| Owned (s : str).

Definition cow_str (c : cow) : str :=
  match c with Borrowed s => s | Owned s => s end.

(** ** Parser results

    [nom::IResult<CompleteStr, A>] of nom 4.2.3: [Ok (remaining, value)],
    [Err::Error] (recoverable), [Err::Failure] (unrecoverable).
    [Err::Incomplete] never arises for [CompleteStr] inputs because
    [need_more] yields [Err::Error] when the input is at EOF, which is always
    the case for [CompleteStr].  Of the error contexts only one entry is modelled:
    [Fail at_] is a failure whose context has the entry that [return_error!]
    added, with the input at that place.
    [Panic] is a Rust panic; [OutOfFuel] is not a behaviour of the code: it marks
    that the recursion bound of the model was too small, and is proved never
    to happen for the bounds used by the entry points. *)
Inductive res (A : Type) : Type :=
| Ok (rem : str) (v : A)
| Err
| Fail (at_ : str)
| Panic
| OutOfFuel.
Arguments Ok {A} rem v.
Arguments Err {A}.
Arguments Fail {A} at_.
Arguments Panic {A}.
Arguments OutOfFuel {A}.

Definition parser (A : Type) := str -> res A.

(** Sequencing: the [match] on [IResult] performed by [do_parse!], [tuple!],
    [preceded!], [terminated!], [delimited!] and by [?]. *)
Definition bind {A B} (x : res A) (f : str -> A -> res B) : res B :=
  match x with
  | Ok r v => f r v
  | Err => Err
  | Fail q => Fail q
  | Panic => Panic
  | OutOfFuel => OutOfFuel
  end.

Notation "'let*' ( r , v ) := x 'in' k" :=
  (bind x (fun r v => k))
  (at level 200, r name, v name, x at level 100, k at level 200, right associativity).

Definition map_res {A B} (f : A -> B) (x : res A) : res B :=
  bind x (fun r v => Ok r (f v)).
