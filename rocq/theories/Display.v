(** * Display: the texts of the errors

    The [Display] implementations that [#[derive(Fail)]] makes from the [#[fail(display = ...)]]
    attributes of lib/src/errors.rs, lib/src/serde/de.rs and cli/src/error.rs: the format string
    with its holes filled.  The texts of errors of the standard library (io, UTF-8,
    [ParseIntError], [ParseFloatError]) are parameters. *)
From Coq Require Import ZArith.
From Verif Require Import Base Utf8 NumConv Kvp Value Errors Access.
Open Scope list_scope.

(** [Display] of an unsigned number: NumConv.v *)
Definition show_nat (n : nat) : str := int_to_string (Z.of_nat n).
(** [{:#?}] of a [Vec<u8>] (the standard library; the last line ends in a comma since Rust 1.35) *)
Definition debug_bytes (b : list N) : str :=
  match b with
  | [] => lit "[]"
  | _ => lit "[" ++ [c_lf] ++ flat_map (fun x => lit "    " ++ int_to_string (Z.of_N x) ++ lit "," ++ [c_lf]) b ++ lit "]"
  end.

(** errors.rs:10-70 *)
Definition display_error {IoE Utf8E} (io : IoE -> str) (u8 : Utf8E -> str) (e : error IoE Utf8E) : str :=
  match e with
  | EInvalidUnicodeCodePoint s => lit "Invalid Unicode Code Points \" ++ s
  | EInvalidNumber s => lit "Invalid Number " ++ s
  | EInvalidUnicode b => lit "Bytes contain invalid unicode: " ++ debug_bytes b
  | EParseError s => lit "Generic Parse Error " ++ s
  | EIllegalMultipleEntries key variant =>
      lit "Variant " ++ variant ++ lit " does not allow multiple values with the same key " ++ key
  | EErrorMergingKeys key existing incoming =>
      lit "Error merging key " ++ key ++ lit " into `Value`: existing value of variant " ++ existing ++
      lit " cannot be merged with variant " ++ incoming
  | EUnexpectedVariant enum_type expected actual =>
      lit "Expected type " ++ enum_type ++ lit " to be of variant " ++ expected ++ lit " but got " ++ actual ++ lit " instead"
  | EIOError c => lit "IO Error: " ++ io c
  | EInvalidUnicodeToParse c => lit "Bytes to be parsed is invalid UTF-8: " ++ u8 c
  | EUnexpectedRemainingInput s => lit "Expected all input to be consumed, but the following remains: " ++ s
  | EBug s => lit "Possible bug with the library encountered: " ++ s ++
      lit "; Please report to https://github.com/lawliet89/ferrous-chloride/issues"
  end.

(** serde/de.rs:26-57 *)
Inductive de_error_full (IoE Utf8E IntE FloatE : Type) :=
| DParseError (e : error IoE Utf8E)
| DParseIntError (e : IntE)
| DParseFloatError (e : FloatE)
| DTrailingCharacters
| DOverflow (t : str)
| DInvalidTupleLength (expected actual : nat)
| DObjectDuplicateKey (k : str)
| DBodyDuplicateKey (k : str)
| DCustom (s : str).
Arguments DParseError {IoE Utf8E IntE FloatE} e.
Arguments DParseIntError {IoE Utf8E IntE FloatE} e.
Arguments DParseFloatError {IoE Utf8E IntE FloatE} e.
Arguments DTrailingCharacters {IoE Utf8E IntE FloatE}.
Arguments DOverflow {IoE Utf8E IntE FloatE} t.
Arguments DInvalidTupleLength {IoE Utf8E IntE FloatE} expected actual.
Arguments DObjectDuplicateKey {IoE Utf8E IntE FloatE} k.
Arguments DBodyDuplicateKey {IoE Utf8E IntE FloatE} k.
Arguments DCustom {IoE Utf8E IntE FloatE} s.
(** serde/de.rs:26-57, and 107-111 [Display for Compat], which passes on *)
Definition display_de {IoE Utf8E IntE FloatE} (io : IoE -> str) (u8 : Utf8E -> str) (ie : IntE -> str) (fe : FloatE -> str)
  (e : de_error_full IoE Utf8E IntE FloatE) : str :=
  match e with
  | DParseError e => lit "HCL parse error: " ++ display_error io u8 e
  | DParseIntError e => lit "Error parsing integer: " ++ ie e
  | DParseFloatError e => lit "Error parsing float: " ++ fe e
  | DTrailingCharacters => lit "Input was not completely consumed during deserialization."
  | DOverflow t => lit "Overflow when trying to convert to " ++ t
  | DInvalidTupleLength expected actual => lit "Invalid tuple length. Expected " ++ show_nat expected ++ lit ", got " ++ show_nat actual
  | DObjectDuplicateKey k => lit "Object has duplicate key " ++ k
  | DBodyDuplicateKey k => lit "Body has duplicate key " ++ k
  | DCustom s => s
  end.
(** serde/de.rs:98-105 [serde::de::Error::custom]: [msg] is what the argument displays as *)
Definition de_custom {IoE Utf8E IntE FloatE} (msg : str) : de_error_full IoE Utf8E IntE FloatE := DCustom msg.

(** cli/src/error.rs:3-11 *)
Inductive cli_error (IoE Utf8E : Type) := LParserError (e : error IoE Utf8E) | LIOError (e : IoE) | LUnknownCommand (s : str).
Arguments LParserError {IoE Utf8E} e.
Arguments LIOError {IoE Utf8E} e.
Arguments LUnknownCommand {IoE Utf8E} s.
Definition display_cli {IoE Utf8E} (io : IoE -> str) (u8 : Utf8E -> str) (e : cli_error IoE Utf8E) : str :=
  match e with
  | LParserError e => lit "Parser error: " ++ display_error io u8 e
  | LIOError e => lit "IO Error: " ++ io e
  | LUnknownCommand s => lit "Unknown command: " ++ s
  end.
(** cli/src/error.rs:13-23 *)
Definition cli_from_error {IoE Utf8E} (e : error IoE Utf8E) : cli_error IoE Utf8E := LParserError e.
Definition cli_from_io {IoE Utf8E} (e : IoE) : cli_error IoE Utf8E := LIOError e.

(** constants.rs:1-10: the names *)
Definition name_of (v : variant) : str :=
  match v with
  | NNull => c_null | NInteger => c_integer | NFloat => c_float | NBoolean => c_boolean
  | NString => c_string | NList => c_list | NObject => c_object | NBlock => c_block
  end.
(** value.rs:804-807, 814-818, 827-831: the errors of merging with their texts *)
Definition of_merge_error {IoE Utf8E} (e : merge_error) : error IoE Utf8E :=
  match e with
  | IllegalMultipleEntries k v => EIllegalMultipleEntries k (name_of v)
  | ErrorMergingKeys k a b => EErrorMergingKeys k (name_of a) (name_of b)
  end.
