(** * Errors: conversion of nom errors into the crate's [Error] (lib/src/errors.rs)

    The texts made by [format!("{:#}", err)] are left as a parameter ([display]);
    nothing else is abstracted. *)
From Verif Require Import Base Utf8.

(** errors.rs:247-279 [enum_number! InternalKind]: the variants and their numbers *)
Inductive internal_kind := InvalidUnicodeCodePoint | InvalidUnicode | InvalidNumber.
(** errors.rs:266-270 [From<InternalKind> for u32] *)
Definition kind_to_u32 (k : internal_kind) : N :=
  match k with InvalidUnicodeCodePoint => 0 | InvalidUnicode => 1 | InvalidNumber => 2 end.
(** errors.rs:256-263 [InternalKind::from_u32] *)
Definition kind_from_u32 (n : N) : option internal_kind :=
  match n with
  | 0 => Some InvalidUnicodeCodePoint
  | 1 => Some InvalidUnicode
  | 2 => Some InvalidNumber
  | _ => None
  end.

(** errors.rs:10-70 [Error].  Payloads are strings or bytes; the io and UTF-8 errors
    carry an arbitrary cause. *)
Inductive error (IoE Utf8E : Type) :=
| EInvalidUnicodeCodePoint (s : str)
| EInvalidNumber (s : str)
| EInvalidUnicode (b : list N)
| EParseError (s : str)
| EIllegalMultipleEntries (key variant : str)
| EErrorMergingKeys (key existing incoming : str)
| EUnexpectedVariant (enum_type expected actual : str)
| EIOError (e : IoE)
| EInvalidUnicodeToParse (e : Utf8E)
| EUnexpectedRemainingInput (s : str)
| EBug (s : str).
Arguments EInvalidUnicodeCodePoint {IoE Utf8E} s.
Arguments EInvalidNumber {IoE Utf8E} s.
Arguments EInvalidUnicode {IoE Utf8E} b.
Arguments EParseError {IoE Utf8E} s.
Arguments EIllegalMultipleEntries {IoE Utf8E} key variant.
Arguments EErrorMergingKeys {IoE Utf8E} key existing incoming.
Arguments EUnexpectedVariant {IoE Utf8E} enum_type expected actual.
Arguments EIOError {IoE Utf8E} e.
Arguments EInvalidUnicodeToParse {IoE Utf8E} e.
Arguments EUnexpectedRemainingInput {IoE Utf8E} s.
Arguments EBug {IoE Utf8E} s.

(** nom 4.2.3 (external): [ErrorKind<E>] is either [Custom(e)] or one of the built in
    kinds, here its [description()], the only thing the crate reads of it;
    [verbose_errors::Context]; [Err]. *)
Inductive error_kind (E : Type) := KCustom (e : E) | KNom (description : str).
Arguments KCustom {E} e.
Arguments KNom {E} description.
Inductive context (I E : Type) := CCode (i : I) (k : error_kind E) | CList (l : list (I * error_kind E)).
Arguments CCode {I E} i k.
Arguments CList {I E} l.
Inductive nom_err (I E : Type) := NIncomplete (needed : option nat) | NError (c : context I E) | NFailure (c : context I E).
Arguments NIncomplete {I E} needed.
Arguments NError {I E} c.
Arguments NFailure {I E} c.

Section Convert.
Context {IoE Utf8E I : Type}.
Notation error := (error IoE Utf8E).

(** errors.rs:210-231 [from_input_and_code] *)
Definition from_input_and_code (as_bytes : I -> list N) (convert : I -> option str) (input : I) (code : N) : option error :=
  match kind_from_u32 code with
  | Some InvalidUnicodeCodePoint =>
      Some (EInvalidUnicodeCodePoint (match convert input with Some s => s | None => lit "UNKNOWN" end))
  | Some InvalidUnicode => Some (EInvalidUnicode (as_bytes input))
  | Some InvalidNumber =>
      Some (EInvalidNumber (match convert input with Some s => s | None => lit "UNKNOWN" end))
  | None => None
  end.

(** [slice::last] *)
Definition last_opt {A} (l : list A) : option A := match rev l with [] => None | x :: _ => Some x end.

(** errors.rs:148-167 [from_context] *)
Definition from_context (as_bytes : I -> list N) (convert : I -> option str) (c : context I N) : option error :=
  match c with
  | CCode input (KCustom code) => from_input_and_code as_bytes convert input code
  | CList l =>
      match last_opt l with
      | Some (input, KCustom code) => from_input_and_code as_bytes convert input code
      | _ => None
      end
  | _ => None
  end.

(** errors.rs:98-111 [from_err]; [display e] is the text [format!("{:#}", e)]
    (errors.rs:73-76 [new_generic] for the second arm) *)
Definition from_err (as_bytes : I -> list N) (display : nom_err I N -> str) (convert : I -> option str) (e : nom_err I N) : error :=
  match e with
  | NFailure c =>
      match from_context as_bytes convert c with
      | Some e' => e'
      | None => EParseError (display e)
      end
  | e => EParseError (display e)
  end.
(** errors.rs:78-88 [from_err_bytes] *)
Definition from_err_bytes (as_bytes : I -> list N) (display : nom_err I N -> str) (e : nom_err I N) : error :=
  from_err as_bytes display (fun i => from_utf8 (as_bytes i)) e.
(** errors.rs:90-96 [from_err_str]; [as_ref] is [AsRef<str>] *)
Definition from_err_str (as_bytes : I -> list N) (as_ref : I -> str) (display : nom_err I N -> str) (e : nom_err I N) : error :=
  from_err as_bytes display (fun i => Some (as_ref i)) e.

(** errors.rs:185-189 and 192-203: the new kind of one entry.  [Display] of a plain
    string is that string. *)
Definition convert_kind (as_bytes : I -> list N) (convert : I -> option str) (input : I) (k : error_kind N) : error_kind error :=
  KCustom (match k with
           | KCustom code =>
               match from_input_and_code as_bytes convert input code with
               | Some e => e
               | None => EParseError (lit "UNKNOWN")
               end
           | KNom d => EParseError d
           end).
(** errors.rs:169-208 [convert_context] *)
Definition convert_context (as_bytes : I -> list N) (convert : I -> option str) (c : context I N) : context I error :=
  match c with
  | CCode input k => CCode input (convert_kind as_bytes convert input k)
  | CList l => CList (map (fun ik => (fst ik, convert_kind as_bytes convert (fst ik) (snd ik))) l)
  end.
(** errors.rs:113-128 [make_custom_error] *)
Definition make_custom_error (as_bytes : I -> list N) (convert : I -> option str) (e : nom_err I N) : nom_err I error :=
  match e with
  | NIncomplete n => NIncomplete n
  | NError c => NError (convert_context as_bytes convert c)
  | NFailure c => NFailure (convert_context as_bytes convert c)
  end.
(** errors.rs:130-135 [make_custom_err_str] and the macro [map_err_str!] (macros.rs:8-15) *)
Definition make_custom_err_str (as_bytes : I -> list N) (as_ref : I -> str) (e : nom_err I N) : nom_err I error :=
  make_custom_error as_bytes (fun i => Some (as_ref i)) e.
(** errors.rs:137-146 [make_custom_err_bytes] and the macro [map_err!] (macros.rs:24-31) *)
Definition make_custom_err_bytes (as_bytes : I -> list N) (e : nom_err I N) : nom_err I error :=
  make_custom_error as_bytes (fun i => from_utf8 (as_bytes i)) e.
End Convert.

(** errors.rs:234-244 [From<io::Error>], [From<Utf8Error>] for [Error] *)
Definition error_from_io {IoE Utf8E} (e : IoE) : error IoE Utf8E := EIOError e.
Definition error_from_utf8 {IoE Utf8E} (e : Utf8E) : error IoE Utf8E := EInvalidUnicodeToParse e.
