(** * OldParser: the parser behind [value::from_str] (lib/src/parser.rs:48-153) *)
From Coq Require Import SpecFloat ZArith.
From Verif Require Import Base Nom Ast Lex NumConv Utf8 Parser Kvp Value.
Close Scope Z_scope.

(** ** lib/src/parser/literals *)

(** [nom::recognize_float] (external code) *)
Definition recognize_float : parser str :=
  recognize (fun s =>
    let* (r1, _s) := opt sign_char s in
    let* (r2, _m) := mantissa r1 in
    let* (r3, _e) := exponent r2 in
    Ok r3 tt).

(** literals/number.rs:7-12 [Number], 25-39 [FromStr for Number], and 14-23 the conversion to [Value] *)
Definition literal_from_str (t : str) : option value :=
  match int_from_str I64 t with
  | Some i => Some (VInteger i)
  | None =>
      match f64_from_str t with
      | Some f => Some (VFloat f)
      | None => None
      end
  end.

(** literals/number.rs:53-56 *)
Definition literal_number : parser value := fun s =>
  let* (r, t) := recognize_float s in
  match literal_from_str t with
  | Some v => Ok r v
  | None => Err
  end.

(** literals/key.rs:98-104 *)
Definition literal_key (U : ucd) : parser key :=
  alt (pmap (fun c => KeyIdent (cow_str c)) (identifier U)) (pmap KeyString string_literal).

(** ** lib/src/parser.rs *)

(** parser.rs:50-79 [list_begin], [list_separator], [list] *)
Definition vlist (pv : parser value) : parser (list value) :=
  preceded (char_p c_lbracket)
    (terminated
      (whitespace_m
        (separated_list (wrap whitespace (char_p c_comma)) (wrap whitespace pv)))
      (terminated
        (whitespace_m (wrap whitespace (opt (char_p c_comma))))
        (char_p c_rbracket))).

(** parser.rs:93-101, [map_values] being a parameter *)
Definition map_expression (pm : parser mapvalues) : parser mapvalues := fun s =>
  let* (r1, _b) := whitespace_m (wrap whitespace (char_p c_lbrace)) s in
  let* (r2, values) := whitespace_m (wrap whitespace pm) r1 in
  let* (r3, _e) := char_p c_rbrace r2 in
  Ok r3 values.

(** parser.rs:81-91, the recursive occurrences being parameters *)
Definition single_value_step (U : ucd) (pv : parser value) (pm : parser mapvalues) : parser value :=
  alt (pmap (fun _ => VNull) null)
 (alt literal_number
 (alt (pmap VBoolean boolean)
 (alt (pmap (fun c => VString (cow_str c)) (string_p U))
 (alt (pmap VList (vlist pv))
      (pmap (fun m => VObject [m]) (map_expression pm)))))).

(** parser.rs:103-129; the conversion of the second alternative is value.rs:579-583 *)
Definition old_attribute (U : ucd) (pv : parser value) (pm : parser mapvalues) : parser (key * value) :=
  inline_whitespace_m
 (alt (fun s =>
        let* (r1, k) := wrap inline_whitespace (literal_key U) s in
        let* (r2, _eq) := wrap inline_whitespace (char_p c_eq) r1 in
        let* (r3, v) := wrap inline_whitespace pv r2 in
        Ok r3 (k, v))
 (alt (fun s =>
        let* (r1, i) := wrap inline_whitespace (identifier U) s in
        let* (r2, _eq) := wrap inline_whitespace (opt (char_p c_eq)) r1 in
        let* (r3, m) := wrap inline_whitespace (map_expression pm) r2 in
        Ok r3 (KeyIdent (cow_str i), VObject [m]))
      (fun s =>
        let* (r1, i) := wrap inline_whitespace (identifier U) s in
        let* (r2, keys) := many0 (wrap inline_whitespace string_literal) r1 in
        let* (r3, m) := wrap inline_whitespace (map_expression pm) r2 in
        Ok r3 (KeyIdent (cow_str i), VBlock (Unmerged [(keys, m)]))))).

(** parser.rs:138-142 *)
Definition old_separator : parser str :=
  alt (whitespace_m (wrap whitespace (tag (lit ","))))
 (alt (pmap (fun _ => []) newline) eof).

(** parser.rs:131-148 *)
Definition map_values_step (U : ucd) (pv : parser value) (pm : parser mapvalues) : parser mapvalues := fun s =>
  let* (r, values) :=
    whitespace_m (many0 (wrap whitespace (terminated (old_attribute U pv pm) old_separator))) s in
  Ok r (Unmerged values).

(** The recursion of parser.rs:81-148, bounded by fuel (one unit per level of nesting;
    the code's recursion is unbounded): [single_value] and [map_values]. *)
Fixpoint old_f (U : ucd) (fuel : nat) : parser value * parser mapvalues :=
  match fuel with
  | O => (fun _ => OutOfFuel, fun _ => OutOfFuel)
  | S f =>
      let (pv, pm) := old_f U f in
      (single_value_step U pv pm, map_values_step U pv pm)
  end.
(** Enough fuel for the given input (proved: never [OutOfFuel]) *)
Definition single_value (U : ucd) : parser value := fun s => fst (old_f U (S (length s))) s.
Definition map_values (U : ucd) : parser mapvalues := fun s => snd (old_f U (S (length s))) s.

(** parser.rs:150-153 *)
Definition old_body (U : ucd) : parser mapvalues := exact (map_values U).

(** ** lib/src/value.rs: the entry points *)
(** What a call observably does; merge errors carry their fields. *)
Inductive voutcome :=
| VOk (m : mapvalues)
| VErr (e : error_t)
| VMergeErr (e : merge_error)
| VPanic
| VDiverges.

(** value.rs:910-916: after parsing *)
Definition apply_merge (mb : option merge_behaviour) (m : mapvalues) (o : voutcome) : Prop :=
  match mb with
  | None => o = VOk m
  | Some MBError =>
      exists res, map_merge m res /\
        o = match res with MOk m' => VOk m' | MErr e => VMergeErr e end
  | Some _ => o = VPanic  (* unimplemented!() *)
  end.

(** value.rs:891-917 [from_str] *)
Definition from_str (U : ucd) (s : str) (mb : option merge_behaviour) (o : voutcome) : Prop :=
  match old_body U s with
  | Ok [] m => apply_merge mb m o
  | Ok (_ :: _) _ => o = VErr RBug
  | Err => o = VErr (RParse (eof_rest (map_values U) s))
  | Fail p => o = VErr (RCodePoint p)
  | Panic => o = VPanic
  | OutOfFuel => o = VDiverges
  end.

(** value.rs:938-942 [from_slice] *)
Definition from_slice (U : ucd) (bytes : list N) (mb : option merge_behaviour) (o : voutcome) : Prop :=
  match from_utf8 bytes with
  | Some s => from_str U s mb o
  | None => o = VErr RUtf8
  end.

(** value.rs:919-936 [from_reader] *)
Definition from_reader (U : ucd) (r : list read_event) (mb : option merge_behaviour) (o : voutcome) : Prop :=
  match read_to_string r with
  | None => o = VErr RIo
  | Some buffer =>
      exists o1, from_str U buffer mb o1 /\
        match o1 with
        | VOk m => exists m', m_as_owned m m' /\ o = VOk m'
        | _ => o = o1
        end
  end.
