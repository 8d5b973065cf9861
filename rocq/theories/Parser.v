(** * Parser: expressions, attributes, blocks, bodies and the entry points *)
From Verif Require Import Base Nom Ast Lex.

(** ** lib/src/parser/tuple.rs:19-50

    The expression parser is a parameter; it is tied in [expression]. *)
Definition tuple (pexpr : parser expr) : parser (list expr) :=
  preceded (char_p c_lbracket)
    (terminated
      (whitespace_m
        (separated_list (wrap whitespace (char_p c_comma)) (wrap whitespace pexpr)))
      (terminated
        (whitespace_m (wrap whitespace (opt (char_p c_comma))))
        (char_p c_rbracket))).

(** ** lib/src/parser/object.rs *)

(** object.rs:99-110 *)
Definition object_element_identifier (U : ucd) (pexpr : parser expr) : parser okey :=
  alt (pmap KIdent (identifier U))
      (pmap (fun t => KExpr (Borrowed t)) (recognize pexpr)).

(** object.rs:112-122 *)
Definition object_element (U : ucd) (pexpr : parser expr) : parser (okey * expr) :=
  inline_whitespace_m (fun s =>
    let* (r1, k) := wrap inline_whitespace (object_element_identifier U pexpr) s in
    let* (r2, _eq) := wrap inline_whitespace (char_p c_eq) r1 in
    let* (r3, e) := wrap inline_whitespace pexpr r2 in
    Ok r3 (k, e)).

(** object.rs:124-127 and 129-132; [object] and [object_separator] below have them unfolded *)
Definition object_begin : parser char := char_p c_lbrace.
Definition object_end : parser char := char_p c_rbrace.

(** object.rs:134-141 *)
Definition object_separator : parser str :=
  alt (tag (lit ","))
 (alt (pmap (fun _ => []) newline)
      (pmap (fun _ => []) (peek (char_p c_rbrace)))).

(** object.rs:143-156; [many0!] under [sep!]: whitespace before each element *)
Definition object_body (U : ucd) (pexpr : parser expr) : parser (list (okey * expr)) :=
  whitespace_m
    (many0 (wrap whitespace (terminated (object_element U pexpr) object_separator))).

(** object.rs:158-166 *)
Definition object (U : ucd) (pexpr : parser expr) : parser (list (okey * expr)) := fun s =>
  let* (r1, _b) := whitespace_m (wrap whitespace (char_p c_lbrace)) s in
  let* (r2, values) := whitespace_m (wrap whitespace (object_body U pexpr)) r1 in
  let* (r3, _e) := char_p c_rbrace r2 in
  Ok r3 values.

(** ** lib/src/parser/expression.rs *)

(** expression.rs:176-185 *)
Definition bracket_expression (pexpr : parser expr) : parser expr := fun s =>
  let* (r1, _b) := whitespace_m (wrap whitespace (tag (lit "("))) s in
  let* (r2, e) := whitespace_m (wrap whitespace pexpr) r1 in
  let* (r3, _e) := tag (lit ")") r2 in
  Ok r3 e.

(** expression.rs:187-212 with the recursive occurrence as a parameter *)
Definition expression_step (U : ucd) (pexpr : parser expr) : parser expr :=
  alt (pmap (fun _ => ENull) null)
 (alt (pmap ENumber number)
 (alt (pmap EBool boolean)
 (alt (pmap EString (string_p U))
 (alt (pmap ETuple (tuple pexpr))
 (alt (pmap EObject (object U pexpr))
      (bracket_expression pexpr)))))).

(** expression.rs:187-212: the recursion, bounded by fuel (one unit per level of
    nesting; the code's recursion is unbounded). *)
Fixpoint expression_f (U : ucd) (fuel : nat) : parser expr :=
  match fuel with
  | O => fun _ => OutOfFuel
  | S f => expression_step U (expression_f U f)
  end.

(** Enough fuel for the given input: each level of nesting consumes at
    least one character (proved: never [OutOfFuel]). *)
Definition expression (U : ucd) : parser expr := fun s =>
  expression_f U (S (length s)) s.

(** ** lib/src/parser/attribute.rs:14-24 *)
Definition attribute (U : ucd) : parser (cow * expr) :=
  inline_whitespace_m (fun s =>
    let* (r1, i) := wrap inline_whitespace (identifier U) s in
    let* (r2, _eq) := wrap inline_whitespace (char_p c_eq) r1 in
    let* (r3, e) := wrap inline_whitespace (expression U) r2 in
    Ok r3 (i, e)).

(** ** lib/src/parser/block.rs *)

(** block.rs:135-143 *)
Definition block_label (U : ucd) : parser label :=
  alt (pmap LIdent (identifier U)) (pmap LString string_literal).

(** block.rs:145-150 *)
Definition block_labels (U : ucd) : parser (list label) :=
  many0 (inline_whitespace_m (wrap inline_whitespace (block_label U))).

(** block.rs:152-155 *)
Definition one_line_block_body (U : ucd) : parser (option (cow * expr)) := opt (attribute U).

(** block.rs:42-57 [Block::new_one_line] *)
Definition new_one_line (t : cow) (ls : list label) (a : option (cow * expr)) : element :=
  Blk t ls (match a with None => [] | Some (n, v) => [Attr n v] end).

(** block.rs:157-169 *)
Definition one_line_block (U : ucd) : parser element :=
  inline_whitespace_m (fun s =>
    let* (r1, t) := wrap inline_whitespace (identifier U) s in
    let* (r2, ls) := wrap inline_whitespace (block_labels U) r1 in
    let* (r3, _o) := wrap inline_whitespace (tag (lit "{")) r2 in
    let* (r4, a) := wrap inline_whitespace (one_line_block_body U) r3 in
    let* (r5, _c) := wrap inline_whitespace (tag (lit "}")) r4 in
    Ok r5 (new_one_line t ls a)).

(** block.rs:171-184, the body parser being a parameter *)
Definition block (U : ucd) (pbody : parser body_t) : parser element :=
  inline_whitespace_m (fun s =>
    let* (r1, t) := wrap inline_whitespace (identifier U) s in
    let* (r2, ls) := wrap inline_whitespace (block_labels U) r1 in
    let* (r3, _o) := wrap inline_whitespace (tag (lit "{")) r2 in
    let* (r4, _n) := wrap inline_whitespace newline r3 in
    let* (r5, b) := wrap inline_whitespace pbody r4 in
    let* (r6, _c) := wrap inline_whitespace (tag (lit "}")) r5 in
    Ok r6 (Blk t ls b)).

(** ** lib/src/parser/body.rs *)

(** body.rs:89-102 *)
Definition body_element (U : ucd) (pbody : parser body_t) : parser element :=
  alt (pmap (fun nv => Attr (fst nv) (snd nv)) (attribute U))
 (alt (one_line_block U) (block U pbody)).

(** body.rs:104-126; [many0!] under [sep!]: whitespace before each element *)
Definition body_step (U : ucd) (pbody : parser body_t) : parser body_t :=
  whitespace_m
    (many0 (wrap whitespace
      (terminated (body_element U pbody)
                  (alt (pmap (fun _ => []) newline) eof)))).

Fixpoint body_f (U : ucd) (fuel : nat) : parser body_t :=
  match fuel with
  | O => fun _ => OutOfFuel
  | S f => body_step U (body_f U f)
  end.

Definition body (U : ucd) : parser body_t := fun s => body_f U (S (length s)) s.

(** ** lib/src/parser.rs *)

(** parser.rs:155-178 *)
Definition config_file (U : ucd) : parser body_t := exact (body U).

(** What an API call observably does. [RBug] is [Error::Bug] (parser.rs:187).
    [RParse] is [Error::ParseError], made from a nom [Err::Error] (errors.rs:73-76, 98-111):
    its message is nom's text for that error; where that is the [Eof] error of [exact!],
    which names the text left over, that text is given.  [RCodePoint] is
    [Error::InvalidUnicodeCodePoint] with its text, made from a nom [Err::Failure]
    (errors.rs:98-111, 148-167, 210-231).
    [RRemaining] is [Error::UnexpectedRemainingInput] with its text, [RUtf8] a UTF-8
    error and [RIo] an I/O error. *)
Inductive error_t := RParse (rest : option str) | RCodePoint (text : str) | RBug | RRemaining (rest : str) | RUtf8 | RIo.
Inductive outcome (A : Type) :=
| OkR (v : A)
| ErrR (e : error_t)
| PanicR
| Diverges.
Arguments OkR {A} v.
Arguments ErrR {A} e.
Arguments PanicR {A}.
Arguments Diverges {A}.

(** The text that [exact!(p)] (nom: [terminated!(p, eof!())]) puts into its error: [eof!]
    fails with [Context::Code(rest, ErrorKind::Eof)] on what [p] left.  [None] when the
    error is [p]'s own. *)
Definition eof_rest {A} (p : parser A) (s : str) : option str :=
  match p s with
  | Ok (c :: r) _ => Some (c :: r)
  | _ => None
  end.

(** parser.rs:182-197 *)
Definition parse_str (U : ucd) (s : str) : outcome body_t :=
  match config_file U s with
  | Ok [] b => OkR b
  | Ok (_ :: _) _ => ErrR RBug
  | Err => ErrR (RParse (eof_rest (body U) s))
  | Fail p => ErrR (RCodePoint p)
  | Panic => PanicR
  | OutOfFuel => Diverges
  end.

(** expression.rs:74-80 [Expression::parse].  Simplified: the place in a parse error is
    not given ([alt!] collects one per alternative). *)
Definition expression_parse (U : ucd) (s : str) : outcome expr :=
  match expression U s with
  | Ok [] e => OkR e
  | Ok (c :: r) _ => ErrR (RRemaining (c :: r))
  | Err => ErrR (RParse None)
  | Fail p => ErrR (RCodePoint p)
  | Panic => PanicR
  | OutOfFuel => Diverges
  end.
