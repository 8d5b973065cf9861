(** * Lex: the lexical parsers

    lib/src/parser/{whitespace,identifier,boolean,null,number,string}.rs and
    the helpers of lib/src/utils.rs they use. *)
From Verif Require Import Base Nom Ast.

(** ** lib/src/parser/whitespace.rs *)

(** whitespace.rs:33-35 *)
Definition not_eol (c : char) : bool := negb (c =? c_cr) && negb (c =? c_lf).

(** whitespace.rs:37-40 *)
Definition inline_comment : parser str :=
  delimited (tag (lit "/*")) (take_until (lit "*/")) (tag (lit "*/")).

(** whitespace.rs:42-45 *)
Definition hash_comment : parser str :=
  delimited (tag (lit "#")) (take_while not_eol) eol.

(** whitespace.rs:47-50 *)
Definition slash_comment : parser str :=
  delimited (tag (lit "//")) (take_while not_eol) eol.

(** whitespace.rs:52-57 (both alternatives are [hash_comment] in the code) *)
Definition line_comment : parser str := alt hash_comment hash_comment.

(** whitespace.rs:59-66 *)
Definition inline_whitespace : parser (list str) :=
  many0 (alt inline_comment (eat_separator [c_space; c_tab])).

(** whitespace.rs:68-77 *)
Definition whitespace : parser (list str) :=
  many0 (alt hash_comment (alt slash_comment (alt inline_comment
          (eat_separator [c_space; c_tab; c_cr; c_lf])))).

(** whitespace.rs:79-93 *)
Definition newline_item : parser str :=
  alt hash_comment (alt slash_comment (alt (terminated inline_comment eol) eol)).
Definition newline : parser (list str) := many1 newline_item.

(** nom's [wrap_sep!] (the result of [sep!] on a parser it does not rewrite):
    the separator, then the parser. *)
Definition wrap {A} (sp : parser (list str)) (p : parser A) : parser A := preceded sp p.

(** whitespace.rs:95-115 [inline_whitespace!] and 117-137 [whitespace!] after the
    [sep!] rewriting: the rewritten parser, then trailing separators. *)
Definition inline_whitespace_m {A} (p : parser A) : parser A := terminated p inline_whitespace.
Definition whitespace_m {A} (p : parser A) : parser A := terminated p whitespace.

(** ** lib/src/parser/identifier.rs:34-52, lib/src/utils.rs:5-17 *)
Definition id_char (U : ucd) (c : char) : bool := is_id_continue U c || (c =? c_minus).
Definition id_first (U : ucd) (c : char) : bool := is_id_start U c || (c =? c_underscore).

Definition identifier (U : ucd) : parser cow :=
  pmap Borrowed
    (verify (take_while1 (id_char U))
       (fun s => match s with [] => false | c :: _ => id_first U c end)).

(** ** lib/src/parser/boolean.rs:5-10 *)
Definition boolean : parser bool :=
  alt (pmap (fun _ => true) (tag (lit "true"))) (pmap (fun _ => false) (tag (lit "false"))).

(** ** lib/src/parser/null.rs:4-12 *)
Definition null : parser unit := pmap (fun _ => tt) (tag (lit "null")).

(** ** lib/src/parser/number.rs *)

(** [alt!(char!('+') | char!('-'))] *)
Definition sign_char : parser char := alt (char_p c_plus) (char_p c_minus).

(** number.rs:228-233 and 275-280: the value of an optional sign *)
Definition sign_positive (o : option char) : bool :=
  match o with
  | None => true
  | Some c => negb (c =? c_minus)
  end.

(** number.rs:262-287 [exponent] *)
Definition exponent : parser (option exponent_t) :=
  opt (fun s =>
    let* (r1, _e) := alt (char_p 101) (char_p 69) s in
    let* (r2, sign) := opt sign_char r1 in
    let* (r3, d) := digit r2 in
    Ok r3 (mk_exponent (sign_positive sign) (Borrowed d))).

(** number.rs:235-246: whole and fraction parts *)
Definition mantissa : parser (option str * option str) :=
  alt
    (fun s =>
      let* (r1, d) := digit s in
      let* (r2, dec) := opt (fun s1 =>
        let* (q1, _dot) := char_p c_dot s1 in
        opt digit q1) r1 in
      Ok r2 (Some d,
             match dec with
             | None => None
             | Some None => Some []
             | Some (Some f) => Some f
             end))
    (fun s =>
      let* (r1, _dot) := char_p c_dot s in
      let* (r2, d) := digit r1 in
      Ok r2 (None, Some d)).

(** number.rs:224-260 [number] *)
Definition number : parser number_t := fun s =>
  let* (r1, sign) := opt sign_char s in
  let* (r2, wf) := mantissa r1 in
  let* (rem, e) := exponent r2 in
  Ok rem (mk_number (Borrowed (firstn (length s - length rem) s))
            (sign_positive sign)
            (option_map Borrowed (fst wf))
            (option_map Borrowed (snd wf))
            e).

(** ** lib/src/parser/string.rs *)

(** string.rs:31-35 (logging omitted) *)
Definition legal_string_literal_character (c : char) : bool :=
  negb (c =? c_backslash) && negb (c =? c_dquote).

(** string.rs:37-41 *)
Definition legal_string_literal_single_line_character (c : char) : bool :=
  negb (c =? c_backslash) && negb (c =? c_dquote) && negb (c =? c_cr) && negb (c =? c_lf).

(** [char::to_digit] for a digit of the radix *)
Definition digit_val (c : char) : N :=
  if c <=? 57 then c - 48 else if c <=? 70 then c - 55 else c - 87.

(** [u32::from_str_radix] on a non-empty run of digits that fits *)
Definition radix_val (b : N) (s : str) : N :=
  fold_left (fun acc c => acc * b + digit_val c) s 0.

(** [char::from_u32] followed by [to_string] *)
Definition char_to_string (n : N) : option str :=
  if valid_char n then Some [n] else None.

(** [map_res!] with an optional result: a failing conversion is an [Error]. *)
Definition map_opt {A B} (p : parser A) (f : A -> option B) : parser B := fun s =>
  bind (p s) (fun r v => match f v with Some w => Ok r w | None => Err end).

(** string.rs:107-122 [hex_to_unicode], with string.rs:52-57 [hex_to_string] *)
Definition hex_escape (c : char) (n : nat) : parser str :=
  map_opt (preceded (tag [c]) (take_while_m_n 1 n is_hex_digit))
          (fun s => char_to_string (radix_val 16 s)).
Definition hex_to_unicode : parser str :=
  return_error (alt (hex_escape 120 2) (alt (hex_escape 117 4) (hex_escape 85 8))).

(** string.rs:43-50 [octal_to_string] *)
Definition octal_escape : parser str :=
  map_opt (take_while_m_n 1 3 is_oct_digit) (fun s => char_to_string (radix_val 8 s)).

(** string.rs:89-105 [unescape] *)
Definition unescape : parser str :=
  alt (pmap (fun _ => [7]) (tag (lit "a")))
 (alt (pmap (fun _ => [8]) (tag (lit "b")))
 (alt (pmap (fun _ => [12]) (tag (lit "f")))
 (alt (pmap (fun _ => [10]) (tag (lit "n")))
 (alt (pmap (fun _ => [13]) (tag (lit "r")))
 (alt (pmap (fun _ => [9]) (tag (lit "t")))
 (alt (pmap (fun _ => [11]) (tag (lit "v")))
 (alt (pmap (fun _ => [92]) (tag [92]))
 (alt (pmap (fun _ => [34]) (tag [34]))
 (alt (pmap (fun _ => [63]) (tag (lit "?")))
 (alt octal_escape hex_to_unicode)))))))))).

(** string.rs:124-141 *)
Definition multiline_string_content : parser str :=
  escaped_transform legal_string_literal_character unescape.
Definition quoted_string : parser str :=
  delimited (tag [c_dquote]) multiline_string_content (tag [c_dquote]).

(** string.rs:143-159 *)
Definition string_literal_content : parser str :=
  escaped_transform legal_string_literal_single_line_character unescape.
Definition string_literal : parser str :=
  delimited (tag [c_dquote]) string_literal_content (tag [c_dquote]).

(** [&s[n..]] with [n] a byte offset: [None] is the panic for an offset past the end
    or inside a character. *)
Fixpoint slice_from (n : nat) (s : str) : option str :=
  match n, s with
  | O, _ => Some s
  | S _, [] => None
  | S _, c :: s' =>
      if Nat.leb (utf8_len c) n then slice_from (n - utf8_len c) s' else None
  end.

(** [str::split('\n')] *)
Fixpoint split_lf (s : str) : list str :=
  match s with
  | [] => [[]]
  | c :: s' =>
      if c =? c_lf then [] :: split_lf s'
      else match split_lf s' with
           | l :: ls => (c :: l) :: ls
           | [] => [[c]]  (* unreachable: [split_lf] is never empty *)
           end
  end.

(** string.rs:69-70: [beginning.all(is space)] on [line.char_indices().take(n)].
    [None]: all were spaces.  [Some (k, c, tl)]: the first non-space is [c],
    at char (and byte) index [k]; [tl] is what the iterator still yields,
    i.e. the rest of the line limited to [n - k - 1] characters. *)
Fixpoint scan_indent (n : nat) (line : str) : option (nat * char * str) :=
  match n, line with
  | O, _ => None
  | S _, [] => None
  | S n', c :: l' =>
      if c =? c_space then
        match scan_indent n' l' with
        | None => None
        | Some (k, c', tl) => Some (S k, c', tl)
        end
      else Some (O, c, firstn n' l')
  end.

(** string.rs:66-77: one line.  [None] is a panic. *)
Definition unindent_line (n : nat) (line : str) : option str :=
  match scan_indent n line with
  | None => slice_from n line
  | Some (k, c, tl) =>
      match tl with
      | [] => None                       (* .expect("to not be None") *)
      | _ :: _ => slice_from (k + utf8_len c - 1) line   (* start - 1 *)
      end
  end.

(** The loop over the lines, [result.push_str; push('\n')], and the final
    [truncate]: lines joined by newlines. *)
Fixpoint unindent_lines (n : nat) (ls : list str) : option (list str) :=
  match ls with
  | [] => Some []
  | l :: ls' =>
      match unindent_line n l with
      | None => None
      | Some l' =>
          match unindent_lines n ls' with
          | None => None
          | Some ls'' => Some (l' :: ls'')
          end
      end
  end.

Fixpoint join_lf (ls : list str) : str :=
  match ls with
  | [] => []
  | [l] => l
  | l :: ls' => l ++ c_lf :: join_lf ls'
  end.

(** string.rs:60-83 *)
Definition unindent_heredoc (s : str) (indentation : nat) : option cow :=
  match indentation with
  | O => Some (Borrowed s)
  | _ =>
      match unindent_lines indentation (split_lf s) with
      | None => None
      | Some ls => Some (Owned (join_lf ls))
      end
  end.

(** string.rs:161-166 *)
Record heredoc_t := mk_heredoc { hd_ident : str; hd_indented : bool }.

Definition marker_char (U : ucd) (c : char) : bool :=
  is_alphanumeric U c || (c =? c_underscore).

(** string.rs:170-182 *)
Definition heredoc_begin (U : ucd) : parser heredoc_t := fun s =>
  let* (r1, _t) := tag (lit "<<") s in
  let* (r2, ind) := opt (tag (lit "-")) r1 in
  let* (r3, i) := take_while1 (marker_char U) r2 in
  let* (r4, _e) := peek eol r3 in
  Ok r4 (mk_heredoc i (match ind with Some _ => true | None => false end)).

(** string.rs:188-206 *)
Definition heredoc_end (h : heredoc_t) : parser nat := fun s =>
  let* (r1, _e) := eol s in
  let* (r2, blanks) := space0 r1 in
  let* (r3, _t) := tag (hd_ident h) r2 in
  let* (r4, _e2) := peek eol r3 in
  Ok r4 (if hd_indented h then length blanks else O).

(** lib/src/utils.rs:112-152 [take_till_match!] on [CompleteStr]: the child is
    tried at every character index (the end of input is not one of them);
    any error moves on to the next index. *)
Fixpoint take_till_match {A} (p : parser A) (s : str) : res (str * A) :=
  match s with
  | [] => Err
  | c :: s' =>
      match p s with
      | Ok r v => Ok r ([], v)
      | Panic => Panic
      | OutOfFuel => OutOfFuel
      | Err | Fail _ => map_res (fun pv => (c :: fst pv, snd pv)) (take_till_match p s')
      end
  end.

(** string.rs:209-223 *)
Definition heredoc_string (U : ucd) : parser cow := fun s =>
  let* (r1, h) := heredoc_begin U s in
  let* (r2, ci) :=
    alt (pmap (fun _ => ([] : str, O)) (heredoc_end h))
        (fun s1 =>
          let* (q1, _e) := eol s1 in
          take_till_match (heredoc_end h) q1) r1 in
  match unindent_heredoc (fst ci) (snd ci) with
  | Some c => Ok r2 c
  | None => Panic
  end.

(** string.rs:225-231 *)
Definition string_p (U : ucd) : parser cow :=
  alt (pmap Owned quoted_string) (heredoc_string U).
