(** * WorkCount: the steps the strict parser takes

    The parsers of [Lex.v] and [Parser.v] once more, each result together with the number of
    steps taken for it.  A step is one character looked at by a primitive of nom, or one use
    of a primitive (so that looking at nothing is not free).  A character that is looked at
    again, by the next alternative of an [alt!] or after a retreat, is counted again.
    Forgetting the numbers gives the parsers back ([..._we] in WorkProofs.v).
    Not counted: building the values (pushing on a vector, boxing, dropping), which the
    steps bound, as every value built has been read. *)
From Verif Require Import Base Nom Ast Lex Parser CallCount.
Open Scope nat_scope.

(** A primitive with its price *)
Definition prim {A} (p : parser A) (price : str -> nat) : cparser A := fun s => (p s, price s).
(** How many characters are looked at to compare the beginning of [s] with [t] *)
Fixpoint compared (t s : str) : nat :=
  match t, s with
  | x :: t', y :: s' => if (x =? y)%N then S (compared t' s') else 1
  | _, _ => 0
  end.
(** Looking for [t] in [s], comparing at every place *)
Fixpoint searched (t s : str) : nat :=
  S (compared t s) +
  match strip_prefix t s, s with
  | None, _ :: s' => searched t s'
  | _, _ => 0
  end.
(** The length of the first run of characters satisfying [p] *)
Definition run (p : char -> bool) (s : str) : nat := length (fst (span p s)).
Definition w_tag (t : str) : cparser str := prim (tag t) (fun s => S (compared t s)).
Definition w_char (c : char) : cparser char := prim (char_p c) (fun _ => 1).
Definition w_take_while (p : char -> bool) : cparser str := prim (take_while p) (fun s => S (run p s)).
Definition w_take_while1 (p : char -> bool) : cparser str := prim (take_while1 p) (fun s => S (run p s)).
Definition w_take_while_m_n (m n : nat) (p : char -> bool) : cparser str :=
  prim (take_while_m_n m n p) (fun s => S (Nat.min n (run p s))).
Definition w_take_until (t : str) : cparser str := prim (take_until t) (searched t).
Definition w_eof : cparser str := prim eof (fun _ => 1).

(** The combinators of [Nom.v] that CallCount.v does not have *)
Definition cpeek {A} (p : cparser A) : cparser A := fun s =>
  let+ (_r, v) := p s in (Ok s v, 0).
Definition cverify {A} (p : cparser A) (f : A -> bool) : cparser A := fun s =>
  let+ (r, v) := p s in (if f v then Ok r v else Err, 1).
Definition cdelimited {A B C} (p : cparser A) (q : cparser B) (t : cparser C) : cparser B := fun s =>
  let+ (r, _a) := p s in let+ (r', v) := q r in let+ (r'', _b) := t r' in (Ok r'' v, 0).
Definition creturn_error {A} (p : cparser A) : cparser A := fun s =>
  match p s with (Err, n) | (Fail _, n) => (Fail s, n) | x => x end.
Definition wpmap {A B} (f : A -> B) (p : cparser A) : cparser B := fun s =>
  let (x, n) := p s in (map_res f x, n).
(** [map_res!]: the conversion reads the text again *)
Definition cmap_opt {B} (p : cparser str) (f : str -> option B) : cparser B := fun s =>
  let+ (r, v) := p s in (match f v with Some w => Ok r w | None => Err end, S (length v)).
Definition cmany1 {A} (p : cparser A) : cparser (list A) := fun s =>
  let+ (r, v) := p s in
  let x := cmany0_loop (S (length r)) p r in (map_res (cons v) (fst x), snd x).
Fixpoint wsep_loop {A B} (fuel : nat) (sep : cparser B) (p : cparser A) (s : str) : res (list A) * nat :=
  match fuel with
  | O => (OutOfFuel, 0)
  | S f =>
      match sep s with
      | (Ok s2 _, m) =>
          if Nat.eqb (length s2) (length s) then (Ok s [], m)
          else
            match p s2 with
            | (Ok s3 v, n) =>
                if Nat.eqb (length s3) (length s2) then (Err, m + n)
                else let x := wsep_loop f sep p s3 in (map_res (cons v) (fst x), m + n + snd x)
            | (Err, n) => (Ok s [], m + n)
            | (Fail q, n) => (Fail q, m + n)
            | (Panic, n) => (Panic, m + n)
            | (OutOfFuel, n) => (OutOfFuel, m + n)
            end
      | (Err, m) => (Ok s [], m)
      | (Fail q, m) => (Fail q, m)
      | (Panic, m) => (Panic, m)
      | (OutOfFuel, m) => (OutOfFuel, m)
      end
  end.
Definition wseparated_list {A B} (sep : cparser B) (p : cparser A) : cparser (list A) := fun s =>
  match p s with
  | (Ok r v, n) =>
      if Nat.eqb (length r) (length s) then (Err, n)
      else let x := wsep_loop (S (length r)) sep p r in (map_res (cons v) (fst x), n + snd x)
  | (Err, n) => (Ok s [], n)
  | (Fail q, n) => (Fail q, n)
  | (Panic, n) => (Panic, n)
  | (OutOfFuel, n) => (OutOfFuel, n)
  end.
Fixpoint wescaped_loop (fuel : nat) (normal : char -> bool) (transform : cparser str) (s : str) : res str * nat :=
  match fuel with
  | O => (OutOfFuel, 0)
  | S f =>
      match s with
      | [] => (Ok [] [], 1)
      | c :: s' =>
          match span normal s with
          | (a :: a', b) =>
              let x := wescaped_loop f normal transform b in
              (map_res (app (a :: a')) (fst x), S (length (a :: a')) + snd x)
          | ([], _) =>
              if (c =? c_backslash)%N then
                match s' with
                | [] => (Err, 2)
                | _ =>
                    add 2 (let+ (r, o) := transform s' in
                      let x := wescaped_loop f normal transform r in
                      (map_res (app o) (fst x), snd x))
                end
              else (Ok s [], 2)
          end
      end
  end.
Definition wescaped_transform (normal : char -> bool) (transform : cparser str) : cparser str := fun s =>
  wescaped_loop (S (length s)) normal transform s.

(** ** [Lex.v] *)
(** whitespace.rs:37-50 *)
Definition winline_comment : cparser str :=
  cdelimited (w_tag (lit "/*")) (w_take_until (lit "*/")) (w_tag (lit "*/")).
Definition weol : cparser str := calt (w_tag [c_lf]) (w_tag [c_cr; c_lf]).
Definition whash_comment : cparser str := cdelimited (w_tag (lit "#")) (w_take_while not_eol) weol.
Definition wslash_comment : cparser str := cdelimited (w_tag (lit "//")) (w_take_while not_eol) weol.
Definition weat_separator (chars : str) : cparser str := w_take_while (fun c => existsb (N.eqb c) chars).
(** whitespace.rs:59-93 *)
Definition winline_whitespace : cparser (list str) :=
  cmany0 (calt winline_comment (weat_separator [c_space; c_tab])).
Definition wwhitespace : cparser (list str) :=
  cmany0 (calt whash_comment (calt wslash_comment (calt winline_comment
           (weat_separator [c_space; c_tab; c_cr; c_lf])))).
Definition wnewline_item : cparser str :=
  calt whash_comment (calt wslash_comment (calt (cterminated winline_comment weol) weol)).
Definition wnewline : cparser (list str) := cmany1 wnewline_item.
Definition wwrap {A} (sp : cparser (list str)) (p : cparser A) : cparser A := cpreceded sp p.
Definition winline_whitespace_m {A} (p : cparser A) : cparser A := cterminated p winline_whitespace.
Definition wwhitespace_m {A} (p : cparser A) : cparser A := cterminated p wwhitespace.
(** identifier.rs:34-52 *)
Definition widentifier (U : ucd) : cparser cow :=
  wpmap Borrowed
    (cverify (w_take_while1 (id_char U))
       (fun s => match s with [] => false | c :: _ => id_first U c end)).
(** boolean.rs:5-10, null.rs:4-12 *)
Definition wboolean : cparser bool :=
  calt (wpmap (fun _ => true) (w_tag (lit "true"))) (wpmap (fun _ => false) (w_tag (lit "false"))).
Definition wnull : cparser unit := wpmap (fun _ => tt) (w_tag (lit "null")).
(** number.rs:224-287 *)
Definition wdigit : cparser str := w_take_while1 is_dec_digit.
Definition wsign_char : cparser char := calt (w_char c_plus) (w_char c_minus).
Definition wexponent : cparser (option exponent_t) :=
  copt (fun s =>
    let+ (r1, _e) := calt (w_char 101%N) (w_char 69%N) s in
    let+ (r2, sign) := copt wsign_char r1 in
    let+ (r3, d) := wdigit r2 in
    (Ok r3 (mk_exponent (sign_positive sign) (Borrowed d)), 0)).
Definition wmantissa : cparser (option str * option str) :=
  calt
    (fun s =>
      let+ (r1, d) := wdigit s in
      let+ (r2, dec) := copt (fun s1 =>
        let+ (q1, _dot) := w_char c_dot s1 in
        copt wdigit q1) r1 in
      (Ok r2 (Some d,
             match dec with
             | None => None
             | Some None => Some []
             | Some (Some f) => Some f
             end), 0))
    (fun s =>
      let+ (r1, _dot) := w_char c_dot s in
      let+ (r2, d) := wdigit r1 in
      (Ok r2 (None, Some d), 0)).
Definition wnumber : cparser number_t := fun s =>
  let+ (r1, sign) := copt wsign_char s in
  let+ (r2, wf) := wmantissa r1 in
  let+ (rem, e) := wexponent r2 in
  (Ok rem (mk_number (Borrowed (firstn (length s - length rem) s))
            (sign_positive sign)
            (option_map Borrowed (fst wf))
            (option_map Borrowed (snd wf))
            e), 0).
(** string.rs:43-57, 89-122 *)
Definition whex_escape (c : char) (n : nat) : cparser str :=
  cmap_opt (cpreceded (w_tag [c]) (w_take_while_m_n 1 n is_hex_digit))
           (fun s => char_to_string (radix_val 16 s)).
Definition whex_to_unicode : cparser str :=
  creturn_error (calt (whex_escape 120%N 2) (calt (whex_escape 117%N 4) (whex_escape 85%N 8))).
Definition woctal_escape : cparser str :=
  cmap_opt (w_take_while_m_n 1 3 is_oct_digit) (fun s => char_to_string (radix_val 8 s)).
Definition wunescape : cparser str :=
  calt (wpmap (fun _ => [7%N]) (w_tag (lit "a")))
 (calt (wpmap (fun _ => [8%N]) (w_tag (lit "b")))
 (calt (wpmap (fun _ => [12%N]) (w_tag (lit "f")))
 (calt (wpmap (fun _ => [10%N]) (w_tag (lit "n")))
 (calt (wpmap (fun _ => [13%N]) (w_tag (lit "r")))
 (calt (wpmap (fun _ => [9%N]) (w_tag (lit "t")))
 (calt (wpmap (fun _ => [11%N]) (w_tag (lit "v")))
 (calt (wpmap (fun _ => [92%N]) (w_tag [92%N]))
 (calt (wpmap (fun _ => [34%N]) (w_tag [34%N]))
 (calt (wpmap (fun _ => [63%N]) (w_tag (lit "?")))
 (calt woctal_escape whex_to_unicode)))))))))).
(** string.rs:124-159 *)
Definition wquoted_string : cparser str :=
  cdelimited (w_tag [c_dquote]) (wescaped_transform legal_string_literal_character wunescape) (w_tag [c_dquote]).
Definition wstring_literal : cparser str :=
  cdelimited (w_tag [c_dquote]) (wescaped_transform legal_string_literal_single_line_character wunescape) (w_tag [c_dquote]).
(** string.rs:60-83: the content is split into lines, the indentation of the lines looked at
    and what follows it copied, joined by newlines.  Simplified: priced as four looks at
    each character of the content. *)
Definition unindent_price (content : str) (indentation : nat) : nat :=
  match indentation with
  | O => 1
  | S _ => 4 * S (length content)
  end.
(** string.rs:170-206 *)
Definition wheredoc_begin (U : ucd) : cparser heredoc_t := fun s =>
  let+ (r1, _t) := w_tag (lit "<<") s in
  let+ (r2, ind) := copt (w_tag (lit "-")) r1 in
  let+ (r3, i) := w_take_while1 (marker_char U) r2 in
  let+ (r4, _e) := cpeek weol r3 in
  (Ok r4 (mk_heredoc i (match ind with Some _ => true | None => false end)), 0).
Definition wspace0 : cparser str := w_take_while (fun c => ((c =? c_space) || (c =? c_tab))%N).
Definition wheredoc_end (h : heredoc_t) : cparser nat := fun s =>
  let+ (r1, _e) := weol s in
  let+ (r2, blanks) := wspace0 r1 in
  let+ (r3, _t) := w_tag (hd_ident h) r2 in
  let+ (r4, _e2) := cpeek weol r3 in
  (Ok r4 (if hd_indented h then length blanks else O), 0).
(** utils.rs:112-152 *)
Fixpoint wtake_till_match {A} (p : cparser A) (s : str) : res (str * A) * nat :=
  match s with
  | [] => (Err, 1)
  | c :: s' =>
      match p s with
      | (Ok r v, n) => (Ok r ([], v), S n)
      | (Panic, n) => (Panic, S n)
      | (OutOfFuel, n) => (OutOfFuel, S n)
      | (Err, n) | (Fail _, n) =>
          let x := wtake_till_match p s' in
          (map_res (fun pv => (c :: fst pv, snd pv)) (fst x), S n + snd x)
      end
  end.
(** string.rs:209-231 *)
Definition wheredoc_string (U : ucd) : cparser cow := fun s =>
  let+ (r1, h) := wheredoc_begin U s in
  let+ (r2, ci) :=
    calt (wpmap (fun _ => ([] : str, O)) (wheredoc_end h))
         (fun s1 =>
           let+ (q1, _e) := weol s1 in
           wtake_till_match (wheredoc_end h) q1) r1 in
  (match unindent_heredoc (fst ci) (snd ci) with
   | Some c => Ok r2 c
   | None => Panic
   end, unindent_price (fst ci) (snd ci)).
Definition wstring_p (U : ucd) : cparser cow :=
  calt (wpmap Owned wquoted_string) (wheredoc_string U).

(** ** [Parser.v] *)
(** tuple.rs:19-50 *)
Definition wtuple (pexpr : cparser expr) : cparser (list expr) :=
  cpreceded (w_char c_lbracket)
    (cterminated
      (wwhitespace_m
        (wseparated_list (wwrap wwhitespace (w_char c_comma)) (wwrap wwhitespace pexpr)))
      (cterminated
        (wwhitespace_m (wwrap wwhitespace (copt (w_char c_comma))))
        (w_char c_rbracket))).
(** object.rs:99-166 *)
Definition wobject_element_identifier (U : ucd) (pexpr : cparser expr) : cparser okey :=
  calt (wpmap KIdent (widentifier U))
       (wpmap (fun t => KExpr (Borrowed t)) (crecognize pexpr)).
Definition wobject_element (U : ucd) (pexpr : cparser expr) : cparser (okey * expr) :=
  winline_whitespace_m (fun s =>
    let+ (r1, k) := wwrap winline_whitespace (wobject_element_identifier U pexpr) s in
    let+ (r2, _eq) := wwrap winline_whitespace (w_char c_eq) r1 in
    let+ (r3, e) := wwrap winline_whitespace pexpr r2 in
    (Ok r3 (k, e), 0)).
Definition wobject_separator : cparser str :=
  calt (w_tag (lit ","))
 (calt (wpmap (fun _ => []) wnewline)
       (wpmap (fun _ => []) (cpeek (w_char c_rbrace)))).
Definition wobject_body (U : ucd) (pexpr : cparser expr) : cparser (list (okey * expr)) :=
  wwhitespace_m
    (cmany0 (wwrap wwhitespace (cterminated (wobject_element U pexpr) wobject_separator))).
Definition wobject (U : ucd) (pexpr : cparser expr) : cparser (list (okey * expr)) := fun s =>
  let+ (r1, _b) := wwhitespace_m (wwrap wwhitespace (w_char c_lbrace)) s in
  let+ (r2, values) := wwhitespace_m (wwrap wwhitespace (wobject_body U pexpr)) r1 in
  let+ (r3, _e) := w_char c_rbrace r2 in
  (Ok r3 values, 0).
(** expression.rs:176-212 *)
Definition wbracket_expression (pexpr : cparser expr) : cparser expr := fun s =>
  let+ (r1, _b) := wwhitespace_m (wwrap wwhitespace (w_tag (lit "("))) s in
  let+ (r2, e) := wwhitespace_m (wwrap wwhitespace pexpr) r1 in
  let+ (r3, _e) := w_tag (lit ")") r2 in
  (Ok r3 e, 0).
Definition wexpression_step (U : ucd) (pexpr : cparser expr) : cparser expr :=
  calt (wpmap (fun _ => ENull) wnull)
 (calt (wpmap ENumber wnumber)
 (calt (wpmap EBool wboolean)
 (calt (wpmap EString (wstring_p U))
 (calt (wpmap ETuple (wtuple pexpr))
 (calt (wpmap EObject (wobject U pexpr))
       (wbracket_expression pexpr)))))).
Fixpoint wexpression_f (U : ucd) (fuel : nat) : cparser expr :=
  match fuel with
  | O => fun _ => (OutOfFuel, 0)
  | S f => wexpression_step U (wexpression_f U f)
  end.
Definition wexpression (U : ucd) : cparser expr := fun s => wexpression_f U (S (length s)) s.
(** attribute.rs:14-24 *)
Definition wattribute (U : ucd) : cparser (cow * expr) :=
  winline_whitespace_m (fun s =>
    let+ (r1, i) := wwrap winline_whitespace (widentifier U) s in
    let+ (r2, _eq) := wwrap winline_whitespace (w_char c_eq) r1 in
    let+ (r3, e) := wwrap winline_whitespace (wexpression U) r2 in
    (Ok r3 (i, e), 0)).
(** block.rs:135-184 *)
Definition wblock_label (U : ucd) : cparser label :=
  calt (wpmap LIdent (widentifier U)) (wpmap LString wstring_literal).
Definition wblock_labels (U : ucd) : cparser (list label) :=
  cmany0 (winline_whitespace_m (wwrap winline_whitespace (wblock_label U))).
Definition wone_line_block (U : ucd) : cparser element :=
  winline_whitespace_m (fun s =>
    let+ (r1, t) := wwrap winline_whitespace (widentifier U) s in
    let+ (r2, ls) := wwrap winline_whitespace (wblock_labels U) r1 in
    let+ (r3, _o) := wwrap winline_whitespace (w_tag (lit "{")) r2 in
    let+ (r4, a) := wwrap winline_whitespace (copt (wattribute U)) r3 in
    let+ (r5, _c) := wwrap winline_whitespace (w_tag (lit "}")) r4 in
    (Ok r5 (new_one_line t ls a), 0)).
Definition wblock (U : ucd) (pbody : cparser body_t) : cparser element :=
  winline_whitespace_m (fun s =>
    let+ (r1, t) := wwrap winline_whitespace (widentifier U) s in
    let+ (r2, ls) := wwrap winline_whitespace (wblock_labels U) r1 in
    let+ (r3, _o) := wwrap winline_whitespace (w_tag (lit "{")) r2 in
    let+ (r4, _n) := wwrap winline_whitespace wnewline r3 in
    let+ (r5, b) := wwrap winline_whitespace pbody r4 in
    let+ (r6, _c) := wwrap winline_whitespace (w_tag (lit "}")) r5 in
    (Ok r6 (Blk t ls b), 0)).
(** body.rs:89-126 *)
Definition wbody_element (U : ucd) (pbody : cparser body_t) : cparser element :=
  calt (wpmap (fun nv => Attr (fst nv) (snd nv)) (wattribute U))
 (calt (wone_line_block U) (wblock U pbody)).
Definition wbody_step (U : ucd) (pbody : cparser body_t) : cparser body_t :=
  wwhitespace_m
    (cmany0 (wwrap wwhitespace
      (cterminated (wbody_element U pbody)
                   (calt (wpmap (fun _ => []) wnewline) w_eof)))).
Fixpoint wbody_f (U : ucd) (fuel : nat) : cparser body_t :=
  match fuel with
  | O => fun _ => (OutOfFuel, 0)
  | S f => wbody_step U (wbody_f U f)
  end.
Definition wbody (U : ucd) : cparser body_t := fun s => wbody_f U (S (length s)) s.
(** parser.rs:176-197, expression.rs:74-80 *)
Definition wconfig_file (U : ucd) : cparser body_t := cterminated (wbody U) w_eof.
(** The steps [parse_str] and [Expression::parse] take *)
Definition parse_str_steps (U : ucd) (s : str) : nat := snd (wconfig_file U s).
Definition expression_parse_steps (U : ucd) (s : str) : nat := snd (wexpression U s).
