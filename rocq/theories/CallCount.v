(** * CallCount: how often the parsers call each other

    The parsers of [Parser.v] and [OldParser.v] once more, each result together with the
    number of calls made of the recursive ones: [expression] and [body] of the strict parser,
    [single_value] and [map_values] of the parser behind [value::from_str].  Forgetting the numbers
    gives the parsers back ([..._erase] in CallProofs.v), so that nothing but
    the counting is new here.  What a call does besides calling others (reading tokens) is
    not counted. *)
From Coq Require Import SpecFloat ZArith.
From Verif Require Import Base Nom Ast Lex Parser NumConv Utf8 Kvp Value OldParser.
Close Scope Z_scope.
Open Scope nat_scope.

Definition cparser (A : Type) := str -> res A * nat.
Definition add {A} (n : nat) (x : res A * nat) : res A * nat := (fst x, n + snd x).
(** A parser that calls none of the counted ones *)
Definition lift {A} (p : parser A) : cparser A := fun s => (p s, 0).
(** A counted parser *)
Definition tick {A} (p : cparser A) : cparser A := fun s => add 1 (p s).
Definition cbind {A B} (x : res A * nat) (f : str -> A -> res B * nat) : res B * nat :=
  match x with
  | (Ok r v, n) => add n (f r v)
  | (Err, n) => (Err, n)
  | (Fail q, n) => (Fail q, n)
  | (Panic, n) => (Panic, n)
  | (OutOfFuel, n) => (OutOfFuel, n)
  end.
Notation "'let+' ( r , v ) := x 'in' k" :=
  (cbind x (fun r v => k))
  (at level 200, r name, v name, x at level 100, k at level 200, right associativity).

(** The combinators of [Nom.v] and [Lex.v] *)
Definition calt {A} (p q : cparser A) : cparser A := fun s =>
  match p s with
  | (Err, n) => add n (q s)
  | x => x
  end.
Definition copt {A} (p : cparser A) : cparser (option A) := fun s =>
  match p s with
  | (Ok r v, n) => (Ok r (Some v), n)
  | (Err, n) => (Ok s None, n)
  | (Fail q, n) => (Fail q, n)
  | (Panic, n) => (Panic, n)
  | (OutOfFuel, n) => (OutOfFuel, n)
  end.
Definition cpmap {A B} (f : A -> B) (p : cparser A) : cparser B := fun s => (map_res f (fst (p s)), snd (p s)).
Definition cpreceded {A B} (p : cparser A) (q : cparser B) : cparser B := fun s =>
  let+ (r, _v) := p s in q r.
Definition cterminated {A B} (p : cparser A) (q : cparser B) : cparser A := fun s =>
  let+ (r, v) := p s in let+ (r', _w) := q r in (Ok r' v, 0).
Definition crecognize {A} (p : cparser A) : cparser str := fun s =>
  let+ (r, _v) := p s in (Ok r (firstn (length s - length r) s), 0).
Fixpoint cmany0_loop {A} (fuel : nat) (p : cparser A) (s : str) : res (list A) * nat :=
  match fuel with
  | O => (OutOfFuel, 0)
  | S f =>
      match p s with
      | (Ok r v, n) =>
          if str_eqb r s then (Ok s [], n)
          else let x := cmany0_loop f p r in (map_res (cons v) (fst x), n + snd x)
      | (Err, n) => (Ok s [], n)
      | (Fail q, n) => (Fail q, n)
      | (Panic, n) => (Panic, n)
      | (OutOfFuel, n) => (OutOfFuel, n)
      end
  end.
Definition cmany0 {A} (p : cparser A) : cparser (list A) := fun s => cmany0_loop (S (length s)) p s.
Fixpoint csep_loop {A B} (fuel : nat) (sep : parser B) (p : cparser A) (s : str) : res (list A) * nat :=
  match fuel with
  | O => (OutOfFuel, 0)
  | S f =>
      match sep s with
      | Ok s2 _ =>
          if Nat.eqb (length s2) (length s) then (Ok s [], 0)
          else
            match p s2 with
            | (Ok s3 v, n) =>
                if Nat.eqb (length s3) (length s2) then (Err, n)
                else let x := csep_loop f sep p s3 in (map_res (cons v) (fst x), n + snd x)
            | (Err, n) => (Ok s [], n)
            | (Fail q, n) => (Fail q, n)
            | (Panic, n) => (Panic, n)
            | (OutOfFuel, n) => (OutOfFuel, n)
            end
      | Err => (Ok s [], 0)
      | Fail q => (Fail q, 0)
      | Panic => (Panic, 0)
      | OutOfFuel => (OutOfFuel, 0)
      end
  end.
Definition cseparated_list {A B} (sep : parser B) (p : cparser A) : cparser (list A) := fun s =>
  match p s with
  | (Ok r v, n) =>
      if Nat.eqb (length r) (length s) then (Err, n)
      else let x := csep_loop (S (length r)) sep p r in (map_res (cons v) (fst x), n + snd x)
  | (Err, n) => (Ok s [], n)
  | (Fail q, n) => (Fail q, n)
  | (Panic, n) => (Panic, n)
  | (OutOfFuel, n) => (OutOfFuel, n)
  end.
Definition cwrap {A} (sp : parser (list str)) (p : cparser A) : cparser A := cpreceded (lift sp) p.
Definition cinline_whitespace_m {A} (p : cparser A) : cparser A := cterminated p (lift inline_whitespace).
Definition cwhitespace_m {A} (p : cparser A) : cparser A := cterminated p (lift whitespace).

(** ** [Parser.v] *)
(** tuple.rs:19-50 *)
Definition ctuple (pexpr : cparser expr) : cparser (list expr) :=
  cpreceded (lift (char_p c_lbracket))
    (cterminated
      (cwhitespace_m
        (cseparated_list (wrap whitespace (char_p c_comma)) (cwrap whitespace pexpr)))
      (lift (terminated
        (whitespace_m (wrap whitespace (opt (char_p c_comma))))
        (char_p c_rbracket)))).
(** object.rs:99-110 *)
Definition cobject_element_identifier (U : ucd) (pexpr : cparser expr) : cparser okey :=
  calt (lift (pmap KIdent (identifier U)))
       (cpmap (fun t => KExpr (Borrowed t)) (crecognize pexpr)).
(** object.rs:112-122 *)
Definition cobject_element (U : ucd) (pexpr : cparser expr) : cparser (okey * expr) :=
  cinline_whitespace_m (fun s =>
    let+ (r1, k) := cwrap inline_whitespace (cobject_element_identifier U pexpr) s in
    let+ (r2, _eq) := lift (wrap inline_whitespace (char_p c_eq)) r1 in
    let+ (r3, e) := cwrap inline_whitespace pexpr r2 in
    (Ok r3 (k, e), 0)).
(** object.rs:143-156 *)
Definition cobject_body (U : ucd) (pexpr : cparser expr) : cparser (list (okey * expr)) :=
  cwhitespace_m
    (cmany0 (cwrap whitespace (cterminated (cobject_element U pexpr) (lift object_separator)))).
(** object.rs:158-166 *)
Definition cobject (U : ucd) (pexpr : cparser expr) : cparser (list (okey * expr)) := fun s =>
  let+ (r1, _b) := lift (whitespace_m (wrap whitespace (char_p c_lbrace))) s in
  let+ (r2, values) := cwhitespace_m (cwrap whitespace (cobject_body U pexpr)) r1 in
  let+ (r3, _e) := lift (char_p c_rbrace) r2 in
  (Ok r3 values, 0).
(** expression.rs:176-185 *)
Definition cbracket_expression (pexpr : cparser expr) : cparser expr := fun s =>
  let+ (r1, _b) := lift (whitespace_m (wrap whitespace (tag (lit "(")))) s in
  let+ (r2, e) := cwhitespace_m (cwrap whitespace pexpr) r1 in
  let+ (r3, _e) := lift (tag (lit ")")) r2 in
  (Ok r3 e, 0).
(** expression.rs:187-212 *)
Definition cexpression_step (U : ucd) (pexpr : cparser expr) : cparser expr :=
  calt (lift (pmap (fun _ => ENull) null))
 (calt (lift (pmap ENumber number))
 (calt (lift (pmap EBool boolean))
 (calt (lift (pmap EString (string_p U)))
 (calt (cpmap ETuple (ctuple pexpr))
 (calt (cpmap EObject (cobject U pexpr))
       (cbracket_expression pexpr)))))).
Fixpoint cexpression_f (U : ucd) (fuel : nat) : cparser expr :=
  match fuel with
  | O => fun _ => (OutOfFuel, 0)
  | S f => tick (cexpression_step U (cexpression_f U f))
  end.
Definition cexpression (U : ucd) : cparser expr := fun s => cexpression_f U (S (length s)) s.
(** attribute.rs:14-24 *)
Definition cattribute (U : ucd) : cparser (cow * expr) :=
  cinline_whitespace_m (fun s =>
    let+ (r1, i) := lift (wrap inline_whitespace (identifier U)) s in
    let+ (r2, _eq) := lift (wrap inline_whitespace (char_p c_eq)) r1 in
    let+ (r3, e) := cwrap inline_whitespace (cexpression U) r2 in
    (Ok r3 (i, e), 0)).
(** block.rs:157-169 *)
Definition cone_line_block (U : ucd) : cparser element :=
  cinline_whitespace_m (fun s =>
    let+ (r1, t) := lift (wrap inline_whitespace (identifier U)) s in
    let+ (r2, ls) := lift (wrap inline_whitespace (block_labels U)) r1 in
    let+ (r3, _o) := lift (wrap inline_whitespace (tag (lit "{"))) r2 in
    let+ (r4, a) := cwrap inline_whitespace (copt (cattribute U)) r3 in
    let+ (r5, _c) := lift (wrap inline_whitespace (tag (lit "}"))) r4 in
    (Ok r5 (new_one_line t ls a), 0)).
(** block.rs:171-184 *)
Definition cblock (U : ucd) (pbody : cparser body_t) : cparser element :=
  cinline_whitespace_m (fun s =>
    let+ (r1, t) := lift (wrap inline_whitespace (identifier U)) s in
    let+ (r2, ls) := lift (wrap inline_whitespace (block_labels U)) r1 in
    let+ (r3, _o) := lift (wrap inline_whitespace (tag (lit "{"))) r2 in
    let+ (r4, _n) := lift (wrap inline_whitespace newline) r3 in
    let+ (r5, b) := cwrap inline_whitespace pbody r4 in
    let+ (r6, _c) := lift (wrap inline_whitespace (tag (lit "}"))) r5 in
    (Ok r6 (Blk t ls b), 0)).
(** body.rs:89-102 *)
Definition cbody_element (U : ucd) (pbody : cparser body_t) : cparser element :=
  calt (cpmap (fun nv => Attr (fst nv) (snd nv)) (cattribute U))
 (calt (cone_line_block U) (cblock U pbody)).
(** body.rs:104-126 *)
Definition cbody_step (U : ucd) (pbody : cparser body_t) : cparser body_t :=
  cwhitespace_m
    (cmany0 (cwrap whitespace
      (cterminated (cbody_element U pbody)
                   (lift (alt (pmap (fun _ => []) newline) eof))))).
Fixpoint cbody_f (U : ucd) (fuel : nat) : cparser body_t :=
  match fuel with
  | O => fun _ => (OutOfFuel, 0)
  | S f => tick (cbody_step U (cbody_f U f))
  end.
Definition cbody (U : ucd) : cparser body_t := fun s => cbody_f U (S (length s)) s.
(** parser.rs:176-177, 182-197 *)
Definition cconfig_file (U : ucd) : cparser body_t := cterminated (cbody U) (lift eof).
(** The number of calls of [expression] and [body] during [parse_str] and
    [Expression::parse] *)
Definition parse_str_calls (U : ucd) (s : str) : nat := snd (cconfig_file U s).
Definition expression_parse_calls (U : ucd) (s : str) : nat := snd (cexpression U s).

(** ** [OldParser.v] *)
(** parser.rs:50-79 *)
Definition cvlist (pv : cparser value) : cparser (list value) :=
  cpreceded (lift (char_p c_lbracket))
    (cterminated
      (cwhitespace_m
        (cseparated_list (wrap whitespace (char_p c_comma)) (cwrap whitespace pv)))
      (lift (terminated
        (whitespace_m (wrap whitespace (opt (char_p c_comma))))
        (char_p c_rbracket)))).
(** parser.rs:93-101 *)
Definition cmap_expression (pm : cparser mapvalues) : cparser mapvalues := fun s =>
  let+ (r1, _b) := lift (whitespace_m (wrap whitespace (char_p c_lbrace))) s in
  let+ (r2, values) := cwhitespace_m (cwrap whitespace pm) r1 in
  let+ (r3, _e) := lift (char_p c_rbrace) r2 in
  (Ok r3 values, 0).
(** parser.rs:81-91 *)
Definition csingle_value_step (U : ucd) (pv : cparser value) (pm : cparser mapvalues) : cparser value :=
  calt (lift (pmap (fun _ => VNull) null))
 (calt (lift literal_number)
 (calt (lift (pmap VBoolean boolean))
 (calt (lift (pmap (fun c => VString (cow_str c)) (string_p U)))
 (calt (cpmap VList (cvlist pv))
       (cpmap (fun m => VObject [m]) (cmap_expression pm)))))).
(** parser.rs:103-129 *)
Definition cold_attribute (U : ucd) (pv : cparser value) (pm : cparser mapvalues) : cparser (key * value) :=
  cinline_whitespace_m
 (calt (fun s =>
        let+ (r1, k) := lift (wrap inline_whitespace (literal_key U)) s in
        let+ (r2, _eq) := lift (wrap inline_whitespace (char_p c_eq)) r1 in
        let+ (r3, v) := cwrap inline_whitespace pv r2 in
        (Ok r3 (k, v), 0))
 (calt (fun s =>
        let+ (r1, i) := lift (wrap inline_whitespace (identifier U)) s in
        let+ (r2, _eq) := lift (wrap inline_whitespace (opt (char_p c_eq))) r1 in
        let+ (r3, m) := cwrap inline_whitespace (cmap_expression pm) r2 in
        (Ok r3 (KeyIdent (cow_str i), VObject [m]), 0))
       (fun s =>
        let+ (r1, i) := lift (wrap inline_whitespace (identifier U)) s in
        let+ (r2, keys) := lift (many0 (wrap inline_whitespace string_literal)) r1 in
        let+ (r3, m) := cwrap inline_whitespace (cmap_expression pm) r2 in
        (Ok r3 (KeyIdent (cow_str i), VBlock (Unmerged [(keys, m)])), 0)))).
(** parser.rs:131-148 *)
Definition cmap_values_step (U : ucd) (pv : cparser value) (pm : cparser mapvalues) : cparser mapvalues := fun s =>
  let+ (r, values) :=
    cwhitespace_m (cmany0 (cwrap whitespace (cterminated (cold_attribute U pv pm) (lift old_separator)))) s in
  (Ok r (Unmerged values), 0).
Fixpoint cold_f (U : ucd) (fuel : nat) : cparser value * cparser mapvalues :=
  match fuel with
  | O => (fun _ => (OutOfFuel, 0), fun _ => (OutOfFuel, 0))
  | S f =>
      let (pv, pm) := cold_f U f in
      (tick (csingle_value_step U pv pm), tick (cmap_values_step U pv pm))
  end.
Definition cmap_values (U : ucd) : cparser mapvalues := fun s => snd (cold_f U (S (length s))) s.
(** parser.rs:150-153 *)
Definition cold_body (U : ucd) : cparser mapvalues := cterminated (cmap_values U) (lift eof).
(** The number of calls of [single_value] and [map_values] during [value::from_str] *)
Definition value_from_str_calls (U : ucd) (s : str) : nat := snd (cold_body U s).
