(** * DepthCount: how deeply the parsers call each other

    The parsers of [Parser.v] and [OldParser.v] once more, each result together with the
    largest number of calls of the recursive ones that were under way at the same time:
    [expression] and [body] of the strict parser, [single_value] and [map_values] of the
    parser behind [value::from_str].  Each such call is a frame (and more) on the thread's stack.
    Forgetting the numbers gives the parsers back ([..._erase] in DepthProofs.v).
    Same layout as CallCount.v, with the maximum in the place of the sum. *)
From Coq Require Import SpecFloat ZArith.
From Verif Require Import Base Nom Ast Lex Parser NumConv Utf8 Kvp Value OldParser.
Close Scope Z_scope.
Open Scope nat_scope.

Definition dparser (A : Type) := str -> res A * nat.
Definition upto {A} (n : nat) (x : res A * nat) : res A * nat := (fst x, Nat.max n (snd x)).
(** A parser that calls none of the recursive ones *)
Definition flat {A} (p : parser A) : dparser A := fun s => (p s, 0).
(** Entering a recursive parser *)
Definition enter {A} (p : dparser A) : dparser A := fun s => (fst (p s), S (snd (p s))).
Definition dbind {A B} (x : res A * nat) (f : str -> A -> res B * nat) : res B * nat :=
  match x with
  | (Ok r v, n) => upto n (f r v)
  | (Err, n) => (Err, n)
  | (Fail q, n) => (Fail q, n)
  | (Panic, n) => (Panic, n)
  | (OutOfFuel, n) => (OutOfFuel, n)
  end.
Notation "'let^' ( r , v ) := x 'in' k" :=
  (dbind x (fun r v => k))
  (at level 200, r name, v name, x at level 100, k at level 200, right associativity).

(** The combinators of [Nom.v] and [Lex.v] *)
Definition dalt {A} (p q : dparser A) : dparser A := fun s =>
  match p s with
  | (Err, n) => upto n (q s)
  | x => x
  end.
Definition dopt {A} (p : dparser A) : dparser (option A) := fun s =>
  match p s with
  | (Ok r v, n) => (Ok r (Some v), n)
  | (Err, n) => (Ok s None, n)
  | (Fail q, n) => (Fail q, n)
  | (Panic, n) => (Panic, n)
  | (OutOfFuel, n) => (OutOfFuel, n)
  end.
Definition dpmap {A B} (f : A -> B) (p : dparser A) : dparser B := fun s => (map_res f (fst (p s)), snd (p s)).
Definition dpreceded {A B} (p : dparser A) (q : dparser B) : dparser B := fun s =>
  let^ (r, _v) := p s in q r.
Definition dterminated {A B} (p : dparser A) (q : dparser B) : dparser A := fun s =>
  let^ (r, v) := p s in let^ (r', _w) := q r in (Ok r' v, 0).
Definition drecognize {A} (p : dparser A) : dparser str := fun s =>
  let^ (r, _v) := p s in (Ok r (firstn (length s - length r) s), 0).
Fixpoint dmany0_loop {A} (fuel : nat) (p : dparser A) (s : str) : res (list A) * nat :=
  match fuel with
  | O => (OutOfFuel, 0)
  | S f =>
      match p s with
      | (Ok r v, n) =>
          if str_eqb r s then (Ok s [], n)
          else let x := dmany0_loop f p r in (map_res (cons v) (fst x), Nat.max n (snd x))
      | (Err, n) => (Ok s [], n)
      | (Fail q, n) => (Fail q, n)
      | (Panic, n) => (Panic, n)
      | (OutOfFuel, n) => (OutOfFuel, n)
      end
  end.
Definition dmany0 {A} (p : dparser A) : dparser (list A) := fun s => dmany0_loop (S (length s)) p s.
Fixpoint dsep_loop {A B} (fuel : nat) (sep : parser B) (p : dparser A) (s : str) : res (list A) * nat :=
  match fuel with
  | O => (OutOfFuel, 0)
  | S f =>
      match sep s with
      | Ok s2 _ =>
          if Nat.eqb (length s2) (length s) then (Ok s [], 0)
          else
            match p s2 with
            | (Ok s3 v, n) =>
                if Nat.eqb (length s3) (length s2) then (Err, n)
                else let x := dsep_loop f sep p s3 in (map_res (cons v) (fst x), Nat.max n (snd x))
            | (Err, n) => (Ok s [], n)
            | (Fail q, n) => (Fail q, n)
            | (Panic, n) => (Panic, n)
            | (OutOfFuel, n) => (OutOfFuel, n)
            end
      | Err => (Ok s [], 0)
      | Fail q => (Fail q, 0)
      | Panic => (Panic, 0)
      | OutOfFuel => (OutOfFuel, 0)
      end
  end.
Definition dseparated_list {A B} (sep : parser B) (p : dparser A) : dparser (list A) := fun s =>
  match p s with
  | (Ok r v, n) =>
      if Nat.eqb (length r) (length s) then (Err, n)
      else let x := dsep_loop (S (length r)) sep p r in (map_res (cons v) (fst x), Nat.max n (snd x))
  | (Err, n) => (Ok s [], n)
  | (Fail q, n) => (Fail q, n)
  | (Panic, n) => (Panic, n)
  | (OutOfFuel, n) => (OutOfFuel, n)
  end.
Definition dwrap {A} (sp : parser (list str)) (p : dparser A) : dparser A := dpreceded (flat sp) p.
Definition dinline_whitespace_m {A} (p : dparser A) : dparser A := dterminated p (flat inline_whitespace).
Definition dwhitespace_m {A} (p : dparser A) : dparser A := dterminated p (flat whitespace).

(** ** [Parser.v] *)
(** tuple.rs:19-50 *)
Definition dtuple (pexpr : dparser expr) : dparser (list expr) :=
  dpreceded (flat (char_p c_lbracket))
    (dterminated
      (dwhitespace_m
        (dseparated_list (wrap whitespace (char_p c_comma)) (dwrap whitespace pexpr)))
      (flat (terminated
        (whitespace_m (wrap whitespace (opt (char_p c_comma))))
        (char_p c_rbracket)))).
(** object.rs:99-110 *)
Definition dobject_element_identifier (U : ucd) (pexpr : dparser expr) : dparser okey :=
  dalt (flat (pmap KIdent (identifier U)))
       (dpmap (fun t => KExpr (Borrowed t)) (drecognize pexpr)).
(** object.rs:112-122 *)
Definition dobject_element (U : ucd) (pexpr : dparser expr) : dparser (okey * expr) :=
  dinline_whitespace_m (fun s =>
    let^ (r1, k) := dwrap inline_whitespace (dobject_element_identifier U pexpr) s in
    let^ (r2, _eq) := flat (wrap inline_whitespace (char_p c_eq)) r1 in
    let^ (r3, e) := dwrap inline_whitespace pexpr r2 in
    (Ok r3 (k, e), 0)).
(** object.rs:143-156 *)
Definition dobject_body (U : ucd) (pexpr : dparser expr) : dparser (list (okey * expr)) :=
  dwhitespace_m
    (dmany0 (dwrap whitespace (dterminated (dobject_element U pexpr) (flat object_separator)))).
(** object.rs:158-166 *)
Definition dobject (U : ucd) (pexpr : dparser expr) : dparser (list (okey * expr)) := fun s =>
  let^ (r1, _b) := flat (whitespace_m (wrap whitespace (char_p c_lbrace))) s in
  let^ (r2, values) := dwhitespace_m (dwrap whitespace (dobject_body U pexpr)) r1 in
  let^ (r3, _e) := flat (char_p c_rbrace) r2 in
  (Ok r3 values, 0).
(** expression.rs:176-185 *)
Definition dbracket_expression (pexpr : dparser expr) : dparser expr := fun s =>
  let^ (r1, _b) := flat (whitespace_m (wrap whitespace (tag (lit "(")))) s in
  let^ (r2, e) := dwhitespace_m (dwrap whitespace pexpr) r1 in
  let^ (r3, _e) := flat (tag (lit ")")) r2 in
  (Ok r3 e, 0).
(** expression.rs:187-212 *)
Definition dexpression_step (U : ucd) (pexpr : dparser expr) : dparser expr :=
  dalt (flat (pmap (fun _ => ENull) null))
 (dalt (flat (pmap ENumber number))
 (dalt (flat (pmap EBool boolean))
 (dalt (flat (pmap EString (string_p U)))
 (dalt (dpmap ETuple (dtuple pexpr))
 (dalt (dpmap EObject (dobject U pexpr))
       (dbracket_expression pexpr)))))).
Fixpoint dexpression_f (U : ucd) (fuel : nat) : dparser expr :=
  match fuel with
  | O => fun _ => (OutOfFuel, 0)
  | S f => enter (dexpression_step U (dexpression_f U f))
  end.
Definition dexpression (U : ucd) : dparser expr := fun s => dexpression_f U (S (length s)) s.
(** attribute.rs:14-24 *)
Definition dattribute (U : ucd) : dparser (cow * expr) :=
  dinline_whitespace_m (fun s =>
    let^ (r1, i) := flat (wrap inline_whitespace (identifier U)) s in
    let^ (r2, _eq) := flat (wrap inline_whitespace (char_p c_eq)) r1 in
    let^ (r3, e) := dwrap inline_whitespace (dexpression U) r2 in
    (Ok r3 (i, e), 0)).
(** block.rs:157-169 *)
Definition done_line_block (U : ucd) : dparser element :=
  dinline_whitespace_m (fun s =>
    let^ (r1, t) := flat (wrap inline_whitespace (identifier U)) s in
    let^ (r2, ls) := flat (wrap inline_whitespace (block_labels U)) r1 in
    let^ (r3, _o) := flat (wrap inline_whitespace (tag (lit "{"))) r2 in
    let^ (r4, a) := dwrap inline_whitespace (dopt (dattribute U)) r3 in
    let^ (r5, _c) := flat (wrap inline_whitespace (tag (lit "}"))) r4 in
    (Ok r5 (new_one_line t ls a), 0)).
(** block.rs:171-184 *)
Definition dblock (U : ucd) (pbody : dparser body_t) : dparser element :=
  dinline_whitespace_m (fun s =>
    let^ (r1, t) := flat (wrap inline_whitespace (identifier U)) s in
    let^ (r2, ls) := flat (wrap inline_whitespace (block_labels U)) r1 in
    let^ (r3, _o) := flat (wrap inline_whitespace (tag (lit "{"))) r2 in
    let^ (r4, _n) := flat (wrap inline_whitespace newline) r3 in
    let^ (r5, b) := dwrap inline_whitespace pbody r4 in
    let^ (r6, _c) := flat (wrap inline_whitespace (tag (lit "}"))) r5 in
    (Ok r6 (Blk t ls b), 0)).
(** body.rs:89-102 *)
Definition dbody_element (U : ucd) (pbody : dparser body_t) : dparser element :=
  dalt (dpmap (fun nv => Attr (fst nv) (snd nv)) (dattribute U))
 (dalt (done_line_block U) (dblock U pbody)).
(** body.rs:104-126 *)
Definition dbody_step (U : ucd) (pbody : dparser body_t) : dparser body_t :=
  dwhitespace_m
    (dmany0 (dwrap whitespace
      (dterminated (dbody_element U pbody)
                   (flat (alt (pmap (fun _ => []) newline) eof))))).
Fixpoint dbody_f (U : ucd) (fuel : nat) : dparser body_t :=
  match fuel with
  | O => fun _ => (OutOfFuel, 0)
  | S f => enter (dbody_step U (dbody_f U f))
  end.
Definition dbody (U : ucd) : dparser body_t := fun s => dbody_f U (S (length s)) s.
(** parser.rs:176-177, 182-197 *)
Definition dconfig_file (U : ucd) : dparser body_t := dterminated (dbody U) (flat eof).
(** The largest number of calls of [expression] and [body] under way at once, during [parse_str] and
    [Expression::parse] *)
Definition parse_str_depth (U : ucd) (s : str) : nat := snd (dconfig_file U s).
Definition expression_parse_depth (U : ucd) (s : str) : nat := snd (dexpression U s).

(** ** [OldParser.v] *)
(** parser.rs:50-79 *)
Definition dvlist (pv : dparser value) : dparser (list value) :=
  dpreceded (flat (char_p c_lbracket))
    (dterminated
      (dwhitespace_m
        (dseparated_list (wrap whitespace (char_p c_comma)) (dwrap whitespace pv)))
      (flat (terminated
        (whitespace_m (wrap whitespace (opt (char_p c_comma))))
        (char_p c_rbracket)))).
(** parser.rs:93-101 *)
Definition dmap_expression (pm : dparser mapvalues) : dparser mapvalues := fun s =>
  let^ (r1, _b) := flat (whitespace_m (wrap whitespace (char_p c_lbrace))) s in
  let^ (r2, values) := dwhitespace_m (dwrap whitespace pm) r1 in
  let^ (r3, _e) := flat (char_p c_rbrace) r2 in
  (Ok r3 values, 0).
(** parser.rs:81-91 *)
Definition dsingle_value_step (U : ucd) (pv : dparser value) (pm : dparser mapvalues) : dparser value :=
  dalt (flat (pmap (fun _ => VNull) null))
 (dalt (flat literal_number)
 (dalt (flat (pmap VBoolean boolean))
 (dalt (flat (pmap (fun c => VString (cow_str c)) (string_p U)))
 (dalt (dpmap VList (dvlist pv))
       (dpmap (fun m => VObject [m]) (dmap_expression pm)))))).
(** parser.rs:103-129 *)
Definition dold_attribute (U : ucd) (pv : dparser value) (pm : dparser mapvalues) : dparser (key * value) :=
  dinline_whitespace_m
 (dalt (fun s =>
        let^ (r1, k) := flat (wrap inline_whitespace (literal_key U)) s in
        let^ (r2, _eq) := flat (wrap inline_whitespace (char_p c_eq)) r1 in
        let^ (r3, v) := dwrap inline_whitespace pv r2 in
        (Ok r3 (k, v), 0))
 (dalt (fun s =>
        let^ (r1, i) := flat (wrap inline_whitespace (identifier U)) s in
        let^ (r2, _eq) := flat (wrap inline_whitespace (opt (char_p c_eq))) r1 in
        let^ (r3, m) := dwrap inline_whitespace (dmap_expression pm) r2 in
        (Ok r3 (KeyIdent (cow_str i), VObject [m]), 0))
       (fun s =>
        let^ (r1, i) := flat (wrap inline_whitespace (identifier U)) s in
        let^ (r2, keys) := flat (many0 (wrap inline_whitespace string_literal)) r1 in
        let^ (r3, m) := dwrap inline_whitespace (dmap_expression pm) r2 in
        (Ok r3 (KeyIdent (cow_str i), VBlock (Unmerged [(keys, m)])), 0)))).
(** parser.rs:131-148 *)
Definition dmap_values_step (U : ucd) (pv : dparser value) (pm : dparser mapvalues) : dparser mapvalues := fun s =>
  let^ (r, values) :=
    dwhitespace_m (dmany0 (dwrap whitespace (dterminated (dold_attribute U pv pm) (flat old_separator)))) s in
  (Ok r (Unmerged values), 0).
Fixpoint dold_f (U : ucd) (fuel : nat) : dparser value * dparser mapvalues :=
  match fuel with
  | O => (fun _ => (OutOfFuel, 0), fun _ => (OutOfFuel, 0))
  | S f =>
      let (pv, pm) := dold_f U f in
      (enter (dsingle_value_step U pv pm), enter (dmap_values_step U pv pm))
  end.
Definition dmap_values (U : ucd) : dparser mapvalues := fun s => snd (dold_f U (S (length s))) s.
(** parser.rs:150-153 *)
Definition dold_body (U : ucd) : dparser mapvalues := dterminated (dmap_values U) (flat eof).
(** The same for [single_value] and [map_values] during [value::from_str] *)
Definition value_from_str_depth (U : ucd) (s : str) : nat := snd (dold_body U s).
