(** * Debug: the text the command line tool writes, [{:#?}] of a [MapValues]

    [#[derive(Debug)]] on [Value] (lib/src/value.rs:12), [KeyValuePairs] (lib/src/lib.rs:149) and [Key]
    (lib/src/parser/literals/key.rs:12), formatted with [{:#?}] (cli/src/main.rs:56).  The derived code calls the
    builders of [std::fmt] (external code, modelled here: [DebugTuple], [DebugList], [DebugMap] and the
    [PadAdapter] that indents; the last line of every group ends in a comma since Rust 1.35).
    Parameters: the text of a float ([{:?}] of [f64]), which characters [char::escape_debug]
    leaves as they are, and which of the single quote and NUL it writes as a backslash and one character
    (this changed between releases of Rust). *)
From Coq Require Import ZArith SpecFloat.
From Verif Require Import Base NumConv Kvp Value.
Close Scope Z_scope.
Open Scope N_scope.
Open Scope list_scope.

(** std::fmt::builders [PadAdapter]: four blanks before the first character of every line *)
Fixpoint pad (on_newline : bool) (s : str) : str :=
  match s with
  | [] => []
  | c :: s' => (if on_newline then lit "    " else []) ++ c :: pad (c =? c_lf) s'
  end.
(** [DebugTuple] with fields: the derived code of a variant with contents, and of pairs (name empty) *)
Definition debug_tuple (name : str) (fields : list str) : str :=
  name ++ lit "(" ++ [c_lf] ++ flat_map (fun f => pad true (f ++ lit "," ++ [c_lf])) fields ++ lit ")".
(** [DebugList] *)
Definition debug_list (l : list str) : str :=
  lit "[" ++ match l with [] => [] | _ => [c_lf] end ++ flat_map (fun f => pad true (f ++ lit "," ++ [c_lf])) l ++ lit "]".
(** [DebugMap] *)
Definition debug_map (l : list (str * str)) : str :=
  lit "{" ++ match l with [] => [] | _ => [c_lf] end ++
  flat_map (fun kv => pad true (fst kv ++ lit ": " ++ snd kv ++ lit "," ++ [c_lf])) l ++ lit "}".

(** [char::escape_unicode]: lower case hexadecimal digits, no leading zeros *)
Definition hex_digit (n : N) : N := if n <? 10 then 48 + n else 87 + n.
Fixpoint hex_loop (fuel : nat) (n : N) (acc : str) : str :=
  match fuel with
  | O => acc
  | S f => let acc' := hex_digit (n mod 16) :: acc in if n / 16 =? 0 then acc' else hex_loop f (n / 16) acc'
  end.
Definition hex_str (n : N) : str := hex_loop (S (N.size_nat n)) n [].

Section WithStd.
Context (printable short : N -> bool) (show_float : spec_float -> str).

(** [char::escape_debug] as [Debug for str] uses it *)
Definition escape_debug (c : N) : str :=
  if c =? 9 then lit "\t" else if c =? 13 then lit "\r" else if c =? 10 then lit "\n"
  else if c =? 34 then [92; 34] else if c =? 92 then [92; 92]
  else if (c =? 39) && short c then [92; 39] else if (c =? 0) && short c then [92; 48]
  else if printable c then [c] else lit "\u{" ++ hex_str c ++ lit "}".
(** [Debug for str]; [String] and [Cow<str>] pass on to it *)
Definition debug_str (s : str) : str := [34] ++ flat_map escape_debug s ++ [34].
(** parser/literals/key.rs:12-16 *)
Definition debug_key (k : key) : str :=
  match k with
  | KeyIdent s => debug_tuple (lit "Identifier") [debug_str s]
  | KeyString s => debug_tuple (lit "String") [debug_str s]
  end.
(** lib.rs:149-156 *)
Definition debug_kvp {K V} (dk : K -> str) (dv : V -> str) (p : kvp K V) : str :=
  match p with
  | Merged m => debug_tuple (lit "Merged") [debug_map (map (fun kv => (dk (fst kv), dv (snd kv))) m)]
  | Unmerged l => debug_tuple (lit "Unmerged") [debug_list (map (fun kv => debug_tuple [] [dk (fst kv); dv (snd kv)]) l)]
  end.
(** value.rs:12-23 *)
Fixpoint debug_value (v : value) : str :=
  match v with
  | VNull => lit "Null"
  | VInteger i => debug_tuple (lit "Integer") [int_to_string i]
  | VFloat f => debug_tuple (lit "Float") [show_float f]
  | VBoolean b => debug_tuple (lit "Boolean") [lit (if b then "true" else "false")]
  | VString s => debug_tuple (lit "String") [debug_str s]
  | VList l => debug_tuple (lit "List") [debug_list (map debug_value l)]
  | VObject l => debug_tuple (lit "Object") [debug_list (map (debug_kvp debug_key debug_value) l)]
  | VBlock b => debug_tuple (lit "Block")
      [debug_kvp (fun ls => debug_list (map debug_str ls)) (debug_kvp debug_key debug_value) b]
  end.
(** cli/src/main.rs:56: the [MapValues] that [from_reader] returned *)
Definition debug_mapvalues (p : mapvalues) : str := debug_kvp debug_key debug_value p.
End WithStd.
