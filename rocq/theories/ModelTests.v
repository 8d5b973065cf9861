(** * ModelTests: the repository's own unit tests, run on the model

    These are not proofs of properties: they check that the model computes what the
    crate's tests say the code computes (each test is named after the Rust test it
    transcribes).  Expected trees are compared with the crate's own equality, as
    [assert_eq!] does. *)
From Coq Require Import ZArith SpecFloat.
From Verif Require Import Base Nom Ast Lex Parser Utf8 NumConv FloatConv Blocks Kvp Value Access OldParser Equality Serde TakeTill MergeExec.

(** Rust string literals (UTF-8 in this file) *)
Definition u (s : string) : str := match from_utf8 (lit s) with Some t => t | None => [] end.
(** The Unicode tables on the characters that occur *)
Definition T : ucd := mk_ucd (fun c => existsb (N.eqb c) [34255; 12443; 32769; 34382])
  (fun c => existsb (N.eqb c) [34255; 12443; 32769; 34382]) (fun c => existsb (N.eqb c) [34255; 12443; 32769; 34382; 9312]).
(** [p(CompleteStr(input)).unwrap()] gives this remaining input and a value passing the check *)
Definition gives {A} (p : parser A) (input : str) (check : A -> bool) (rest : str) : bool :=
  match p input with Ok r v => str_eqb r rest && check v | _ => false end.
Definition fails {A} (p : parser A) (input : str) : bool := match p input with Err => true | Fail _ => true | _ => false end.
Definition is_cow (s : string) (c : cow) : bool := str_eqb (cow_str c) (u s).
Definition is_str (s : string) (t : str) : bool := str_eqb t (u s).
(** [Expression::from] *)
Definition eI (z : Z) : expr := match e_from_int true I32 z with Some e => e | None => ENull end.
Definition f64 (s : string) : spec_float := match f64_from_str (lit s) with Some f => f | None => S754_nan end.
Definition eF (s : string) : expr := ENumber (from_float 53 1024 (fun _ => lit s) (f64 s)).
Definition eS (s : string) : expr := e_from_str (u s).
Definition eB := e_from_bool.
Definition eT (l : list expr) : expr := new_tuple l.
Definition eO (l : list (string * expr)) : expr := new_object (fun s => okey_from_str (u s)) l.
Definition at_ (n : string) (e : expr) : element := el_from_attribute (Borrowed (u n), e).
Definition bl (t : string) (ls : list label) (b : body_t) : element := el_from_block (block_new (Borrowed (u t)) ls b).
Definition LS (s : string) : label := LString (u s).
Definition LI (s : string) : label := LIdent (Borrowed (u s)).
Definition el_is (a b : element) : bool := element_eqb a b.
Definition obj_is (l : list (string * expr)) (o : list (okey * expr)) : bool := expr_eqb (eO l) (EObject o).
Definition E : parser expr := expression T.

(** ** utils.rs *)
Example strings_indices_are_returned_correctly : safe_indices (u "Löwe 老虎 Léopard") = [0; 1; 3; 4; 5; 6; 9; 12; 13; 14; 16; 17; 18; 19; 20]%nat.
Proof. vm_compute. reflexivity. Qed.
Example take_till_match_doc : ttm_str (alt (tag (lit "John")) (tag (lit "Amanda"))) (lit "Hello, Amanda and Tim") = Ok (lit " and Tim") (lit "Hello, ", lit "Amanda").
Proof. vm_compute. reflexivity. Qed.
(** ** parser/string.rs *)
Example unescaping_works_correctly : forallb (fun b => b)
  [gives (unescape) [97] (fun v => str_eqb v [7]) [];
   gives (unescape) [98] (fun v => str_eqb v [8]) [];
   gives (unescape) [102] (fun v => str_eqb v [12]) [];
   gives (unescape) [110] (fun v => str_eqb v [10]) [];
   gives (unescape) [114] (fun v => str_eqb v [13]) [];
   gives (unescape) [116] (fun v => str_eqb v [9]) [];
   gives (unescape) [118] (fun v => str_eqb v [11]) [];
   gives (unescape) [92] (fun v => str_eqb v [92]) [];
   gives (unescape) [34] (fun v => str_eqb v [34]) [];
   gives (unescape) [63] (fun v => str_eqb v [63]) [];
   gives (unescape) [120; 102; 102] (fun v => str_eqb v [255]) [];
   gives (unescape) [50; 53; 49] (fun v => str_eqb v [169]) [];
   gives (unescape) [117; 68; 48; 48; 48] (fun v => str_eqb v [53248]) [];
   gives (unescape) [85; 50; 57; 48; 48; 48] (fun v => str_eqb v [167936]) []] = true.
Proof. vm_compute. reflexivity. Qed.
Example unescaping_invalid_unicode_errors : fails unescape (lit "UD800") = true.
Proof. vm_compute. reflexivity. Qed.
Example string_content_are_parsed_correctly : forallb (fun b => b)
  [gives (multiline_string_content) [] (fun v => str_eqb v []) [];
   gives (multiline_string_content) [97; 98; 99; 100] (fun v => str_eqb v [97; 98; 99; 100]) [];
   gives (multiline_string_content) [97; 98; 92; 34; 99; 100] (fun v => str_eqb v [97; 98; 34; 99; 100]) [];
   gives (multiline_string_content) [97; 98; 32; 92; 92; 32; 99; 100] (fun v => str_eqb v [97; 98; 32; 92; 32; 99; 100]) [];
   gives (multiline_string_content) [97; 98; 32; 92; 110; 32; 99; 100] (fun v => str_eqb v [97; 98; 32; 10; 32; 99; 100]) [];
   gives (multiline_string_content) [97; 98; 32; 92; 63; 32; 99; 100] (fun v => str_eqb v [97; 98; 32; 63; 32; 99; 100]) [];
   gives (multiline_string_content) [97; 98; 32; 92; 120; 102; 102; 32; 92; 50; 53; 49; 32; 92; 117; 68; 48; 48; 48; 32; 92; 85; 50; 57; 48; 48; 48] (fun v => str_eqb v [97; 98; 32; 255; 32; 169; 32; 53248; 32; 167936]) [];
   gives (multiline_string_content) [97; 98; 10; 99; 100] (fun v => str_eqb v [97; 98; 10; 99; 100]) []] = true.
Proof. vm_compute. reflexivity. Qed.
Example quoted_string_literals_are_parsed_correctly : forallb (fun b => b)
  [gives (quoted_string) [34; 34] (fun v => str_eqb v []) [];
   gives (quoted_string) [34; 97; 98; 99; 100; 34] (fun v => str_eqb v [97; 98; 99; 100]) [];
   gives (quoted_string) [34; 97; 98; 92; 34; 99; 100; 34] (fun v => str_eqb v [97; 98; 34; 99; 100]) [];
   gives (quoted_string) [34; 97; 98; 32; 92; 92; 32; 99; 100; 34] (fun v => str_eqb v [97; 98; 32; 92; 32; 99; 100]) [];
   gives (quoted_string) [34; 97; 98; 32; 92; 110; 32; 99; 100; 34] (fun v => str_eqb v [97; 98; 32; 10; 32; 99; 100]) [];
   gives (quoted_string) [34; 97; 98; 32; 92; 63; 32; 99; 100; 34] (fun v => str_eqb v [97; 98; 32; 63; 32; 99; 100]) [];
   gives (quoted_string) [34; 97; 98; 32; 92; 120; 102; 102; 32; 92; 50; 53; 49; 32; 92; 117; 68; 48; 48; 48; 32; 92; 85; 50; 57; 48; 48; 48; 34] (fun v => str_eqb v [97; 98; 32; 255; 32; 169; 32; 53248; 32; 167936]) [];
   gives (quoted_string) [34; 97; 98; 10; 99; 100; 34] (fun v => str_eqb v [97; 98; 10; 99; 100]) []] = true.
Proof. vm_compute. reflexivity. Qed.
Example heredoc_identifier_is_parsed_correctly : forallb (fun b => b)
  [gives (heredoc_begin T) [60; 60; 69; 79; 70; 10] (fun h => str_eqb (hd_ident h) [69; 79; 70] && Bool.eqb (hd_indented h) false) [10];
   gives (heredoc_begin T) [60; 60; 45; 69; 79; 72; 10] (fun h => str_eqb (hd_ident h) [69; 79; 72] && Bool.eqb (hd_indented h) true) [10];
   gives (heredoc_begin T) [60; 60; 34255; 95; 13; 10] (fun h => str_eqb (hd_ident h) [34255; 95] && Bool.eqb (hd_indented h) false) [13; 10]] = true.
Proof. vm_compute. reflexivity. Qed.
Example heredoc_end_is_parsed_correctly : forallb (fun b => b)
  [gives (heredoc_end (mk_heredoc [69; 79; 70] false)) [10; 69; 79; 70; 10] (Nat.eqb 0) [10];
   gives (heredoc_end (mk_heredoc [69; 79; 72] true)) [10; 32; 32; 32; 32; 69; 79; 72; 10] (Nat.eqb 4) [10];
   gives (heredoc_end (mk_heredoc [69; 79; 70] false)) [13; 10; 69; 79; 70; 13; 10] (Nat.eqb 0) [13; 10]] = true.
Proof. vm_compute. reflexivity. Qed.
Example heredoc_strings_are_pased_correctly : forallb (fun b => b)
  [gives (heredoc_string T) [60; 60; 69; 79; 70; 10; 69; 79; 70; 10] (fun v => str_eqb (cow_str v) []) [10];
   gives (heredoc_string T) [60; 60; 69; 79; 70; 10; 115; 111; 109; 101; 116; 104; 105; 110; 103; 32; 32769; 34382; 10; 69; 79; 70; 10] (fun v => str_eqb (cow_str v) [115; 111; 109; 101; 116; 104; 105; 110; 103; 32; 32769; 34382]) [10];
   gives (heredoc_string T) [60; 60; 69; 79; 72; 10; 115; 111; 109; 101; 116; 104; 105; 110; 103; 10; 119; 105; 116; 104; 32; 32769; 34382; 10; 110; 101; 119; 32; 108; 105; 110; 101; 115; 10; 97; 110; 100; 32; 113; 117; 111; 116; 101; 115; 32; 34; 10; 32; 32; 32; 32; 32; 32; 32; 32; 32; 32; 32; 32; 32; 32; 32; 32; 32; 32; 32; 32; 69; 79; 72; 10] (fun v => str_eqb (cow_str v) [115; 111; 109; 101; 116; 104; 105; 110; 103; 10; 119; 105; 116; 104; 32; 32769; 34382; 10; 110; 101; 119; 32; 108; 105; 110; 101; 115; 10; 97; 110; 100; 32; 113; 117; 111; 116; 101; 115; 32; 34]) [10];
   gives (heredoc_string T) [60; 60; 45; 69; 79; 70; 10; 32; 32; 32; 32; 115; 116; 114; 105; 112; 10; 32; 32; 32; 32; 116; 104; 101; 10; 32; 32; 32; 32; 115; 112; 97; 99; 101; 115; 10; 32; 32; 32; 32; 98; 117; 116; 32; 32; 32; 32; 110; 111; 116; 32; 32; 32; 116; 104; 101; 115; 101; 32; 32769; 34382; 10; 32; 32; 32; 32; 69; 79; 70; 10] (fun v => str_eqb (cow_str v) [115; 116; 114; 105; 112; 10; 116; 104; 101; 10; 115; 112; 97; 99; 101; 115; 10; 98; 117; 116; 32; 32; 32; 32; 110; 111; 116; 32; 32; 32; 116; 104; 101; 115; 101; 32; 32769; 34382]) [10];
   gives (heredoc_string T) [60; 60; 45; 69; 79; 70; 10; 32; 32; 32; 32; 115; 116; 114; 105; 112; 10; 32; 32; 32; 32; 116; 104; 101; 10; 32; 32; 32; 32; 115; 112; 97; 99; 101; 115; 10; 32; 32; 32; 32; 98; 117; 116; 32; 32; 32; 32; 110; 111; 116; 32; 32; 32; 116; 104; 101; 115; 101; 32; 32769; 34382; 10; 32; 32; 69; 79; 70; 10] (fun v => str_eqb (cow_str v) [32; 32; 115; 116; 114; 105; 112; 10; 32; 32; 116; 104; 101; 10; 32; 32; 115; 112; 97; 99; 101; 115; 10; 32; 32; 98; 117; 116; 32; 32; 32; 32; 110; 111; 116; 32; 32; 32; 116; 104; 101; 115; 101; 32; 32769; 34382]) [10];
   gives (heredoc_string T) [60; 60; 45; 69; 79; 70; 10; 115; 116; 114; 105; 112; 10; 32; 32; 32; 32; 116; 104; 101; 10; 115; 112; 97; 99; 101; 115; 10; 32; 32; 32; 32; 98; 117; 116; 32; 32; 32; 32; 110; 111; 116; 32; 32; 32; 116; 104; 101; 115; 101; 32; 32769; 34382; 10; 32; 32; 69; 79; 70; 10] (fun v => str_eqb (cow_str v) [115; 116; 114; 105; 112; 10; 32; 32; 116; 104; 101; 10; 115; 112; 97; 99; 101; 115; 10; 32; 32; 98; 117; 116; 32; 32; 32; 32; 110; 111; 116; 32; 32; 32; 116; 104; 101; 115; 101; 32; 32769; 34382]) [10];
   gives (heredoc_string T) [60; 60; 45; 69; 79; 70; 10; 32; 32; 115; 116; 114; 105; 112; 10; 32; 32; 32; 32; 116; 104; 101; 10; 32; 32; 115; 112; 97; 99; 101; 115; 10; 32; 32; 32; 32; 98; 117; 116; 32; 32; 32; 32; 110; 111; 116; 32; 32; 32; 116; 104; 101; 115; 101; 32; 32769; 34382; 10; 32; 32; 32; 32; 69; 79; 70; 10] (fun v => str_eqb (cow_str v) [115; 116; 114; 105; 112; 10; 116; 104; 101; 10; 115; 112; 97; 99; 101; 115; 10; 98; 117; 116; 32; 32; 32; 32; 110; 111; 116; 32; 32; 32; 116; 104; 101; 115; 101; 32; 32769; 34382]) [10]] = true.
Proof. vm_compute. reflexivity. Qed.
Example strings_are_parsed_correctly : forallb (fun b => b)
  [gives (string_p T) [34; 34] (fun v => str_eqb (cow_str v) []) [];
   gives (string_p T) [34; 97; 98; 99; 100; 34] (fun v => str_eqb (cow_str v) [97; 98; 99; 100]) [];
   gives (string_p T) [34; 97; 98; 92; 34; 99; 100; 34] (fun v => str_eqb (cow_str v) [97; 98; 34; 99; 100]) [];
   gives (string_p T) [34; 97; 98; 32; 92; 92; 32; 99; 100; 34] (fun v => str_eqb (cow_str v) [97; 98; 32; 92; 32; 99; 100]) [];
   gives (string_p T) [34; 97; 98; 32; 92; 110; 32; 99; 100; 34] (fun v => str_eqb (cow_str v) [97; 98; 32; 10; 32; 99; 100]) [];
   gives (string_p T) [34; 97; 98; 32; 92; 63; 32; 99; 100; 34] (fun v => str_eqb (cow_str v) [97; 98; 32; 63; 32; 99; 100]) [];
   gives (string_p T) [34; 97; 98; 32; 92; 120; 102; 102; 32; 92; 50; 53; 49; 32; 92; 117; 68; 48; 48; 48; 32; 92; 85; 50; 57; 48; 48; 48; 34] (fun v => str_eqb (cow_str v) [97; 98; 32; 255; 32; 169; 32; 53248; 32; 167936]) [];
   gives (string_p T) [60; 60; 69; 79; 70; 10; 32; 32; 32; 32; 69; 79; 70; 10] (fun v => str_eqb (cow_str v) []) [10];
   gives (string_p T) [60; 60; 69; 79; 70; 10; 115; 111; 109; 101; 116; 104; 105; 110; 103; 10; 32; 32; 32; 32; 69; 79; 70; 10] (fun v => str_eqb (cow_str v) [115; 111; 109; 101; 116; 104; 105; 110; 103]) [10];
   gives (string_p T) [60; 60; 69; 79; 72; 10; 115; 111; 109; 101; 116; 104; 105; 110; 103; 10; 119; 105; 116; 104; 10; 110; 101; 119; 32; 108; 105; 110; 101; 115; 10; 97; 110; 100; 32; 113; 117; 111; 116; 101; 115; 32; 34; 10; 32; 32; 32; 32; 32; 32; 32; 32; 32; 32; 32; 32; 32; 32; 32; 32; 32; 32; 32; 32; 32; 32; 32; 32; 69; 79; 72; 10] (fun v => str_eqb (cow_str v) [115; 111; 109; 101; 116; 104; 105; 110; 103; 10; 119; 105; 116; 104; 10; 110; 101; 119; 32; 108; 105; 110; 101; 115; 10; 97; 110; 100; 32; 113; 117; 111; 116; 101; 115; 32; 34]) [10]] = true.
Proof. vm_compute. reflexivity. Qed.
(** ** boolean.rs, null.rs, identifier.rs, whitespace.rs *)
Example booleans_are_parsed_correctly : forallb (fun b => b)
  [gives boolean (lit "true") (Bool.eqb true) [];
   gives boolean (lit "false") (Bool.eqb false) []] = true.
Proof. vm_compute. reflexivity. Qed.
Example parses_for_null : gives null (lit "null") (fun _ => true) [] = true.
Proof. vm_compute. reflexivity. Qed.
Example errors_for_non_null : null (lit "true") = Err.
Proof. vm_compute. reflexivity. Qed.
Example identifiers_are_parsed_correctly : forallb (fun b => b)
  [gives (identifier T) [97; 98; 99; 100; 49; 50; 51] (fun v => str_eqb (cow_str v) [97; 98; 99; 100; 49; 50; 51]) [];
   gives (identifier T) [97; 98; 99; 100; 95; 49; 50; 51] (fun v => str_eqb (cow_str v) [97; 98; 99; 100; 95; 49; 50; 51]) [];
   gives (identifier T) [97; 98; 99; 100; 45; 49; 50; 51] (fun v => str_eqb (cow_str v) [97; 98; 99; 100; 45; 49; 50; 51]) [];
   gives (identifier T) [95; 97; 98; 99] (fun v => str_eqb (cow_str v) [95; 97; 98; 99]) [];
   gives (identifier T) [12443; 34255; 95; 97] (fun v => str_eqb (cow_str v) [12443; 34255; 95; 97]) []] = true.
Proof. vm_compute. reflexivity. Qed.
Example incorrect_identifiers_are_not_accepted : forallb (fun b => b)
  [fails (identifier T) [49; 97; 98; 99];
   fails (identifier T) [9312; 95; 105; 115; 95; 115; 111; 109; 101; 95; 110; 117; 109; 98; 101; 114]] = true.
Proof. vm_compute. reflexivity. Qed.
Example whitespace_finds_comments : forallb (fun b => b)
  [gives whitespace [32; 32; 9; 13; 10] (fun v => list_eqb str_eqb v [[32; 32; 9; 13; 10]]) [];
   gives whitespace [35; 32; 84; 101; 115; 116; 32; 67; 111; 109; 109; 101; 110; 116; 13; 10] (fun v => list_eqb str_eqb v [[32; 84; 101; 115; 116; 32; 67; 111; 109; 109; 101; 110; 116]]) [];
   gives whitespace [47; 47; 32; 84; 101; 115; 116; 32; 67; 111; 109; 109; 101; 110; 116; 10] (fun v => list_eqb str_eqb v [[32; 84; 101; 115; 116; 32; 67; 111; 109; 109; 101; 110; 116]]) [];
   gives whitespace [47; 42; 32; 84; 101; 115; 116; 32; 67; 111; 109; 109; 101; 110; 116; 32; 79; 110; 101; 32; 108; 105; 110; 101; 114; 32; 42; 47] (fun v => list_eqb str_eqb v [[32; 84; 101; 115; 116; 32; 67; 111; 109; 109; 101; 110; 116; 32; 79; 110; 101; 32; 108; 105; 110; 101; 114; 32]]) [];
   gives whitespace [47; 42; 32; 84; 101; 115; 116; 32; 67; 111; 109; 109; 101; 110; 116; 32; 10; 109; 117; 108; 116; 105; 112; 108; 101; 13; 10; 32; 108; 105; 110; 101; 114; 32; 42; 47] (fun v => list_eqb str_eqb v [[32; 84; 101; 115; 116; 32; 67; 111; 109; 109; 101; 110; 116; 32; 10; 109; 117; 108; 116; 105; 112; 108; 101; 13; 10; 32; 108; 105; 110; 101; 114; 32]]) [];
   gives whitespace [47; 47; 32; 67; 111; 109; 109; 101; 110; 116; 32; 79; 110; 101; 10; 35; 32; 67; 111; 109; 109; 101; 110; 116; 32; 84; 119; 111; 10; 47; 42; 32; 73; 32; 97; 109; 32; 116; 104; 101; 32; 108; 97; 115; 116; 32; 42; 47; 10] (fun v => list_eqb str_eqb v [[32; 67; 111; 109; 109; 101; 110; 116; 32; 79; 110; 101]; [32; 67; 111; 109; 109; 101; 110; 116; 32; 84; 119; 111]; [32; 73; 32; 97; 109; 32; 116; 104; 101; 32; 108; 97; 115; 116; 32]; [10]]) []] = true.
Proof. vm_compute. reflexivity. Qed.
(** whitespace.rs:145-238: the test parsers, after the [sep!] rewriting *)
Definition take3 : parser str := fun s => match s with a :: b :: c :: r => Ok r [a; b; c] | _ => Err end.
Definition inline_whitespace_test : parser (str * str) :=
  inline_whitespace_m (fun s => match wrap inline_whitespace take3 s with
    | Ok r x => match wrap inline_whitespace (tag (lit "de")) r with Ok r' y => Ok r' (x, y) | _ => Err end
    | _ => Err end).
Example inline_whitespace_are_ignored :
  gives inline_whitespace_test (c_space :: c_tab :: lit " abc de fg") (fun v => is_str "abc" (fst v) && is_str "de" (snd v)) (lit "fg") = true.
Proof. vm_compute. reflexivity. Qed.
Definition alnum (c : char) : bool := ((48 <=? c) && (c <=? 57)) || ((65 <=? c) && (c <=? 90)) || ((97 <=? c) && (c <=? 122)).
Definition whitespace_test : parser (list str) :=
  whitespace_m (terminated
    (wrap whitespace (whitespace_m (wrap whitespace (separated_list (whitespace_m (wrap whitespace (tag (lit "|")))) (whitespace_m (wrap whitespace (take_while1 alnum)))))))
    (wrap whitespace (whitespace_m (wrap whitespace eof)))).
Definition ws_is (l : list string) (v : list str) : bool := list_eqb str_eqb v (map lit l).
Definition nl : str := [c_lf].
Example whitespace_are_ignored : forallb (fun b => b)
  [gives whitespace_test (lit "foo | bar " ++ [c_tab] ++ lit " | baz | " ++ [c_cr; c_lf] ++ lit " more") (ws_is ["foo"; "bar"; "baz"; "more"]%string) [];
   gives whitespace_test (lit "# Test Comment" ++ nl) (ws_is []) [];
   gives whitespace_test (lit "// Test Comment" ++ nl) (ws_is []) [];
   gives whitespace_test (lit "/* Test Comment One liner */") (ws_is []) [];
   gives whitespace_test (lit "foobar |  again # Test Comment" ++ nl) (ws_is ["foobar"; "again"]%string) [];
   gives whitespace_test (lit "foo | bar | baz // Test Comment" ++ nl) (ws_is ["foo"; "bar"; "baz"]%string) [];
   gives whitespace_test (lit "foo | bar | /* Test Comment One liner */ baz // Test Comment" ++ nl) (ws_is ["foo"; "bar"; "baz"]%string) [];
   gives whitespace_test (lit "foo | bar | /* Test Comment " ++ nl ++ lit "multiple" ++ [c_cr; c_lf] ++ lit " liner */ baz // Test Comment" ++ nl)
     (ws_is ["foo"; "bar"; "baz"]%string) []] = true.
Proof. vm_compute. reflexivity. Qed.
(** ** number.rs: every case parses completely and converts like [str::parse]; numbers made from the results are equal *)
Example numbers_are_parsed_correctly : forallb (fun b => b)
  [gives number (lit "+3.14") (fun n => (match as_int I64 n with None => true | _ => false end) && (match as_int U64 n with None => true | _ => false end) && (match as_f64 n with Some f => SFeqb f (f64 "+3.14") && number_eq n (from_float 53 1024 (fun _ => lit "3.14") f) | None => false end)) [];
   gives number (lit "3.14") (fun n => (match as_int I64 n with None => true | _ => false end) && (match as_int U64 n with None => true | _ => false end) && (match as_f64 n with Some f => SFeqb f (f64 "3.14") && number_eq n (from_float 53 1024 (fun _ => lit "3.14") f) | None => false end)) [];
   gives number (lit "-3.14") (fun n => (match as_int I64 n with None => true | _ => false end) && (match as_int U64 n with None => true | _ => false end) && (match as_f64 n with Some f => SFeqb f (f64 "-3.14") && number_eq n (from_float 53 1024 (fun _ => lit "-3.14") f) | None => false end)) [];
   gives number (lit "0") (fun n => (match as_int I64 n with Some z => Z.eqb z (0) && (match number_from true I64 z with Some m => number_eq n m | None => false end) | None => false end) && (match as_int U64 n with Some z => Z.eqb z (0) && (match number_from true U64 z with Some m => number_eq n m | None => false end) | None => false end) && (match as_f64 n with Some f => SFeqb f (f64 "0") && number_eq n (from_float 53 1024 (fun _ => lit "0") f) | None => false end)) [];
   gives number (lit "0.0") (fun n => (match as_int I64 n with None => true | _ => false end) && (match as_int U64 n with None => true | _ => false end) && (match as_f64 n with Some f => SFeqb f (f64 "0.0") && number_eq n (from_float 53 1024 (fun _ => lit "0") f) | None => false end)) [];
   gives number (lit "1.") (fun n => (match as_int I64 n with None => true | _ => false end) && (match as_int U64 n with None => true | _ => false end) && (match as_f64 n with Some f => SFeqb f (f64 "1.") && number_eq n (from_float 53 1024 (fun _ => lit "1") f) | None => false end)) [];
   gives number (lit ".789") (fun n => (match as_int I64 n with None => true | _ => false end) && (match as_int U64 n with None => true | _ => false end) && (match as_f64 n with Some f => SFeqb f (f64 ".789") && number_eq n (from_float 53 1024 (fun _ => lit "0.789") f) | None => false end)) [];
   gives number (lit "-.5") (fun n => (match as_int I64 n with None => true | _ => false end) && (match as_int U64 n with None => true | _ => false end) && (match as_f64 n with Some f => SFeqb f (f64 "-.5") && number_eq n (from_float 53 1024 (fun _ => lit "-0.5") f) | None => false end)) [];
   gives number (lit "1e7") (fun n => (match as_int I64 n with None => true | _ => false end) && (match as_int U64 n with None => true | _ => false end) && (match as_f64 n with Some f => SFeqb f (f64 "1e7") && number_eq n (from_float 53 1024 (fun _ => lit "10000000") f) | None => false end)) [];
   gives number (lit "-1E-7") (fun n => (match as_int I64 n with None => true | _ => false end) && (match as_int U64 n with None => true | _ => false end) && (match as_f64 n with Some f => SFeqb f (f64 "-1E-7") && number_eq n (from_float 53 1024 (fun _ => lit "-0.0000001") f) | None => false end)) [];
   gives number (lit ".3e-2") (fun n => (match as_int I64 n with None => true | _ => false end) && (match as_int U64 n with None => true | _ => false end) && (match as_f64 n with Some f => SFeqb f (f64 ".3e-2") && number_eq n (from_float 53 1024 (fun _ => lit "0.003") f) | None => false end)) [];
   gives number (lit "1.e4") (fun n => (match as_int I64 n with None => true | _ => false end) && (match as_int U64 n with None => true | _ => false end) && (match as_f64 n with Some f => SFeqb f (f64 "1.e4") && number_eq n (from_float 53 1024 (fun _ => lit "10000") f) | None => false end)) [];
   gives number (lit "1.2e4") (fun n => (match as_int I64 n with None => true | _ => false end) && (match as_int U64 n with None => true | _ => false end) && (match as_f64 n with Some f => SFeqb f (f64 "1.2e4") && number_eq n (from_float 53 1024 (fun _ => lit "12000") f) | None => false end)) [];
   gives number (lit "-1.234E-12") (fun n => (match as_int I64 n with None => true | _ => false end) && (match as_int U64 n with None => true | _ => false end) && (match as_f64 n with Some f => SFeqb f (f64 "-1.234E-12") && number_eq n (from_float 53 1024 (fun _ => lit "-0.000000000001234") f) | None => false end)) [];
   gives number (lit "-1.234e-12") (fun n => (match as_int I64 n with None => true | _ => false end) && (match as_int U64 n with None => true | _ => false end) && (match as_f64 n with Some f => SFeqb f (f64 "-1.234e-12") && number_eq n (from_float 53 1024 (fun _ => lit "-0.000000000001234") f) | None => false end)) []] = true.
Proof. vm_compute. reflexivity. Qed.
(** ** tuple.rs, expression.rs, attribute.rs, object.rs *)
Example simple_tuples_are_parsed_successfully : forallb (fun b => b)
  [gives (tuple E) (u "[]") (fun l => list_eqb expr_eqb l ([])) (u "");
   gives (tuple E) (u "[1,]") (fun l => list_eqb expr_eqb l ([eI 1])) (u "");
   gives (tuple E) (u "[true, false, 123, -123.456, ""foobar""]") (fun l => list_eqb expr_eqb l ([eB true; eB false; eI 123; eF "-123.456"; eS "foobar"])) (u "");
   gives (tuple E) (u "[
                        true,
                        false,
                        123,
                        -123.456,
                        ""testing"",                        [
                            ""inside voice!"",
                            ""lol""
                        ],
                    ]") (fun l => list_eqb expr_eqb l ([eB true; eB false; eI 123; eF "-123.456"; eS "testing"; eT [eS "inside voice!"; eS "lol"]])) (u "")] = true.
Proof. vm_compute. reflexivity. Qed.
Example bracket_expression_parses_correctly : forallb (fun b => b)
  [gives (E) (u "(null)") (fun v => expr_eqb v (ENull)) (u "");
   gives (E) (u "(123)") (fun v => expr_eqb v (eI 123)) (u "");
   gives (E) (u "((123))") (fun v => expr_eqb v (eI 123)) (u "");
   gives (E) (u "(((123)))") (fun v => expr_eqb v (eI 123)) (u "");
   gives (E) (u "(true)") (fun v => expr_eqb v (EBool true)) (u "");
   gives (E) (u "123.456") (fun v => expr_eqb v (eF "123.456")) (u "");
   gives (E) (u "123") (fun v => expr_eqb v (eI 123)) (u "");
   gives (E) (u """foobar""") (fun v => expr_eqb v (eS "foobar")) (u "");
   gives (E) (u "
(
<<EOF
new
line
EOF
)
") (fun v => expr_eqb v (eS "new
line")) (u "
")] = true.
Proof. vm_compute. reflexivity. Qed.
Example expressions_are_parsed_successfully : forallb (fun b => b)
  [gives (E) (u "null") (fun v => expr_eqb v (ENull)) (u "");
   gives (E) (u "123") (fun v => expr_eqb v (eI 123)) (u "");
   gives (E) (u "true") (fun v => expr_eqb v (EBool true)) (u "");
   gives (E) (u "123.456") (fun v => expr_eqb v (eF "123.456")) (u "");
   gives (E) (u """foobar""") (fun v => expr_eqb v (eS "foobar")) (u "");
   gives (E) (u "<<EOF
new
line
EOF
") (fun v => expr_eqb v (eS "new
line")) (u "
");
   gives (E) (u "[true, false, 123, -123.456, ""foobar""]") (fun v => expr_eqb v (eT [eB true; eB false; eI 123; eF "-123.456"; eS "foobar"])) (u "");
   gives (E) (u "{
                    test = 123
            }") (fun v => expr_eqb v (eO [("test"%string, eI 123)])) (u "")] = true.
Proof. vm_compute. reflexivity. Qed.
Example attribute_pairs_are_parsed_successfully : forallb (fun b => b)
  [gives (attribute T) (u "test = 123") (fun kv => is_cow "test" (fst kv) && expr_eqb (snd kv) (eI 123)) (u "");
   gives (attribute T) (u "test = true") (fun kv => is_cow "test" (fst kv) && expr_eqb (snd kv) (EBool true)) (u "");
   gives (attribute T) (u "test = 123.456") (fun kv => is_cow "test" (fst kv) && expr_eqb (snd kv) (eF "123.456")) (u "");
   gives (attribute T) (u "   test   =   123  ") (fun kv => is_cow "test" (fst kv) && expr_eqb (snd kv) (eI 123)) (u "");
   gives (attribute T) (u "test = <<EOF
new
line
EOF
") (fun kv => is_cow "test" (fst kv) && expr_eqb (snd kv) (eS "new
line")) (u "
");
   gives (attribute T) (u "test = [],") (fun kv => is_cow "test" (fst kv) && expr_eqb (snd kv) (ETuple [])) (u ",");
   gives (attribute T) (u "test = [1,]") (fun kv => is_cow "test" (fst kv) && expr_eqb (snd kv) (eT [eI 1])) (u "");
   gives (attribute T) (u "test = [true, false, 123, -123.456, ""foobar""],") (fun kv => is_cow "test" (fst kv) && expr_eqb (snd kv) (eT [eB true; eB false; eI 123; eF "-123.456"; eS "foobar"])) (u ",");
   gives (attribute T) (u "list_multi = [ # hmm
    true, # Comment
    false, // Test
    123, /* Comment */
    # ""non-existent"",
    /* Comment */ -123.456,
    ""foobar"",
]
") (fun kv => is_cow "list_multi" (fst kv) && expr_eqb (snd kv) (eT [eB true; eB false; eI 123; eF "-123.456"; eS "foobar"])) (u "
");
   gives (attribute T) (u "list_in_list = [ // This should work
    [/* Inline start */ ""test"", ""foobar""],
    1,
    2,
    -3,
]
") (fun kv => is_cow "list_in_list" (fst kv) && expr_eqb (snd kv) (eT [eT [eS "test"; eS "foobar"]; eI 1; eI 2; eI (-3)])) (u "
");
   gives (attribute T) (u "object_in_list = [ /* This too! */
    {
        test = 123
    },
    {
        foo = ""bar""
    },
    {
        baz = false,
    },
]
") (fun kv => is_cow "object_in_list" (fst kv) && expr_eqb (snd kv) (eT [eO [("test"%string, eI 123)]; eO [("foo"%string, eS "bar")]; eO [("baz"%string, eB false)]])) (u "
")] = true.
Proof. vm_compute. reflexivity. Qed.
Example object_element_identifiers_are_parsed_correctly : forallb (fun b => b)
  [gives (object_element_identifier T E) (u "foobar") (fun k => okey_eqb k (KIdent (Borrowed (lit "foobar")))) (u "");
   gives (object_element_identifier T E) (u "true") (fun k => okey_eqb k (KIdent (Borrowed (lit "true")))) (u "");
   gives (object_element_identifier T E) (u "(true)") (fun k => okey_eqb k (KExpr (Borrowed (lit "(true)")))) (u "");
   gives (object_element_identifier T E) (u "(1234)") (fun k => okey_eqb k (KExpr (Borrowed (lit "(1234)")))) (u "")] = true.
Proof. vm_compute. reflexivity. Qed.
Example element_objects_are_parsed_successfully : forallb (fun b => b)
  [gives (object_element T E) (u "test = 123") (fun kv => okey_eq_str (fst kv) (u "test") && expr_eqb (snd kv) (eI 123)) (u "");
   gives (object_element T E) (u "test = true") (fun kv => okey_eq_str (fst kv) (u "test") && expr_eqb (snd kv) (EBool true)) (u "");
   gives (object_element T E) (u "test = 123.456") (fun kv => okey_eq_str (fst kv) (u "test") && expr_eqb (snd kv) (eF "123.456")) (u "");
   gives (object_element T E) (u "   test   =   123  ") (fun kv => okey_eq_str (fst kv) (u "test") && expr_eqb (snd kv) (eI 123)) (u "");
   gives (object_element T E) (u "test = <<EOF
new
line
EOF
") (fun kv => okey_eq_str (fst kv) (u "test") && expr_eqb (snd kv) (eS "new
line")) (u "
");
   gives (object_element T E) (u "test = [],") (fun kv => okey_eq_str (fst kv) (u "test") && expr_eqb (snd kv) (ETuple [])) (u ",");
   gives (object_element T E) (u "test = [1,]") (fun kv => okey_eq_str (fst kv) (u "test") && expr_eqb (snd kv) (eT [eI 1])) (u "");
   gives (object_element T E) (u "test = [true, false, 123, -123.456, ""foobar""],") (fun kv => okey_eq_str (fst kv) (u "test") && expr_eqb (snd kv) (eT [eB true; eB false; eI 123; eF "-123.456"; eS "foobar"])) (u ",");
   gives (object_element T E) (u "test /* test */ = 123") (fun kv => okey_eq_str (fst kv) (u "test") && expr_eqb (snd kv) (eI 123)) (u "")] = true.
Proof. vm_compute. reflexivity. Qed.
Example object_bodies_are_parsed_correctly : forallb (fun b => b)
  [gives (object_body T E) (u "") (obj_is ([])) (u "");
   gives (object T E) (u "{}") (obj_is ([])) (u "");
   gives (object_body T E) (u "test = true,") (obj_is ([("test"%string, eB true)])) (u "");
   gives (object T E) (u "{ test = true }") (obj_is ([("test"%string, eB true)])) (u "");
   gives (object_body T E) (u "foo = ""bar""
") (obj_is ([("foo"%string, eS "bar")])) (u "");
   gives (object T E) (u "{
foo = ""bar""
}") (obj_is ([("foo"%string, eS "bar")])) (u "");
   gives (object_body T E) (u "foo = ""bar""
bar = ""baz""
true = false
") (obj_is ([("foo"%string, eS "bar"); ("bar"%string, eS "baz"); ("true"%string, eB false)])) (u "");
   gives (object T E) (u "{
foo = ""bar""
bar = ""baz""
true = false}") (obj_is ([("foo"%string, eS "bar"); ("bar"%string, eS "baz"); ("true"%string, eB false)])) (u "");
   gives (object_body T E) (u "foo = ""bar""
bar = ""baz""
true = false,") (obj_is ([("foo"%string, eS "bar"); ("bar"%string, eS "baz"); ("true"%string, eB false)])) (u "");
   gives (object T E) (u "{
foo = ""bar""
bar = ""baz""
true = false,}") (obj_is ([("foo"%string, eS "bar"); ("bar"%string, eS "baz"); ("true"%string, eB false)])) (u "");
   gives (object_body T E) (u "foo = ""bar""
bar = ""baz""
true = false
# Hi
") (obj_is ([("foo"%string, eS "bar"); ("bar"%string, eS "baz"); ("true"%string, eB false)])) (u "");
   gives (object T E) (u "{
foo = ""bar""
bar = ""baz""
true = false
# Hi
}") (obj_is ([("foo"%string, eS "bar"); ("bar"%string, eS "baz"); ("true"%string, eB false)])) (u "")] = true.
Proof. vm_compute. reflexivity. Qed.
Example scalar_objects_are_parsed_correctly : forallb (fun b => b)
  [gives (object_body T E) (u "test_unsigned_int = 123
test_signed_int /*inline comment */ = -123 # Another comment
test_float = -1.23

bool_true = true
bool_false = false

string = ""Hello World!""
comma_separated = ""I'm special!"",

long_string = <<EOF
hihi
another line!
EOF
string_escaped = ""\"" Hello World!""
") (obj_is ([("test_unsigned_int"%string, eI 123); ("test_signed_int"%string, eI (-123)); ("test_float"%string, eF "-1.23"); ("bool_true"%string, eB true); ("bool_false"%string, eB false); ("string"%string, eS "Hello World!"); ("comma_separated"%string, eS "I'm special!"); ("long_string"%string, eS "hihi
another line!"); ("string_escaped"%string, eS """ Hello World!")])) (u "");
   gives (object T E) (u "{
    test_unsigned_int = 123
    test_signed_int /*inline comment */ = -123 # Another comment
    test_float = -1.23

    bool_true = true
    bool_false = false

    string = ""Hello World!""
    comma_separated = ""I'm special!"",

    long_string = <<EOF
hihi
another line!
EOF
    string_escaped = ""\"" Hello World!""
}
") (obj_is ([("test_unsigned_int"%string, eI 123); ("test_signed_int"%string, eI (-123)); ("test_float"%string, eF "-1.23"); ("bool_true"%string, eB true); ("bool_false"%string, eB false); ("string"%string, eS "Hello World!"); ("comma_separated"%string, eS "I'm special!"); ("long_string"%string, eS "hihi
another line!"); ("string_escaped"%string, eS """ Hello World!")])) (u "
")] = true.
Proof. vm_compute. reflexivity. Qed.
Example list_objects_are_parsed_correctly : forallb (fun b => b)
  [gives (object_body T E) (u "list = [true, false, 123, -123.456, ""foobar""]
list_multi = [ # hmm
    true, # Comment
    false, // Test
    123, /* Comment */
    # ""non-existent"",
    /* Comment */ -123.456,
    ""foobar"",
]

list_in_list = [ // This should work
    [/* Inline start */ ""test"", ""foobar""],
    1,
    2,
    -3,
]

object_in_list = [ /* This too! */
    {
        test = 123
    },
    {
        foo = ""bar""
    },
    {
        baz = false,
    },
]
") (obj_is ([("list"%string, eT [eB true; eB false; eI 123; eF "-123.456"; eS "foobar"]); ("list_multi"%string, eT [eB true; eB false; eI 123; eF "-123.456"; eS "foobar"]); ("list_in_list"%string, eT [eT [eS "test"; eS "foobar"]; eI 1; eI 2; eI (-3)]); ("object_in_list"%string, eT [eO [("test"%string, eI 123)]; eO [("foo"%string, eS "bar")]; eO [("baz"%string, eB false)]])])) (u "");
   gives (object T E) (u "{list = [true, false, 123, -123.456, ""foobar""]
list_multi = [ # hmm
    true, # Comment
    false, // Test
    123, /* Comment */
    # ""non-existent"",
    /* Comment */ -123.456,
    ""foobar"",
]

list_in_list = [ // This should work
    [/* Inline start */ ""test"", ""foobar""],
    1,
    2,
    -3,
]

object_in_list = [ /* This too! */
    {
        test = 123
    },
    {
        foo = ""bar""
    },
    {
        baz = false,
    },
]
}") (obj_is ([("list"%string, eT [eB true; eB false; eI 123; eF "-123.456"; eS "foobar"]); ("list_multi"%string, eT [eB true; eB false; eI 123; eF "-123.456"; eS "foobar"]); ("list_in_list"%string, eT [eT [eS "test"; eS "foobar"]; eI 1; eI 2; eI (-3)]); ("object_in_list"%string, eT [eO [("test"%string, eI 123)]; eO [("foo"%string, eS "bar")]; eO [("baz"%string, eB false)]])])) (u "")] = true.
Proof. vm_compute. reflexivity. Qed.
Example nested_object_is_parsed_correctly : gives (object T E) (u "{
    test_unsigned_int = 123
    true = false

    nested = {
        false = true
        oh_no = ""reality is broken!""
    },
},
") (obj_is ([("test_unsigned_int"%string, eI 123); ("true"%string, eB false); ("nested"%string, eO [("false"%string, eB true); ("oh_no"%string, eS "reality is broken!")])])) (u ",
") = true.
Proof. vm_compute. reflexivity. Qed.
(** ** block.rs *)
Example block_label_is_parsed_successfully : forallb (fun b => b)
  [gives (block_label T) (u "foobar") (fun l => label_eqb l (LI "foobar")) (u "");
   gives (block_label T) (u """foobar""") (fun l => label_eqb l (LS "foobar")) (u "")] = true.
Proof. vm_compute. reflexivity. Qed.
Example block_labels_are_parsed_successfully : forallb (fun b => b)
  [gives (block_labels T) (u "") (fun l => list_eqb label_eqb l []) (u "");
   gives (block_labels T) (u "foobar") (fun l => list_eqb label_eqb l [LI "foobar"]) (u "");
   gives (block_labels T) (u "foo bar baz") (fun l => list_eqb label_eqb l [LI "foo"; LI "bar"; LI "baz"]) (u "");
   gives (block_labels T) (u """foobar""") (fun l => list_eqb label_eqb l [LS "foobar"]) (u "");
   gives (block_labels T) (u "foo ""bar"" baz") (fun l => list_eqb label_eqb l [LI "foo"; LS "bar"; LI "baz"]) (u "")] = true.
Proof. vm_compute. reflexivity. Qed.
Example single_line_block_body_is_parsed_correctly : forallb (fun b => b)
  [gives (one_line_block_body T) (u "") (fun o => match o with None => true | _ => false end) (u "");
   gives (one_line_block_body T) (u "foo = true") (fun o => match o with Some kv => is_cow "foo" (fst kv) && expr_eqb (snd kv) (eB true) | _ => false end) (u "")] = true.
Proof. vm_compute. reflexivity. Qed.
Example single_line_block_is_parsed_correctly : forallb (fun b => b)
  [gives (one_line_block T) (u "test {}") (el_is (el_from_block (block_new_one_line (Borrowed (lit "test")) [] None))) (u "");
   gives (one_line_block T) (u "test { foo = 123 }") (el_is (el_from_block (block_new_one_line (Borrowed (lit "test")) [] (Some (Borrowed (lit "foo"), eI 123))))) (u "");
   gives (one_line_block T) (u "test foo bar baz {}") (el_is (el_from_block (block_new_one_line (Borrowed (lit "test")) [LI "foo"; LI "bar"; LI "baz"] None))) (u "");
   gives (one_line_block T) (u "test foo ""bar"" baz { foo = 123 }") (el_is (el_from_block (block_new_one_line (Borrowed (lit "test")) [LI "foo"; LS "bar"; LI "baz"] (Some (Borrowed (lit "foo"), eI 123))))) (u "")] = true.
Proof. vm_compute. reflexivity. Qed.
Example block_is_parsed_correctly : gives (block T (body T)) (u "simple_map ""foo"" bar {
  foo   = ""bar""
  bar   = ""baz""
  index = 0
}") (el_is (bl "simple_map" [LS "foo"; LI "bar"] [at_ "foo" (eS "bar"); at_ "bar" (eS "baz"); at_ "index" (eI 0)])) (u "") = true.
Proof. vm_compute. reflexivity. Qed.
Example nested_block_is_parsed_correctly : gives (block T (body T)) (u "resource ""security/group"" foobar {
  name = ""foobar"" # Comment

  allow {
    name = ""localhost"" // Seems pointless
    cidrs = [""127.0.0.1/32""]
  }

  allow {
    name = ""lan"" /* Is this all our LAN CIDR? */
    cidrs = [""192.168.0.0/16""]
  }

  deny {
    # Now this is pointless
    name = ""internet""
    cidrs = [""0.0.0.0/0""]
  }
}") (el_is (bl "resource" [LS "security/group"; LI "foobar"] [at_ "name" (eS "foobar"); bl "allow" [] [at_ "name" (eS "localhost"); at_ "cidrs" (eT [eS "127.0.0.1/32"])]; bl "allow" [] [at_ "name" (eS "lan"); at_ "cidrs" (eT [eS "192.168.0.0/16"])]; bl "deny" [] [at_ "name" (eS "internet"); at_ "cidrs" (eT [eS "0.0.0.0/0"])]])) (u "") = true.
Proof. vm_compute. reflexivity. Qed.
Definition block_from (p : parser element) (s : str) : block_t :=
  match p s with Ok [] (Blk t ls b) => mk_block t ls b | _ => mk_block (Owned []) [] [] end.
Definition repeat_blocks (n : nat) : blocks_t := blocks_new (repeat (block_from (one_line_block T) (lit "test { foo = 123 }")) n).
Definition nats_eqb : list nat -> list nat -> bool := list_eqb Nat.eqb.
Example blocks_with_no_labels_are_constructed_correctly :
  (let blocks := repeat_blocks 10 in
   Nat.eqb (blocks_len blocks) 1 && Nat.eqb (blocks_len_blocks blocks) 10 &&
   match blocks_get blocks (lit "test") [] with
   | Some test => negb (has_further_labels test) && nats_eqb (label_lens test) [0%nat] && is_label_lens_uniform test
   | None => false end) = true.
Proof. vm_compute. reflexivity. Qed.
Definition digit (n : nat) : str := [N.of_nat n + 48].
Example multiple_blocks_with_no_labels_are_constructed_correctly :
  (let blocks := blocks_new (map (fun n => block_from (one_line_block T) (lit "test_" ++ digit n ++ lit " { foo = 123 }")) (seq 0 10)) in
   Nat.eqb (blocks_len blocks) 10 && Nat.eqb (blocks_len_blocks blocks) 10 &&
   forallb (fun tb => negb (has_further_labels (snd tb)) && is_label_lens_uniform (snd tb)) blocks &&
   forallb (fun tl => nats_eqb (snd tl) [0%nat]) (blocks_label_lens blocks)) = true.
Proof. vm_compute. reflexivity. Qed.
Example appending_block_with_labels_transforms_correctly :
  (let extra := block_from (one_line_block T) (lit "test ""foo"" { foo = true } ") in
   let blocks := blocks_extend (repeat_blocks 10) (repeat extra 10) in
   Nat.eqb (blocks_len blocks) 1 && Nat.eqb (blocks_len_blocks blocks) 20 &&
   match blocks_get blocks (lit "test") [] with
   | Some test => has_further_labels test && nats_eqb (label_lens test) [0%nat; 1%nat] && negb (is_label_lens_uniform test) &&
       Nat.eqb (length (get_empty test)) 10 &&
       match get_labels test with
       | Some [(l, foo)] => str_eqb (label_str l) (lit "foo") && negb (has_further_labels foo) && Nat.eqb (len_blocks foo) 10
       | _ => false end
   | None => false end) = true.
Proof. vm_compute. reflexivity. Qed.
Example appending_block_with_multiple_labels_transforms_correctly :
  (let extra n := block_from (one_line_block T) (lit "test_" ++ digit n ++ lit " " ++ (if Nat.odd n then lit """foobar"" ""foobar""" else lit """foobar""") ++ lit " { foo = true }") in
   let blocks := blocks_extend (repeat_blocks 10) (map extra (seq 0 10)) in
   let at_path t p (f : bbody -> bool) := match blocks_get blocks (lit t) (map lit p) with Some b => f b | None => false end in
   Nat.eqb (blocks_len blocks) 11 && Nat.eqb (blocks_len_blocks blocks) 20 &&
   at_path "test"%string [] (fun b => negb (has_further_labels b) && is_label_lens_uniform b && nats_eqb (label_lens b) [0%nat]) &&
   at_path "test_0"%string [] (fun b => is_label_lens_uniform b && nats_eqb (label_lens b) [1%nat]) &&
   at_path "test_0"%string ["foobar"%string] (fun b => negb (has_further_labels b)) &&
   at_path "test_1"%string [] (fun b => is_label_lens_uniform b && nats_eqb (label_lens b) [2%nat]) &&
   at_path "test_1"%string ["foobar"%string] (fun b => has_further_labels b && nats_eqb (label_lens b) [1%nat]) &&
   at_path "test_1"%string ["foobar"%string; "foobar"%string] (fun b => negb (has_further_labels b)) &&
   forallb (fun x => let '(t, ls, _) := x in Bool.eqb (str_eqb t (lit "test")) (Nat.eqb (length ls) 0)) (blocks_flat_iter blocks)) = true.
Proof. vm_compute. reflexivity. Qed.
(** ** body.rs *)
Definition fixture_block : str := u "simple_map /* Inline comment */ { // Comment
  foo   = ""bar""
  bar   = ""baz""
  index = 1
}

/* Test Map */
simple_map {
  foo   = ""bar""
  bar   = ""baz""
  index = 0
}

// This is a useless security group
resource ""security/group"" ""foobar"" {
  name = ""foobar"" # Comment

  allow {
    name = ""localhost"" // Seems pointless
    cidrs = [""127.0.0.1/32""]
  }

  allow {
    name = ""lan"" /* Is this all our LAN CIDR? */
    cidrs = [""192.168.0.0/16""]
  }

  deny {
    # Now this is pointless
    name = ""internet""
    cidrs = [""0.0.0.0/0""]
  }
}

# Might as well be this
resource ""security/group"" ""second"" {
  name = ""second""

  allow {
    name = ""all""
    cidrs = [""0.0.0.0/0""]
  }
}

// Instance
resource ""instance"" ""an_instance"" {
  name = ""an_instance""
  image = ""ubuntu:18.04""

  user ""test"" {
    root = true
  }
}
".
Definition fixture_list : str := u "list = [true, false, 123, -123.456, ""foobar""]
list_multi = [ # hmm
    true, # Comment
    false, // Test
    123, /* Comment */
    # ""non-existent"",
    /* Comment */ -123.456,
    ""foobar"",
]

list_in_list = [ // This should work
    [/* Inline start */ ""test"", ""foobar""],
    1,
    2,
    -3,
]

object_in_list = [ /* This too! */
    {
        test = 123
    },
    {
        foo = ""bar""
    },
    {
        baz = false,
    },
]
".
Definition fixture_no_newline : str := u "test = true".
Definition fixture_scalar : str := u "test_unsigned_int = 123
test_signed_int /*inline comment */ = -123 # Another comment
test_float = -1.23

bool_true = true
bool_false = false

string = ""Hello World!""

long_string = <<EOF
hihi
another line!
EOF
string_escaped = ""\"" Hello World!""
".
Definition fixture_simple_block : str := u "simple_map /* Inline comment */ { // Comment
  foo   = ""bar""
  bar   = ""baz""
  index = 1
}

/* Test Map */
simple_map {
  foo   = ""bar""
  bar   = ""baz""
  index = 0
}
".
Definition fixture_single : str := u "foo = ""bar""
".
Definition fixture_strings : str := u "empty = """"
single_line = ""foobar""

multi_line = ""foo

bar""

empty_heredoc = <<EOF
EOF

heredoc = <<EOF
hihi
hihi
foo
bar
EOF

heredoc_indented = <<-EOF
    this
    should
    be
    unidented
    EOF

more = ""test""
".
Example bodies_are_parsed_correctly : forallb (fun b => b)
  [gives (body T) [] (fun b => body_eqb b []) [];
   gives (body T) fixture_no_newline (fun b => body_eqb b [at_ "test" (eB true)]) [];
   gives (body T) fixture_single (fun b => body_eqb b [at_ "foo" (eS "bar")]) [];
   gives (body T) fixture_scalar (fun b => body_eqb b [at_ "test_unsigned_int" (eI 123); at_ "test_signed_int" (eI (-123)); at_ "test_float" (eF "-1.23"); at_ "bool_true" (eB true); at_ "bool_false" (eB false); at_ "string" (eS "Hello World!"); at_ "long_string" (eS "hihi
another line!"); at_ "string_escaped" (eS """ Hello World!")]) [];
   gives (body T) fixture_list (fun b => body_eqb b [at_ "list" (eT [eB true; eB false; eI 123; eF "-123.456"; eS "foobar"]); at_ "list_multi" (eT [eB true; eB false; eI 123; eF "-123.456"; eS "foobar"]); at_ "list_in_list" (eT [eT [eS "test"; eS "foobar"]; eI 1; eI 2; eI (-3)]); at_ "object_in_list" (eT [eO [("test"%string, eI 123)]; eO [("foo"%string, eS "bar")]; eO [("baz"%string, eB false)]])]) [];
   gives (body T) fixture_block (fun b => body_eqb b [bl "simple_map" [] [at_ "foo" (eS "bar"); at_ "bar" (eS "baz"); at_ "index" (eI 1)]; bl "simple_map" [] [at_ "foo" (eS "bar"); at_ "bar" (eS "baz"); at_ "index" (eI 0)]; bl "resource" [LS "security/group"; LS "foobar"] [at_ "name" (eS "foobar"); bl "allow" [] [at_ "name" (eS "localhost"); at_ "cidrs" (eT [eS "127.0.0.1/32"])]; bl "allow" [] [at_ "name" (eS "lan"); at_ "cidrs" (eT [eS "192.168.0.0/16"])]; bl "deny" [] [at_ "name" (eS "internet"); at_ "cidrs" (eT [eS "0.0.0.0/0"])]]; bl "resource" [LS "security/group"; LS "second"] [at_ "name" (eS "second"); bl "allow" [] [at_ "name" (eS "all"); at_ "cidrs" (eT [eS "0.0.0.0/0"])]]; bl "resource" [LS "instance"; LS "an_instance"] [at_ "name" (eS "an_instance"); at_ "image" (eS "ubuntu:18.04"); bl "user" [LS "test"] [at_ "root" (eB true)]]]) []] = true.
Proof. vm_compute. reflexivity. Qed.
(** ** parser.rs *)
Definition parses (s : str) : bool := match parse_str T s with OkR _ => true | _ => false end.
Example all_fixtures_parse : forallb parses [fixture_block; fixture_list; fixture_no_newline; fixture_scalar; fixture_simple_block; fixture_single; fixture_strings] = true.
Proof. vm_compute. reflexivity. Qed.
Definition SV : parser value := single_value T.
Definition MV : parser mapvalues := map_values T.
Definition vI (z : Z) : value := v_from_i64 z.
Definition vF (s : string) : value := v_from_f64 (f64 s).
Definition vS (s : string) : value := v_from_str (u s).
Definition vB := v_from_bool.
Definition vL (l : list value) : value := new_list l.
Definition mk (l : list (string * value)) : list (key * value) := map (fun kv => (key_from_str (u (fst kv)), snd kv)) l.
Definition vO (l : list (string * value)) : value := new_map [mk l].
Definition vBk (ls : list string) (l : list (string * value)) : value := new_block (map u ls) (mk l).

Example list_values_are_parsed_successfully : forallb (fun b => b)
  [gives (vlist SV) (u "[]") (fun l => list_eqb value_eqb l ([])) (u "");
   gives (vlist SV) (u "[1,]") (fun l => list_eqb value_eqb l ([vI 1])) (u "");
   gives (vlist SV) (u "[true, false, 123, -123.456, ""foobar""]") (fun l => list_eqb value_eqb l ([vB true; vB false; vI 123; vF "-123.456"; vS "foobar"])) (u "");
   gives (vlist SV) (u "[
                        true,
                        false,
                        123,
                        -123.456,
                        ""testing"",                        [
                            ""inside voice!"",
                            ""lol""
                        ],
                    ]") (fun l => list_eqb value_eqb l ([vB true; vB false; vI 123; vF "-123.456"; vS "testing"; vL [vS "inside voice!"; vS "lol"]])) (u "")] = true.
Proof. vm_compute. reflexivity. Qed.
Example single_values_are_parsed_successfully : forallb (fun b => b)
  [gives (SV) (u "null") (fun v => value_eqb v (VNull)) (u "");
   gives (SV) (u "123") (fun v => value_eqb v (VInteger 123)) (u "");
   gives (SV) (u "true") (fun v => value_eqb v (VBoolean true)) (u "");
   gives (SV) (u "123.456") (fun v => value_eqb v (vF "123.456")) (u "");
   gives (SV) (u """foobar""") (fun v => value_eqb v (vS "foobar")) (u "");
   gives (SV) (u "<<EOF
new
line
EOF
") (fun v => value_eqb v (vS "new
line")) (u "
");
   gives (SV) (u "[true, false, 123, -123.456, ""foobar""]") (fun v => value_eqb v (vL [vB true; vB false; vI 123; vF "-123.456"; vS "foobar"])) (u "");
   gives (SV) (u "{
        test = 123
}") (fun v => value_eqb v (vO [("test"%string, vI 123)])) (u "")] = true.
Proof. vm_compute. reflexivity. Qed.
Example map_expressions_are_parsed_correctly : forallb (fun b => b)
  [gives (map_expression MV) (u "{
foo = ""bar""
}") (fun m => mapvalues_eqb m (map_new_unmerged (mk [("foo"%string, vS "bar")]))) (u "");
   gives (map_expression MV) (u "{
foo = ""bar""


}") (fun m => mapvalues_eqb m (map_new_unmerged (mk [("foo"%string, vS "bar")]))) (u "");
   gives (map_expression MV) (u "{
            foo = ""bar""
            }") (fun m => mapvalues_eqb m (map_new_unmerged (mk [("foo"%string, vS "bar")]))) (u "")] = true.
Proof. vm_compute. reflexivity. Qed.
Example old_attribute_pairs_are_parsed_successfully : forallb (fun b => b)
  [gives (old_attribute T SV MV) (u "test = 123") (fun kv => str_eqb (key_str (fst kv)) (u "test") && value_eqb (snd kv) (vI 123)) (u "");
   gives (old_attribute T SV MV) (u "test = true") (fun kv => str_eqb (key_str (fst kv)) (u "test") && value_eqb (snd kv) (vB true)) (u "");
   gives (old_attribute T SV MV) (u "test = 123.456") (fun kv => str_eqb (key_str (fst kv)) (u "test") && value_eqb (snd kv) (vF "123.456")) (u "");
   gives (old_attribute T SV MV) (u "   test   =   123  ") (fun kv => str_eqb (key_str (fst kv)) (u "test") && value_eqb (snd kv) (vI 123)) (u "");
   gives (old_attribute T SV MV) (u """a/b/c"" = ""foobar"",") (fun kv => str_eqb (key_str (fst kv)) (u "a/b/c") && value_eqb (snd kv) (vS "foobar")) (u ",");
   gives (old_attribute T SV MV) (u "test = <<EOF
new
line
EOF
") (fun kv => str_eqb (key_str (fst kv)) (u "test") && value_eqb (snd kv) (vS "new
line")) (u "
");
   gives (old_attribute T SV MV) (u "test = [],") (fun kv => str_eqb (key_str (fst kv)) (u "test") && value_eqb (snd kv) (VList [])) (u ",");
   gives (old_attribute T SV MV) (u "test = [1,]") (fun kv => str_eqb (key_str (fst kv)) (u "test") && value_eqb (snd kv) (vL [vI 1])) (u "");
   gives (old_attribute T SV MV) (u "test = [true, false, 123, -123.456, ""foobar""],") (fun kv => str_eqb (key_str (fst kv)) (u "test") && value_eqb (snd kv) (vL [vB true; vB false; vI 123; vF "-123.456"; vS "foobar"])) (u ",")] = true.
Proof. vm_compute. reflexivity. Qed.
Example maps_are_parsed_correctly : forallb (fun b => b)
  [gives (old_attribute T SV MV) (u "test {
foo = ""bar""
}") (fun kv => str_eqb (key_str (fst kv)) (u "test") && value_eqb (snd kv) (new_single_map (mk [("foo"%string, vS "bar")]))) (u "");
   gives (old_attribute T SV MV) (u "test = {
foo = ""bar""


}") (fun kv => str_eqb (key_str (fst kv)) (u "test") && value_eqb (snd kv) (new_single_map (mk [("foo"%string, vS "bar")]))) (u "");
   gives (old_attribute T SV MV) (u "test ""one"" ""two"" {
            foo = ""bar""
            }") (fun kv => str_eqb (key_str (fst kv)) (u "test") && value_eqb (snd kv) (vBk ["one"%string; "two"%string] [("foo"%string, vS "bar")])) (u "")] = true.
Proof. vm_compute. reflexivity. Qed.
Definition is_map (l : list (string * value)) (m : mapvalues) : bool := mapvalues_eqb m (map_new_unmerged (mk l)).
Example map_values_are_parsed_correctly : forallb (fun b => b)
  [gives MV [] (fun m => Nat.eqb (kvp_len m) 0) [];
   gives MV fixture_no_newline (is_map [("test"%string, vB true)]) [];
   gives MV fixture_single (is_map [("foo"%string, vS "bar")]) [];
   gives MV fixture_scalar (is_map [("test_unsigned_int"%string, vI 123); ("test_signed_int"%string, vI (-123)); ("test_float"%string, vF "-1.23"); ("bool_true"%string, vB true); ("bool_false"%string, vB false); ("string"%string, vS "Hello World!"); ("long_string"%string, vS "hihi
another line!"); ("string_escaped"%string, vS """ Hello World!")]) [];
   gives MV fixture_list (is_map [("list"%string, vL [vB true; vB false; vI 123; vF "-123.456"; vS "foobar"]); ("list_multi"%string, vL [vB true; vB false; vI 123; vF "-123.456"; vS "foobar"]); ("list_in_list"%string, vL [vL [vS "test"; vS "foobar"]; vI 1; vI 2; vI (-3)]); ("object_in_list"%string, vL [vO [("test"%string, vI 123)]; vO [("foo"%string, vS "bar")]; vO [("baz"%string, vB false)]])]) []] = true.
Proof. vm_compute. reflexivity. Qed.
Definition opt_eqb (o : option nat) (n : nat) : bool := match o with Some m => Nat.eqb m n | None => false end.
Example multiple_maps_are_parsed_correctly : gives MV fixture_block (fun m => is_map [("simple_map"%string, new_single_map (mk [("foo"%string, vS "bar"); ("bar"%string, vS "baz"); ("index"%string, vI 1)])); ("simple_map"%string, new_single_map (mk [("foo"%string, vS "bar"); ("bar"%string, vS "baz"); ("index"%string, vI 0)])); ("resource"%string, vBk ["security/group"%string; "foobar"%string] [("name"%string, vS "foobar"); ("allow"%string, new_single_map (mk [("name"%string, vS "localhost"); ("cidrs"%string, vL [vS "127.0.0.1/32"])])); ("allow"%string, new_single_map (mk [("name"%string, vS "lan"); ("cidrs"%string, vL [vS "192.168.0.0/16"])])); ("deny"%string, new_single_map (mk [("name"%string, vS "internet"); ("cidrs"%string, vL [vS "0.0.0.0/0"])]))]); ("resource"%string, vBk ["security/group"%string; "second"%string] [("name"%string, vS "second"); ("allow"%string, new_single_map (mk [("name"%string, vS "all"); ("cidrs"%string, vL [vS "0.0.0.0/0"])]))]); ("resource"%string, vBk ["instance"%string; "an_instance"%string] [("name"%string, vS "an_instance"); ("image"%string, vS "ubuntu:18.04"); ("user"%string, vBk ["test"%string] [("root"%string, vB true)])])] m && Nat.eqb (kvp_len m) 5 && opt_eqb (map_len_scalar m) 19 &&
  match map_is_unmerged m with Some b => b | None => false end) [] = true.
Proof. vm_compute. reflexivity. Qed.
(** value.rs, parser.rs: merging.  [xmap_merge] is one of the outcomes of merging (MergeExec.v). *)
Definition xmerged (m : mapvalues) (f : mapvalues -> bool) : bool := match xmap_merge m with MOk r => f r | MErr _ => false end.
Definition is_true (o : option bool) : bool := match o with Some b => b | None => false end.
Definition mM (l : list (string * value)) : mapvalues := match xmap_merge (Unmerged (mk l)) with MOk r => r | MErr _ => Unmerged [] end.
Definition bM (l : list (list string * mapvalues)) : blockvalues :=
  match xblock_merge (Unmerged (map (fun kv => (map u (fst kv), snd kv)) l)) with MOk r => r | MErr _ => Unmerged [] end.
Definition get1 (m : mapvalues) (k : string) (f : value -> bool) : bool :=
  match find (fun kv => str_eqb (key_str (fst kv)) (u k)) (entries m) with Some (_, v) => f v | None => false end.
Example maps_are_merged_correctly : gives MV fixture_block (fun m => is_true (map_is_unmerged m) && xmerged m (fun parsed =>
   is_true (map_is_merged parsed) && Nat.eqb (kvp_len parsed) 2 && opt_eqb (map_len_scalar parsed) 19 &&
   get1 parsed "simple_map" (fun v => opt_eqb (v_len v) 2 && value_eqb v (VObject
     [mM [("foo"%string, vS "bar"); ("bar"%string, vS "baz"); ("index"%string, vI 1)]; mM [("foo"%string, vS "bar"); ("bar"%string, vS "baz"); ("index"%string, vI 0)]])) &&
   get1 parsed "resource" (fun v => opt_eqb (v_len v) 3 && value_eqb v (VBlock (bM
     [(["security/group"%string; "foobar"%string], mM [("name"%string, vS "foobar");
         ("allow"%string, VObject [mM [("name"%string, vS "localhost"); ("cidrs"%string, vL [vS "127.0.0.1/32"])]]);
         ("allow"%string, VObject [mM [("name"%string, vS "lan"); ("cidrs"%string, vL [vS "192.168.0.0/16"])]]);
         ("deny"%string, VObject [mM [("name"%string, vS "internet"); ("cidrs"%string, vL [vS "0.0.0.0/0"])]])]);
      (["security/group"%string; "second"%string], mM [("name"%string, vS "second");
         ("allow"%string, VObject [mM [("name"%string, vS "all"); ("cidrs"%string, vL [vS "0.0.0.0/0"])]])]);
      (["instance"%string; "an_instance"%string], mM [("name"%string, vS "an_instance"); ("image"%string, vS "ubuntu:18.04");
         ("user"%string, VBlock (bM [(["test"%string], mM [("root"%string, vB true)])]))])]))))) [] = true.
Proof. vm_compute. reflexivity. Qed.
Definition fixtures := [fixture_block; fixture_list; fixture_no_newline; fixture_scalar; fixture_simple_block; fixture_single; fixture_strings].
Example strings_are_parsed_correctly_unmerged :
  forallb (fun s => match old_body T s with Ok [] m => is_true (map_is_unmerged m) | _ => false end) fixtures = true.
Proof. vm_compute. reflexivity. Qed.
Example strings_are_parsed_correctly_merged :
  forallb (fun s => match old_body T s with Ok [] m => xmerged m (fun r => is_true (map_is_merged r)) | _ => false end) fixtures = true.
Proof. vm_compute. reflexivity. Qed.
(** ** literals *)
Example keys_are_parsed_correctly : forallb (fun b => b)
  [gives (literal_key T) [97; 98; 99; 100; 49; 50; 51] (fun k => key_eqb k (KeyIdent (u "abcd123"))) [];
   gives (literal_key T) [95; 97; 98; 99] (fun k => key_eqb k (KeyIdent (u "_abc"))) [];
   gives (literal_key T) [12443; 34255; 95; 97] (fun k => key_eqb k (KeyIdent (u "゛藏_a"))) [];
   gives (literal_key T) [34; 49; 50; 51; 34] (fun k => key_eqb k (KeyString (u "123"))) [];
   gives (literal_key T) [34; 97; 47; 98; 47; 99; 34] (fun k => key_eqb k (KeyString (u "a/b/c"))) []] = true.
Proof. vm_compute. reflexivity. Qed.
Example literal_numbers_are_parsed_correctly : forallb (fun b => b)
  [gives (literal_number) (u "12345") (fun v => value_eqb v (vI 12345)) (u "");
   gives (literal_number) (u "+12345") (fun v => value_eqb v (vI 12345)) (u "");
   gives (literal_number) (u "-12345") (fun v => value_eqb v (vI (-12345))) (u "");
   gives (literal_number) (u "12.34") (fun v => value_eqb v (vF "12.34")) (u "");
   gives (literal_number) (u "+12.34") (fun v => value_eqb v (vF "12.34")) (u "");
   gives (literal_number) (u "-12.34") (fun v => value_eqb v (vF "-12.34")) (u "")] = true.
Proof. vm_compute. reflexivity. Qed.
(** ** serde *)
Definition ex_ord (m : blocks_t) : blocks_t := m.
Definition D (t : ty) (e : expr) : dres data := deserialize ex_ord t (SExpr e).
Definition dS (s : string) : data := DStr (u s).
Example deserialize_float :
  D TF64 (eI 12345) = DeOk (DFloat (f64 "12345")) /\
  Some (D TF32 (eF "-12345.12")) = option_map (fun f => DeOk (DFloat f)) (float_from_str 24 128 (lit "-12345.12")).
Proof. vm_compute. split; reflexivity. Qed.
Example deserialize_bytes :
  D TBytes (eT (map (fun c => eI (Z.of_N c)) (lit "hello world"))) = DeOk (DBytes (lit "hello world")) /\
  D TBytes (eT [eB false; eS "hi"]) = DeErr (ECustom CInvalidType) /\
  D TBytes (eT [eI 1; eI 999]) = DeErr (ECustom CInvalidValue).
Proof. vm_compute. repeat split. Qed.
Example deserialize_expressions :
  D TUnit ENull = DeOk DUnit /\ D TBool (eB true) = DeOk (DBool true) /\ D TBool (eB false) = DeOk (DBool false) /\
  D (TInt U32) (eI 12345) = DeOk (DInt 12345) /\ D (TInt I32) (eI (-12345)) = DeOk (DInt (-12345)) /\
  D (TInt U8) (eI 12345) = DeErr (ECustom CInvalidValue) /\ D TF64 (eI 12345) = DeOk (DFloat (f64 "12345")) /\
  D TString (EString (Owned (lit "foobar"))) = DeOk (dS "foobar") /\ D TStr (EString (Borrowed (lit "foobar"))) = DeOk (dS "foobar") /\
  D TStr (EString (Owned (lit "input"))) = DeErr (ECustom CInvalidType) /\ D TChar (eS "c") = DeOk (DChar 99) /\ D TChar (eS "this will fail") = DeErr (ECustom CInvalidValue) /\
  D (TOption (TInt U32)) ENull = DeOk DNone /\ D (TOption (TInt U32)) (eI 42) = DeOk (DSome (DInt 42)) /\
  D (TNewtype TBool) (eB true) = DeOk (DBool true) /\
  D (TSeq (TInt U32)) (eT (map eI [1; 2; 3; 4; 5]%Z)) = DeOk (DSeq (map DInt [1; 2; 3; 4; 5]%Z)) /\
  D (TSeq TUnit) (eT [ENull; ENull; ENull; ENull]) = DeOk (DSeq [DUnit; DUnit; DUnit; DUnit]) /\
  D (TSeq TBool) (eT [eB true; eB false]) = DeOk (DSeq [DBool true; DBool false]) /\
  D (TSeq (TSeq (TInt U32))) (eT [eT (map eI [1; 2; 9]%Z); eT (map eI [3; 4; 5]%Z)]) = DeOk (DSeq [DSeq (map DInt [1; 2; 9]%Z); DSeq (map DInt [3; 4; 5]%Z)]) /\
  D (TTuple [TInt U32; TInt I32; TInt I16]) (eT (map eI [1; 2; 3]%Z)) = DeOk (DSeq (map DInt [1; 2; 3]%Z)) /\
  D (TTuple [TF64; TBool; TUnit]) (eT [eI 1; eB true; ENull]) = DeOk (DSeq [DFloat (f64 "1"); DBool true; DUnit]) /\
  D (TTuple [TInt U32; TInt I32; TInt I16]) (eT (map eI [1; 2; 3; 4]%Z)) = DeErr (ETupleLength 3 4) /\
  D (TTuple [TF64; TBool; TStr]) (eT [eI 1; eB true; eS "null"]) = DeOk (DSeq [DFloat (f64 "1"); DBool true; dS "null"]) /\
  D (TMap KTString TString) (eO [("test"%string, eS "foo"); ("bar"%string, eS "baz")]) = DeOk (DMap [(lit "test", dS "foo"); (lit "bar", dS "baz")]).
Proof. vm_compute. repeat split. Qed.
Example deserialize_simple_structs : Serde.from_str T ex_ord (TStruct [(lit "name", TString); (lit "allow", TBool); (lit "index", TInt U64); (lit "list", TSeq TString); (lit "nothing", TOption TF64)]) (u "
name = ""second""
allow = false
index = 1
list = [""foo"", ""bar"", ""baz""]
") = DeOk (DStruct [(lit "name", dS "second"); (lit "allow", DBool false); (lit "index", DInt 1); (lit "list", DSeq [dS "foo"; dS "bar"; dS "baz"]); (lit "nothing", DNone)]).
Proof. vm_compute. reflexivity. Qed.
Example deserialize_nested_single_block_labeless : Serde.from_str T ex_ord (TStruct [(lit "name", TString); (lit "allow", TStruct [(lit "name", TString); (lit "cidrs", TSeq TString)])]) (u "
name = ""second""

allow {
  name = ""all""
  cidrs = [""0.0.0.0/0""]
}
    ") = DeOk (DStruct [(lit "name", dS "second"); (lit "allow", DStruct [(lit "name", dS "all"); (lit "cidrs", DSeq [dS "0.0.0.0/0"])])]).
Proof. vm_compute. reflexivity. Qed.
Example deserialize_multiple_single_block_labeless : Serde.from_str T ex_ord (TStruct [(lit "name", TString); (lit "allow", TSeq (TStruct [(lit "name", TString); (lit "cidrs", TSeq TString)]))]) (u "
name = ""second""

allow {
  name = ""lan""
  cidrs = [""192.168.0.0/16"", ""10.0.0.0/8""]
}

allow {
  name = ""localhost""
  cidrs = [""127.0.0.1/32""]
}
    ") = DeOk (DStruct [(lit "name", dS "second"); (lit "allow", DSeq [DStruct [(lit "name", dS "lan"); (lit "cidrs", DSeq [dS "192.168.0.0/16"; dS "10.0.0.0/8"])]; DStruct [(lit "name", dS "localhost"); (lit "cidrs", DSeq [dS "127.0.0.1/32"])]])]).
Proof. vm_compute. reflexivity. Qed.
