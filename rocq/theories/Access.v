(** * Access: predicates, accessors, constructors and conversions of the value types
    (lib/src/value.rs, parser/expression.rs, parser/body.rs, parser/block.rs,
    parser/object.rs, parser/literals/key.rs)

    A method that borrows returns what it borrows; a method that hands out a mutable
    reference is modelled by the change made through it. *)
From Coq Require Import ZArith SpecFloat.
From Verif Require Import Base Ast Kvp Value Errors NumConv Blocks.

Section Errors.
Context {IoE Utf8E : Type}.
Notation error := (error IoE Utf8E).

(** constants.rs:1-15 *)
Definition c_null := lit "Null".
Definition c_integer := lit "Integer".
Definition c_float := lit "Float".
Definition c_number := lit "Number".
Definition c_boolean := lit "Boolean".
Definition c_string := lit "String".
Definition c_list := lit "List".
Definition c_tuple := lit "Tuple".
Definition c_object := lit "Object".
Definition c_block := lit "Block".
Definition c_value := lit "Value".

(** value.rs:79-90 [variant_name] *)
Definition v_variant_name (v : value) : str :=
  match v with
  | VNull => c_null
  | VInteger _ => c_integer
  | VFloat _ => c_float
  | VBoolean _ => c_boolean
  | VString _ => c_string
  | VList _ => c_list
  | VObject _ => c_object
  | VBlock _ => c_block
  end.

Definition unexpected (expected : str) (v : value) : error := EUnexpectedVariant c_value expected (v_variant_name v).

(** value.rs:122-132 *)
Definition v_integer (v : value) : Z + error := match v with VInteger i => inl i | _ => inr (unexpected c_integer v) end.
(** value.rs:140-150 *)
Definition v_float (v : value) : spec_float + error := match v with VFloat f => inl f | _ => inr (unexpected c_float v) end.
(** value.rs:158-168 *)
Definition v_boolean (v : value) : bool + error := match v with VBoolean b => inl b | _ => inr (unexpected c_boolean v) end.
(** value.rs:176-186 *)
Definition v_borrow_str (v : value) : str + error := match v with VString s => inl s | _ => inr (unexpected c_string v) end.
(** value.rs:194-204, and [f] applied to the string *)
Definition v_borrow_string_mut (v : value) (f : str -> str) : value + error :=
  match v with VString s => inl (VString (f s)) | _ => inr (unexpected c_string v) end.
(** value.rs:212-225: the error comes with the value *)
Definition v_string (v : value) : str + (error * value) := match v with VString s => inl s | _ => inr (unexpected c_string v, v) end.
(** value.rs:233-243 *)
Definition v_borrow_list (v : value) : list value + error := match v with VList l => inl l | _ => inr (unexpected c_list v) end.
(** value.rs:251-261 *)
Definition v_borrow_list_mut (v : value) (f : list value -> list value) : value + error :=
  match v with VList l => inl (VList (f l)) | _ => inr (unexpected c_list v) end.
(** value.rs:269-282 *)
Definition v_list (v : value) : list value + (error * value) := match v with VList l => inl l | _ => inr (unexpected c_list v, v) end.
(** value.rs:290-300 *)
Definition v_borrow_map (v : value) : list mapvalues + error := match v with VObject l => inl l | _ => inr (unexpected c_object v) end.
(** value.rs:308-318 *)
Definition v_borrow_map_mut (v : value) (f : list mapvalues -> list mapvalues) : value + error :=
  match v with VObject l => inl (VObject (f l)) | _ => inr (unexpected c_object v) end.
(** value.rs:326-339 *)
Definition v_map (v : value) : list mapvalues + (error * value) := match v with VObject l => inl l | _ => inr (unexpected c_object v, v) end.
(** value.rs:347-357 *)
Definition v_borrow_block (v : value) : blockvalues + error := match v with VBlock b => inl b | _ => inr (unexpected c_block v) end.
(** value.rs:365-375 *)
Definition v_borrow_block_mut (v : value) (f : blockvalues -> blockvalues) : value + error :=
  match v with VBlock b => inl (VBlock (f b)) | _ => inr (unexpected c_block v) end.
(** value.rs:383-396 *)
Definition v_block (v : value) : blockvalues + (error * value) := match v with VBlock b => inl b | _ => inr (unexpected c_block v, v) end.

(** [Result::unwrap]; [None] is the panic.  value.rs:134-138, 152-156, 170-174,
    188-192, 206-210, 227-231, 245-249, 263-267, 284-288, 302-306, 320-324, 341-345,
    359-363, 377-381, 398-402: every [unwrap_x] is [x().unwrap()]. *)
Definition unwrap {A E} (r : A + E) : option A := match r with inl x => Some x | inr _ => None end.
Definition unwrap_integer v := unwrap (v_integer v).
Definition unwrap_float v := unwrap (v_float v).
Definition unwrap_boolean v := unwrap (v_boolean v).
Definition unwrap_borrow_str v := unwrap (v_borrow_str v).
Definition unwrap_borrow_string_mut v f := unwrap (v_borrow_string_mut v f).
Definition unwrap_string v := unwrap (v_string v).
Definition unwrap_borrow_list v := unwrap (v_borrow_list v).
Definition unwrap_borrow_list_mut v f := unwrap (v_borrow_list_mut v f).
Definition unwrap_list v := unwrap (v_list v).
Definition unwrap_borrow_map v := unwrap (v_borrow_map v).
Definition unwrap_borrow_map_mut v f := unwrap (v_borrow_map_mut v f).
Definition unwrap_map v := unwrap (v_map v).
Definition unwrap_borrow_block v := unwrap (v_borrow_block v).
Definition unwrap_borrow_block_mut v f := unwrap (v_borrow_block_mut v f).
Definition unwrap_block v := unwrap (v_block v).
End Errors.

(** value.rs:433-491 *)
Definition is_null v := match v with VNull => true | _ => false end.
Definition is_integer v := match v with VInteger _ => true | _ => false end.
Definition is_float_v v := match v with VFloat _ => true | _ => false end.
Definition is_boolean v := match v with VBoolean _ => true | _ => false end.
Definition is_string v := match v with VString _ => true | _ => false end.
Definition is_list v := match v with VList _ => true | _ => false end.
Definition is_map v := match v with VObject _ => true | _ => false end.
Definition is_block v := match v with VBlock _ => true | _ => false end.
Definition is_body v := is_map v.

(** ** Constructors *)
(** value.rs:841-846 [MapValues::new_unmerged], 885-889 [FromIterator] *)
Definition map_new_unmerged (l : list (key * value)) : mapvalues := Unmerged l.
(** value.rs:630-641 [Block::new_unmerged], 770-778 [FromIterator] *)
Definition block_new_unmerged (l : list (list str * mapvalues)) : blockvalues :=
  Unmerged (map (fun kv => (map (fun s => s) (fst kv), snd kv)) l).
(** value.rs:41-46, 585-593 [FromIterator] *)
Definition new_list (l : list value) : value := VList l.
(** value.rs:48-59 *)
Definition new_map (l : list (list (key * value))) : value := VObject (map map_new_unmerged l).
(** value.rs:61-66 *)
Definition new_single_map (l : list (key * value)) : value := VObject [map_new_unmerged l].
(** value.rs:68-77 *)
Definition new_block (keys : list str) (l : list (key * value)) : value :=
  VBlock (block_new_unmerged [(keys, map_new_unmerged l)]).
(** value.rs:537-583: the [From] conversions *)
Definition v_from_i64 (i : Z) : value := VInteger i.
Definition v_from_f64 (f : spec_float) : value := VFloat f.
Definition v_from_bool (b : bool) : value := VBoolean b.
Definition v_from_string (s : str) : value := VString s.
Definition v_from_str (s : str) : value := VString s.
Definition v_from_maps (l : list mapvalues) : value := VObject l.
Definition v_from_block (b : blockvalues) : value := VBlock b.
Definition v_from_opt_list (l : option (list value)) : value := match l with None => VList [] | Some l => VList l end.
Definition v_from_map (m : mapvalues) : value := v_from_maps [m].

(** key.rs:18-33 *)
Definition key_new_identifier (s : str) : key := KeyIdent s.
Definition key_new_string (s : str) : key := KeyString s.

(** ** Expressions *)
(** expression.rs:83-88, 128-135 [FromIterator] *)
Definition new_tuple (l : list expr) : expr := ETuple l.
(** object.rs:74-78 [From<&str>] *)
Definition okey_from_str (s : str) : okey := KIdent (Borrowed s).
(** expression.rs:92-98; [into] is the conversion of the keys *)
Definition new_object {I} (into : I -> okey) (l : list (I * expr)) : expr := EObject (map (fun kv => (into (fst kv), snd kv)) l).
(** expression.rs:100-110 *)
Definition e_variant_name (e : expr) : str :=
  match e with
  | ENull => c_null
  | ENumber _ => c_number
  | EBool _ => c_boolean
  | EString _ => c_string
  | ETuple _ => c_tuple
  | EObject _ => c_object
  end.
(** expression.rs:138-177: the [From] conversions; from integers, [None] is the panic
    of [Number::from] (NumConv.v) *)
Definition e_from_int (checks : bool) (t : int_ty) (z : Z) : option expr := option_map ENumber (number_from checks t z).
Definition e_from_bool (b : bool) : expr := EBool b.
Definition e_from_cow (c : cow) : expr := EString c.
Definition e_from_str (s : str) : expr := EString (Borrowed s).
Definition e_from_vec (l : list expr) : expr := ETuple l.
Definition e_from_unit : expr := ENull.

(** ** Labels and numbers *)
(** block.rs:106-110 [From<&str> for BlockLabel] *)
Definition label_from_str (s : str) : label := LIdent (Borrowed s).
(** number.rs:136-141 [Deref for Number] *)
Definition number_deref (n : number_t) : str := cow_str (num_input n).

(** ** Object keys *)
(** object.rs:41-50 [as_str]; [None] is the [unimplemented!] panic *)
Definition okey_as_str (k : okey) : option cow := match k with KIdent i => Some i | KExpr _ => None end.
(** object.rs:53-63 [PartialEq<S>] *)
Definition okey_eq_str (k : okey) (s : str) : bool := match k with KIdent i => str_eqb (cow_str i) s | KExpr _ => false end.
(** object.rs:65-72 [Borrow<str>] *)
Definition okey_borrow (k : okey) : str := match k with KIdent i => cow_str i | KExpr e => cow_str e end.
(** object.rs:22 derived [PartialEq] *)
Definition okey_eqb (a b : okey) : bool :=
  match a, b with
  | KIdent x, KIdent y => str_eqb (cow_str x) (cow_str y)
  | KExpr x, KExpr y => str_eqb (cow_str x) (cow_str y)
  | _, _ => false
  end.
(** object.rs:22 derived [Hash]: the variant's index, then the text *)
Definition okey_hash_input (k : okey) : N * str := match k with KIdent i => (0%N, cow_str i) | KExpr e => (1%N, cow_str e) end.

(** ** Elements *)
(** body.rs:33-48 *)
Definition el_is_attribute (e : element) : bool := match e with Attr _ _ => true | _ => false end.
Definition el_is_block (e : element) : bool := match e with Blk _ _ _ => true | _ => false end.
(** body.rs:50-64; [None] is the panic *)
Definition el_unwrap_attribute (e : element) : option (cow * expr) := match e with Attr n v => Some (n, v) | _ => None end.
Definition el_unwrap_block (e : element) : option block_t := match e with Blk t ls b => Some (mk_block t ls b) | _ => None end.
(** body.rs:67-77 [From] *)
Definition el_from_attribute (a : cow * expr) : element := Attr (fst a) (snd a).
Definition el_from_block (b : block_t) : element := Blk (b_type b) (b_labels b) (b_body b).
(** block.rs:34-40 [Block::new] *)
Definition block_new (t : cow) (ls : list label) (b : body_t) : block_t := mk_block t ls b.
(** block.rs:42-57 [Block::new_one_line] *)
Definition block_new_one_line (t : cow) (ls : list label) (a : option (cow * expr)) : block_t :=
  mk_block t ls (match a with None => [] | Some a => [el_from_attribute a] end).
