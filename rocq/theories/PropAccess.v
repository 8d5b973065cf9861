(** * PropAccess: C79 accessors of values, C80 constructors and conversions,
    C82 expressions, object keys and body elements *)
From Coq Require Import ZArith SpecFloat Lia.
From Verif Require Import Base NomFacts Ast Grammar Kvp Value Errors NumConv NumSpec NumProofs Blocks Access PropKvp Parser PropNum PropLex.

(** ** SPECIFICATION: the kinds of a value, by name *)
Inductive Kind : value -> string -> Prop :=
| K_null : Kind VNull "Null"
| K_int i : Kind (VInteger i) "Integer"
| K_float f : Kind (VFloat f) "Float"
| K_bool b : Kind (VBoolean b) "Boolean"
| K_string s : Kind (VString s) "String"
| K_list l : Kind (VList l) "List"
| K_object l : Kind (VObject l) "Object"
| K_block b : Kind (VBlock b) "Block".
(** What an accessor for the kind [name], stored by [inject], has to do. *)
Definition Accessor {I U A} (name : string) (inject : A -> value) (access : value -> A + error I U) : Prop :=
  (forall x, access (inject x) = inl x) /\
  (forall v x, access v = inl x -> v = inject x) /\
  (forall v actual, Kind v actual -> actual <> name -> access v = inr (EUnexpectedVariant (lit "Value") (lit name) (lit actual))).
(** A consuming accessor gives the value back when it fails. *)
Definition Consuming {I U A} (name : string) (inject : A -> value) (access : value -> A + (error I U * value)) : Prop :=
  (forall x, access (inject x) = inl x) /\
  (forall v x, access v = inl x -> v = inject x) /\
  (forall v actual, Kind v actual -> actual <> name -> access v = inr (EUnexpectedVariant (lit "Value") (lit name) (lit actual), v)).
(** An accessor for changing: only the content changes. *)
Definition Changing {I U A} (name : string) (inject : A -> value) (change : value -> (A -> A) -> value + error I U) : Prop :=
  (forall x f, change (inject x) f = inl (inject (f x))) /\
  (forall v f v', change v f = inl v' -> exists x, v = inject x /\ v' = inject (f x)) /\
  (forall v f actual, Kind v actual -> actual <> name -> change v f = inr (EUnexpectedVariant (lit "Value") (lit name) (lit actual))).

Ltac acc :=
  split; [intros; reflexivity|split;
    [intros []; intros; try discriminate;
     match goal with
     | H : inl _ = inl _ |- _ => injection H as H; subst; reflexivity
     | H : ?f _ = inl _ |- _ => cbn in H; first [discriminate|injection H as H; subst; reflexivity]
     | H : ?f _ _ = inl _ |- _ => cbn in H; first [discriminate|injection H as H; subst; eexists; split; reflexivity]
     end
    |intros; match goal with H : Kind _ _ |- _ => destruct H end; first [reflexivity|congruence]]].
Theorem C79_accessors : forall I U : Type,
  @Accessor I U _ "Integer" VInteger v_integer /\ @Accessor I U _ "Float" VFloat v_float /\
  @Accessor I U _ "Boolean" VBoolean v_boolean /\ @Accessor I U _ "String" VString v_borrow_str /\
  @Accessor I U _ "List" VList v_borrow_list /\ @Accessor I U _ "Object" VObject v_borrow_map /\
  @Accessor I U _ "Block" VBlock v_borrow_block.
Proof. intros I U. repeat (split; [acc|]). acc. Qed.
Theorem C79_consuming : forall I U : Type,
  @Consuming I U _ "String" VString v_string /\ @Consuming I U _ "List" VList v_list /\
  @Consuming I U _ "Object" VObject v_map /\ @Consuming I U _ "Block" VBlock v_block.
Proof. intros I U. repeat (split; [acc|]). acc. Qed.
Theorem C79_changing : forall I U : Type,
  @Changing I U _ "String" VString v_borrow_string_mut /\ @Changing I U _ "List" VList v_borrow_list_mut /\
  @Changing I U _ "Object" VObject v_borrow_map_mut /\ @Changing I U _ "Block" VBlock v_borrow_block_mut.
Proof. intros I U. repeat (split; [acc|]). acc. Qed.
(** Every value has exactly one kind, which [variant_name] names and exactly one of
    the eight predicates recognises. *)
Theorem C79_one_kind : forall v, exists name, Kind v name /\ (forall name', Kind v name' -> name' = name) /\
  v_variant_name v = lit name /\
  is_null v = String.eqb name "Null" /\ is_integer v = String.eqb name "Integer" /\ is_float_v v = String.eqb name "Float" /\
  is_boolean v = String.eqb name "Boolean" /\ is_string v = String.eqb name "String" /\ is_list v = String.eqb name "List" /\
  is_map v = String.eqb name "Object" /\ is_body v = String.eqb name "Object" /\ is_block v = String.eqb name "Block" /\
  is_scalar v = (String.eqb name "Integer" || String.eqb name "Float" || String.eqb name "Boolean" || String.eqb name "String") /\
  is_aggregate v = negb (is_scalar v).
Proof.
  intros v. destruct v; eexists; (split; [constructor|]); (split; [intros name' H; inversion H; reflexivity|]); repeat split; reflexivity.
Qed.
(** The panicking accessors panic exactly on the other kinds. *)
Theorem C79_unwrap : forall v f g h k,
  (unwrap_integer (IoE := unit) (Utf8E := unit) v = None <-> is_integer v = false) /\
  (unwrap_float (IoE := unit) (Utf8E := unit) v = None <-> is_float_v v = false) /\
  (unwrap_boolean (IoE := unit) (Utf8E := unit) v = None <-> is_boolean v = false) /\
  (unwrap_borrow_str (IoE := unit) (Utf8E := unit) v = None <-> is_string v = false) /\
  (unwrap_borrow_string_mut (IoE := unit) (Utf8E := unit) v f = None <-> is_string v = false) /\
  (unwrap_string (IoE := unit) (Utf8E := unit) v = None <-> is_string v = false) /\
  (unwrap_borrow_list (IoE := unit) (Utf8E := unit) v = None <-> is_list v = false) /\
  (unwrap_borrow_list_mut (IoE := unit) (Utf8E := unit) v g = None <-> is_list v = false) /\
  (unwrap_list (IoE := unit) (Utf8E := unit) v = None <-> is_list v = false) /\
  (unwrap_borrow_map (IoE := unit) (Utf8E := unit) v = None <-> is_map v = false) /\
  (unwrap_borrow_map_mut (IoE := unit) (Utf8E := unit) v h = None <-> is_map v = false) /\
  (unwrap_map (IoE := unit) (Utf8E := unit) v = None <-> is_map v = false) /\
  (unwrap_borrow_block (IoE := unit) (Utf8E := unit) v = None <-> is_block v = false) /\
  (unwrap_borrow_block_mut (IoE := unit) (Utf8E := unit) v k = None <-> is_block v = false) /\
  (unwrap_block (IoE := unit) (Utf8E := unit) v = None <-> is_block v = false).
Proof. intros v f g h k. destruct v; cbn; repeat (split; [split; intros H; (reflexivity || discriminate H)|]); split; intros H; (reflexivity || discriminate H). Qed.
(** Where they do not panic they give what the value holds, and a change made through the
    mutable ones is made to exactly that. *)
Theorem C79_unwrap_contents : forall v f g h k,
  (forall x, unwrap_integer (IoE := unit) (Utf8E := unit) v = Some x <-> v = VInteger x) /\
  (forall x, unwrap_float (IoE := unit) (Utf8E := unit) v = Some x <-> v = VFloat x) /\
  (forall x, unwrap_boolean (IoE := unit) (Utf8E := unit) v = Some x <-> v = VBoolean x) /\
  (forall x, unwrap_borrow_str (IoE := unit) (Utf8E := unit) v = Some x <-> v = VString x) /\
  (forall v', unwrap_borrow_string_mut (IoE := unit) (Utf8E := unit) v f = Some v' <-> exists x, v = VString x /\ v' = VString (f x)) /\
  (forall x, unwrap_string (IoE := unit) (Utf8E := unit) v = Some x <-> v = VString x) /\
  (forall x, unwrap_borrow_list (IoE := unit) (Utf8E := unit) v = Some x <-> v = VList x) /\
  (forall v', unwrap_borrow_list_mut (IoE := unit) (Utf8E := unit) v g = Some v' <-> exists x, v = VList x /\ v' = VList (g x)) /\
  (forall x, unwrap_list (IoE := unit) (Utf8E := unit) v = Some x <-> v = VList x) /\
  (forall x, unwrap_borrow_map (IoE := unit) (Utf8E := unit) v = Some x <-> v = VObject x) /\
  (forall v', unwrap_borrow_map_mut (IoE := unit) (Utf8E := unit) v h = Some v' <-> exists x, v = VObject x /\ v' = VObject (h x)) /\
  (forall x, unwrap_map (IoE := unit) (Utf8E := unit) v = Some x <-> v = VObject x) /\
  (forall x, unwrap_borrow_block (IoE := unit) (Utf8E := unit) v = Some x <-> v = VBlock x) /\
  (forall v', unwrap_borrow_block_mut (IoE := unit) (Utf8E := unit) v k = Some v' <-> exists x, v = VBlock x /\ v' = VBlock (k x)) /\
  (forall x, unwrap_block (IoE := unit) (Utf8E := unit) v = Some x <-> v = VBlock x).
Proof.
  intros v f g h k. destruct v; cbn.
  all: repeat (split; [intros ?; split; [intros H; inversion H; subst; eauto|intros H; first [discriminate H|injection H as ->; reflexivity|destruct H as (? & H1 & H2); first [discriminate H1|injection H1 as ->; subst; reflexivity]]]|]).
  all: intros ?; split; [intros H; inversion H; subst; eauto|intros H; first [discriminate H|injection H as ->; reflexivity]].
Qed.
Example C79_case : v_integer (IoE := unit) (Utf8E := unit) (VString (lit "x")) =
    inr (EUnexpectedVariant (lit "Value") (lit "Integer") (lit "String")) /\
  v_string (IoE := unit) (Utf8E := unit) (VInteger 3) = inr (EUnexpectedVariant (lit "Value") (lit "String") (lit "Integer"), VInteger 3).
Proof. split; reflexivity. Qed.

(** ** C80: constructors *)
(** The pairs given to a constructor are the pairs held: all of them, in order,
    unmerged, duplicates included. *)
Theorem C80_maps : forall l,
  Yields kv_next kv_size_hint (kvp_iter (map_new_unmerged l)) l /\
  kvp_len (map_new_unmerged l) = length l /\
  unwrap_unmerged (map_new_unmerged l) = Some l /\
  map_is_merged (map_new_unmerged l) = Some false /\
  (forall k r, get_single key_str str_eqb (map_new_unmerged l) k r <->
     match r with
     | Some v => exists l1 k' l2, l = l1 ++ (k', v) :: l2 /\ key_str k' = k /\ forall kv, In kv l1 -> key_str (fst kv) <> k
     | None => forall kv, In kv l -> key_str (fst kv) <> k
     end).
Proof.
  intros l. split; [apply kv_yields|]. repeat (split; [reflexivity|]). intros k r. apply C55_unmerged. exact str_eqb_eq.
Qed.
Theorem C80_new_list : forall l, unwrap_list (IoE := unit) (Utf8E := unit) (new_list l) = Some l /\ v_len (new_list l) = Some (length l).
Proof. split; reflexivity. Qed.
Theorem C80_new_map : forall ls, exists ms, unwrap_map (IoE := unit) (Utf8E := unit) (new_map ls) = Some ms /\
  map unwrap_unmerged ms = map Some ls /\ v_len (new_map ls) = Some (length ls).
Proof.
  intros ls. exists (map map_new_unmerged ls). split; [reflexivity|]. split; [rewrite map_map; reflexivity|]. cbn. rewrite map_length. reflexivity.
Qed.
(** C69: [unmerge] of any pairs, merged or not, is a vector of the same pairs in the order of
    the iterator. *)
Theorem C69_unmerge : forall (p : mapvalues), exists l, unwrap_unmerged (unmerge p) = Some l /\
  Yields kv_next kv_size_hint (kvp_iter p) l /\ Yields kv_next kv_size_hint (kvp_iter (unmerge p)) l /\
  kvp_len (unmerge p) = kvp_len p /\ unmerge (unmerge p) = unmerge p.
Proof. intros [m|l]; [exists m|exists l]; (split; [reflexivity|]); (split; [apply kv_yields|]); (split; [apply kv_yields|]); split; reflexivity. Qed.
Print Assumptions C69_unmerge.
Theorem C80_new_single_map : forall l, new_single_map l = new_map [l] /\ new_single_map l = v_from_map (map_new_unmerged l).
Proof. split; reflexivity. Qed.
Theorem C80_new_block : forall keys l, exists m, unwrap_block (IoE := unit) (Utf8E := unit) (new_block keys l) = Some (Unmerged [(keys, m)]) /\
  unwrap_unmerged m = Some l /\ v_len (new_block keys l) = Some 1%nat.
Proof. intros keys l. unfold new_block, block_new_unmerged. cbn. rewrite map_id. eexists. repeat split. Qed.
Theorem C80_blocks : forall l,
  Yields kv_next kv_size_hint (kvp_iter (block_new_unmerged l)) l /\ kvp_len (block_new_unmerged l) = length l /\
  kvp_is_merged map_is_merged (block_new_unmerged l) = Some false.
Proof.
  intros l. assert (H : map (fun kv : list str * mapvalues => (map (fun s => s) (fst kv), snd kv)) l = l).
  { rewrite <- (map_id l) at 2. apply map_ext. intros [a b]. cbn. rewrite map_id. reflexivity. }
  unfold block_new_unmerged. rewrite H. split; [apply kv_yields|]. split; reflexivity.
Qed.
(** A conversion followed by the accessor of its kind gives the thing back. *)
Theorem C80_from : forall i f b s l o m ms bl,
  unwrap_integer (IoE := unit) (Utf8E := unit) (v_from_i64 i) = Some i /\
  unwrap_float (IoE := unit) (Utf8E := unit) (v_from_f64 f) = Some f /\
  unwrap_boolean (IoE := unit) (Utf8E := unit) (v_from_bool b) = Some b /\
  unwrap_string (IoE := unit) (Utf8E := unit) (v_from_string s) = Some s /\
  unwrap_string (IoE := unit) (Utf8E := unit) (v_from_str s) = Some s /\
  unwrap_list (IoE := unit) (Utf8E := unit) (v_from_opt_list (Some l)) = Some l /\
  unwrap_list (IoE := unit) (Utf8E := unit) (v_from_opt_list None) = Some [] /\
  unwrap_map (IoE := unit) (Utf8E := unit) (v_from_maps ms) = Some ms /\
  unwrap_map (IoE := unit) (Utf8E := unit) (v_from_map m) = Some [m] /\
  unwrap_block (IoE := unit) (Utf8E := unit) (v_from_block bl) = Some bl /\
  (v_from_opt_list o = new_list (match o with Some l => l | None => [] end)) /\
  key_str (key_new_identifier s) = s /\ key_str (key_new_string s) = s /\ key_str (key_from_str s) = s /\
  key_eqb (key_new_identifier s) (key_from_str s) = true /\ key_eqb (key_new_string s) (key_from_str s) = false.
Proof. intros. repeat split; try reflexivity; [destruct o; reflexivity|apply str_eqb_refl]. Qed.
Example C80_case : let l := [(KeyIdent (lit "a"), VInteger 1); (KeyIdent (lit "a"), VNull)] in
  get_single key_str str_eqb (map_new_unmerged l) (lit "a") (Some (VInteger 1)) /\ kvp_len (map_new_unmerged l) = 2%nat.
Proof. split; reflexivity. Qed.

(** ** C82: expressions, object keys, elements *)
Inductive EKind : expr -> string -> Prop :=
| EK_null : EKind ENull "Null"
| EK_num n : EKind (ENumber n) "Number"
| EK_bool b : EKind (EBool b) "Boolean"
| EK_str s : EKind (EString s) "String"
| EK_tup l : EKind (ETuple l) "Tuple"
| EK_obj l : EKind (EObject l) "Object".
Theorem C82_variant_name : forall e name, e_variant_name e = lit name <-> EKind e name.
Proof.
  intros e name. split; [|intros H; destruct H; reflexivity].
  assert (Hinj : forall a b, lit a = lit b -> a = b).
  { intros a. induction a as [|x a IH]; intros [|y b] H; cbn in H; try discriminate; [reflexivity|]. injection H as H1 H2.
    f_equal; [|apply IH, H2]. rewrite <- (Ascii.ascii_N_embedding x), <- (Ascii.ascii_N_embedding y), H1. reflexivity. }
  intros H. destruct e; apply Hinj in H; subst name; constructor.
Qed.
Theorem C82_new_object : forall (I : Type) (into : I -> okey) l, exists ps, new_object into l = EObject ps /\
  map fst ps = map (fun kv => into (fst kv)) l /\ map snd ps = map snd l.
Proof. intros I into l. eexists. split; [reflexivity|]. rewrite !map_map. split; reflexivity. Qed.
(** An integer made into an expression is a number from which the same integer is
    read back (apart from the smallest one, see C16). *)
Theorem C82_from_int : forall checks ty z, InRange ty z -> (Signed ty -> z <> least ty) ->
  exists n, e_from_int checks ty z = Some (ENumber n) /\ as_int ty n = Some z /\ is_float n = false.
Proof.
  intros checks ty z Hr Hm. destruct (C16_round_trip_partial checks ty z Hr Hm) as (n & Hn & Hz & _).
  exists n. unfold e_from_int. rewrite Hn. split; [reflexivity|]. split; [apply Hz, Hr|].
  unfold number_from, from_sint, from_uint in Hn. destruct (ty_signed ty); [destruct (int_abs checks ty z); [|discriminate]|]; injection Hn as <-; reflexivity.
Qed.
(** The conversions into expressions agree with the parser: [true], [false] and [null]
    are what it reads from these words; texts and lists are kept as they are. *)
Theorem C82_from :
  (forall U b, expression_parse U (lit (if b : bool then "true" else "false")) = OkR (e_from_bool b)) /\
  (forall U, expression_parse U (lit "null") = OkR e_from_unit) /\
  (forall c, exists c', e_from_cow c = EString c' /\ cow_str c' = cow_str c) /\
  (forall s, exists c', e_from_str s = EString c' /\ cow_str c' = s) /\
  (forall l, exists l', e_from_vec l = ETuple l' /\ l' = l) /\
  (forall l, new_tuple l = e_from_vec l).
Proof.
  split; [intros U []; vm_compute; reflexivity|]. split; [intros U; vm_compute; reflexivity|].
  split; [intros c; exists c; auto|]. split; [intros s; exists (Borrowed s); auto|]. split; [intros l; exists l; auto|reflexivity].
Qed.
(** A key equals a text exactly when it is an identifier spelled so; [as_str] panics
    on computed keys. *)
Theorem C82_okey : forall k s,
  (okey_eq_str k s = true <-> exists c, k = KIdent c /\ cow_str c = s) /\
  (okey_as_str k = None <-> exists c, k = KExpr c) /\
  (forall c, okey_as_str k = Some c -> k = KIdent c) /\
  okey_eq_str (okey_from_str s) s = true /\ okey_as_str (okey_from_str s) = Some (Borrowed s).
Proof.
  intros k s. split; [|split; [|split; [|split; [|reflexivity]]]].
  - destruct k as [c|c]; cbn.
    + rewrite str_eqb_eq. split; [intros H; exists c; auto|intros (c' & [= ->] & H); exact H].
    + split; [discriminate|intros (c' & H & _); discriminate].
  - destruct k; cbn; split; try discriminate; [intros (? & ?); discriminate|eauto|reflexivity].
  - destruct k; cbn; congruence.
  - cbn. apply str_eqb_refl.
Qed.
(** A label made from a text is an identifier label: it reads as that text, and equals
    exactly the identifier labels that do (not the quoted label with the same text).  A number
    reads as the text it was written with. *)
Theorem C82_label_number : forall s l n,
  label_str (label_from_str s) = s /\ label_eq_str (label_from_str s) s = true /\
  (label_eqb (label_from_str s) l = true <-> exists c, l = LIdent c /\ cow_str c = s) /\
  label_eqb (label_from_str s) (LString s) = false /\
  (forall U t, NumLit n t -> expression_parse U t = OkR (ENumber n) /\ number_deref n = t).
Proof.
  intros s l n. split; [reflexivity|]. split; [apply str_eqb_refl|]. split; [|split; [reflexivity|]].
  - destruct l as [t|c]; cbn; [split; [discriminate|intros (? & ? & _); discriminate]|]. rewrite str_eqb_eq.
    split; [intros H; exists c; auto|intros (c' & [= ->] & H); auto].
  - intros U t H. apply C13_number_literal. exact H.
Qed.
(** REFUTED: keys that borrow as the same text are equal and hash like that text (what
    [HashMap::get(&str)] asks for). *)
Theorem C82_okey_borrow_refuted :
  (exists k k', okey_borrow k = okey_borrow k' /\ okey_eqb k k' = false) /\
  (exists k s, okey_borrow k = s /\ okey_eq_str k s = false).
Proof.
  split; [exists (KIdent (Borrowed (lit "a"))), (KExpr (Borrowed (lit "a")))|exists (KExpr (Borrowed (lit "a"))), (lit "a")]; split; reflexivity.
Qed.
Theorem C82_okey_equal_partial : forall k k', okey_eqb k k' = true <-> okey_hash_input k = okey_hash_input k'.
Proof.
  intros [a|a] [b|b]; cbn; rewrite ?str_eqb_eq; split; intros H; try discriminate; try congruence.
Qed.
(** Elements: attribute or block, never both; taking apart what was put together. *)
Theorem C82_elements : forall e,
  el_is_attribute e = negb (el_is_block e) /\
  (el_unwrap_attribute e = None <-> el_is_attribute e = false) /\
  (el_unwrap_block e = None <-> el_is_block e = false) /\
  (forall a, el_unwrap_attribute e = Some a <-> e = el_from_attribute a) /\
  (forall b, el_unwrap_block e = Some b <-> e = el_from_block b).
Proof.
  intros e. destruct e as [n v|t ls b]; cbn; (split; [reflexivity|]); (split; [split; congruence|]); (split; [split; congruence|]); split.
  - intros [n' v']. unfold el_from_attribute. cbn. split; intros [= -> ->]; reflexivity.
  - intros [t' ls' b']. unfold el_from_block. cbn. split; discriminate.
  - intros [n' v']. unfold el_from_attribute. cbn. split; discriminate.
  - intros [t' ls' b']. unfold el_from_block. cbn. split; intros [= -> -> ->]; reflexivity.
Qed.
Theorem C82_one_line : forall t ls a,
  block_new_one_line t ls a = block_new t ls (match a with Some p => [el_from_attribute p] | None => [] end) /\
  (length (b_body (block_new_one_line t ls a)) <= 1)%nat /\
  forallb el_is_attribute (b_body (block_new_one_line t ls a)) = true.
Proof. intros t ls [a|]; repeat split; cbn; lia. Qed.

Print Assumptions C79_accessors.
Print Assumptions C79_consuming.
Print Assumptions C79_changing.
Print Assumptions C79_one_kind.
Print Assumptions C79_unwrap.
Print Assumptions C80_maps.
Print Assumptions C80_new_list.
Print Assumptions C80_new_map.
Print Assumptions C80_new_single_map.
Print Assumptions C80_new_block.
Print Assumptions C80_blocks.
Print Assumptions C80_from.
Print Assumptions C82_variant_name.
Print Assumptions C82_new_object.
Print Assumptions C82_from_int.
Print Assumptions C82_from.
Print Assumptions C82_okey.
Print Assumptions C82_label_number.
Print Assumptions C82_okey_borrow_refuted.
Print Assumptions C82_okey_equal_partial.
Print Assumptions C82_elements.
Print Assumptions C82_one_line.
