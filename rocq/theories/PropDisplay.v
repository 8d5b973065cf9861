(** * PropDisplay: C107 - an error's text says which error it is *)
From Coq Require Import ZArith Lia SpecFloat.
From Verif Require Import Base Ast Utf8 Grammar NumConv NumSpec NumProofs Kvp Value Errors Access Display.
Close Scope Z_scope.
Open Scope nat_scope.
Open Scope list_scope.

(** Names of types and variants are single words. *)
Definition Word (s : str) : Prop := ~ In 32%N s.
Definition WellNamed {I U} (e : error I U) : Prop :=
  match e with
  | EIllegalMultipleEntries _ v => Word v
  | EErrorMergingKeys _ a b => Word a /\ Word b
  | EUnexpectedVariant t a b => Word t /\ Word a /\ Word b
  | _ => True
  end.
(** The error with the texts of its causes in the place of the causes *)
Definition shown {I U} (io : I -> str) (u8 : U -> str) (e : error I U) : error str str :=
  match e with
  | EInvalidUnicodeCodePoint s => EInvalidUnicodeCodePoint s
  | EInvalidNumber s => EInvalidNumber s
  | EInvalidUnicode b => EInvalidUnicode b
  | EParseError s => EParseError s
  | EIllegalMultipleEntries k v => EIllegalMultipleEntries k v
  | EErrorMergingKeys k a b => EErrorMergingKeys k a b
  | EUnexpectedVariant t a b => EUnexpectedVariant t a b
  | EIOError c => EIOError (io c)
  | EInvalidUnicodeToParse c => EInvalidUnicodeToParse (u8 c)
  | EUnexpectedRemainingInput s => EUnexpectedRemainingInput s
  | EBug s => EBug s
  end.

(** ** Splitting texts *)
Lemma split_first (c : N) a b x y : ~ In c a -> ~ In c b -> a ++ c :: x = b ++ c :: y -> a = b /\ x = y.
Proof.
  revert b. induction a as [|p a IH]; intros [|q b] Ha Hb E; cbn in E.
  - injection E as ->. auto.
  - injection E as <- _. exfalso. apply Hb. left. reflexivity.
  - injection E as -> _. exfalso. apply Ha. left. reflexivity.
  - injection E as -> E. destruct (IH b) as [-> ->]; auto; intros H; [apply Ha|apply Hb]; right; exact H.
Qed.
Lemma split_last (c : N) a b x y : ~ In c a -> ~ In c b -> x ++ c :: a = y ++ c :: b -> x = y /\ a = b.
Proof.
  intros Ha Hb E. apply (f_equal (@rev N)) in E. rewrite !rev_app_distr in E. cbn in E. rewrite <- !app_assoc in E.
  apply split_first in E as [E1 E2]; [|rewrite <- in_rev; assumption..]. cbn in E2. split; [rewrite <- (rev_involutive x), <- (rev_involutive y), E2; reflexivity|].
  rewrite <- (rev_involutive a), <- (rev_involutive b), E1. reflexivity.
Qed.
Lemma app_inv_len {A} (a b x y : list A) : length a = length b -> a ++ x = b ++ y -> a = b /\ x = y.
Proof.
  revert b. induction a as [|p a IH]; intros [|q b] L E; cbn in *; try discriminate; auto. injection E as -> E. injection L as L. destruct (IH b L E) as [-> ->]. auto.
Qed.
Lemma digit_text (z : Z) (c : N) : (0 <= z)%Z -> In c (int_to_string z) -> (48 <= c /\ c <= 57)%N.
Proof.
  intros Hz Hc. unfold int_to_string in Hc. replace (z <? 0)%Z with false in Hc by (symmetry; lia).
  destruct (dec_str_spec (Z.abs_N z)) as (_ & H & _). exact (H c Hc).
Qed.
Lemma int_text_inj z z' : int_to_string z = int_to_string z' -> z = z'.
Proof. intros E. apply (IntegerText_unique (int_to_string z)); [apply int_to_string_text|rewrite E; apply int_to_string_text]. Qed.
Lemma no_comma n : ~ In 44%N (int_to_string (Z.of_N n)).
Proof. intros H. apply digit_text in H; lia. Qed.
Lemma debug_bytes_inj b b' : debug_bytes b = debug_bytes b' -> b = b'.
Proof.
  destruct b as [|x b], b' as [|y b']; unfold debug_bytes; try discriminate; auto.
  intros E. apply app_inv_head in E. apply app_inv_head in E. apply app_inv_tail in E. revert E. generalize (x :: b) (y :: b'). clear.
  induction l as [|p l IH]; intros [|q m]; try discriminate; auto.
  cbn [flat_map]. rewrite <- !app_assoc. intros E. apply app_inv_head in E.
  change (lit ",") with [44%N] in E. cbn [app] in E. apply split_first in E as [E1 E2]; [|apply no_comma..].
  apply int_text_inj in E1. injection E2 as E2. rewrite (IH m E2). f_equal. lia.
Qed.

Lemma three_words m1 m2 k a b k' a' b' : Word a -> Word b -> Word a' -> Word b' ->
  k ++ m1 ++ 32%N :: a ++ m2 ++ 32%N :: b = k' ++ m1 ++ 32%N :: a' ++ m2 ++ 32%N :: b' -> k = k' /\ a = a' /\ b = b'.
Proof.
  intros Wa Wb Wa' Wb' E.
  assert (F : forall k a b, k ++ m1 ++ 32%N :: a ++ m2 ++ 32%N :: b = (k ++ m1 ++ 32%N :: a ++ m2) ++ 32%N :: b)
    by (intros; repeat (rewrite <- ?app_assoc, <- ?app_comm_cons; cbn [app]); reflexivity).
  rewrite !F in E. apply split_last in E as [E ->]; [|assumption..].
  assert (G : forall k a, k ++ m1 ++ 32%N :: a ++ m2 = ((k ++ m1) ++ 32%N :: a) ++ m2)
    by (intros; repeat (rewrite <- ?app_assoc, <- ?app_comm_cons; cbn [app]); reflexivity).
  rewrite !G in E. apply app_inv_tail in E. apply split_last in E as [E ->]; [|assumption..]. apply app_inv_tail in E. auto.
Qed.

(** ** The crate's own errors *)
Theorem C107_error {I U} (io : I -> str) (u8 : U -> str) (e e' : error I U) :
  WellNamed e -> WellNamed e' -> display_error io u8 e = display_error io u8 e' -> shown io u8 e = shown io u8 e'.
Proof.
  intros W W' E. destruct e, e'; cbn [display_error shown WellNamed] in *;
    try (exfalso; apply (f_equal (firstn 10)) in E; discriminate E);
    try (apply app_inv_head in E; rewrite E; reflexivity).
  - apply app_inv_head in E. apply debug_bytes_inj in E. rewrite E. reflexivity.
  - apply app_inv_head in E.
    change (lit " does not allow multiple values with the same key ") with (32%N :: lit "does not allow multiple values with the same key ") in E.
    cbn [app] in E. apply split_first in E as [-> E]; [|assumption..]. apply app_inv_head in E. rewrite E. reflexivity.
  - destruct W as [Wa Wb], W' as [Wa' Wb'].
    apply app_inv_head in E.
    change (lit " cannot be merged with variant ") with (lit " cannot be merged with variant" ++ [32%N]) in E.
    change (lit " into `Value`: existing value of variant ") with (lit " into `Value`: existing value of variant" ++ [32%N]) in E.
    rewrite <- !app_assoc in E. cbn [app] in E. apply three_words in E as (-> & -> & ->); auto.
  - destruct W as (Wa & Wb & Wc), W' as (Wa' & Wb' & Wc'). apply app_inv_head in E.
    change (lit " to be of variant ") with (32%N :: lit "to be of variant ") in E.
    change (lit " but got ") with (32%N :: lit "but got ") in E. change (lit " instead") with (32%N :: lit "instead") in E.
    cbn [app] in E. apply split_first in E as [-> E]; [|assumption..]. apply app_inv_head in E.
    apply split_first in E as [-> E]; [|assumption..]. apply app_inv_head in E.
    apply split_first in E as [-> E]; [|assumption..]. reflexivity.
  - apply app_inv_head in E. apply app_inv_tail in E. rewrite E. reflexivity.
Qed.

(** The names of the variants *)
Inductive Named : variant -> str -> Prop :=
| Nm_null : Named NNull (lit "Null") | Nm_integer : Named NInteger (lit "Integer") | Nm_float : Named NFloat (lit "Float")
| Nm_boolean : Named NBoolean (lit "Boolean") | Nm_string : Named NString (lit "String") | Nm_list : Named NList (lit "List")
| Nm_object : Named NObject (lit "Object") | Nm_block : Named NBlock (lit "Block").
Lemma Named_name v n : Named v n -> name_of v = n.
Proof. intros []; reflexivity. Qed.
Lemma Named_all v : exists n, Named v n.
Proof. destruct v; eexists; constructor. Qed.
(** *** Every error the crate makes is of that kind: the names it uses are single words *)
Lemma word_dec (s : str) : existsb (N.eqb 32) s = false -> Word s.
Proof. intros H Hin. assert (existsb (N.eqb 32) s = true) by (apply existsb_exists; exists 32%N; auto). congruence. Qed.
Lemma name_word v : Word (name_of v).
Proof. apply word_dec. destruct v; reflexivity. Qed.
Theorem C107_names :
  (forall I U m, WellNamed (@of_merge_error I U m)) /\
  (forall expected v, In expected [lit "Null"; lit "Integer"; lit "Float"; lit "Boolean"; lit "String"; lit "List"; lit "Object"; lit "Block"] ->
     WellNamed (@EUnexpectedVariant unit unit (lit "Value") expected (v_variant_name v))) /\
  (forall I U (io : I -> str) (u8 : U -> str) m m',
     display_error io u8 (of_merge_error m) = display_error io u8 (of_merge_error m') -> m = m') /\
  (forall I U (io : I -> str) (u8 : U -> str) k existing incoming en inn, Named existing en -> Named incoming inn ->
     display_error io u8 (of_merge_error (ErrorMergingKeys k existing incoming)) =
       lit "Error merging key " ++ k ++ lit " into `Value`: existing value of variant " ++ en ++
       lit " cannot be merged with variant " ++ inn) /\
  (forall I U (io : I -> str) (u8 : U -> str) k v n, Named v n ->
     display_error io u8 (of_merge_error (IllegalMultipleEntries k v)) =
       lit "Variant " ++ n ++ lit " does not allow multiple values with the same key " ++ k).
Proof.
  assert (W : forall I U m, WellNamed (@of_merge_error I U m)).
  { intros I U [k v|k a b]; cbn; auto using name_word. }
  split; [exact W|]. split; [|split; [|split; [intros I U io u8 k a b x y Ha Hb; rewrite <- (Named_name _ _ Ha), <- (Named_name _ _ Hb); reflexivity|intros I U io u8 k v x Hv; rewrite <- (Named_name _ _ Hv); reflexivity]]].
  - intros x v Hx. cbn. split; [apply word_dec; reflexivity|]. split; apply word_dec.
    + cbn in Hx. repeat destruct Hx as [<-|Hx]; try reflexivity. destruct Hx.
    + destruct v; reflexivity.
  - intros I U io u8 m m' E. apply C107_error in E; [|apply W..].
    assert (NI : forall v v', name_of v = name_of v' -> v = v') by (intros [] []; cbn; intros; (reflexivity || discriminate)).
    destruct m, m'; cbn in E; try discriminate; injection E; intros; f_equal; auto.
Qed.

(** ** Errors of the deserialiser *)
Definition de_shown {I U A B} (io : I -> str) (u8 : U -> str) (ie : A -> str) (fe : B -> str) (e : de_error_full I U A B) :
  de_error_full str str str str :=
  match e with
  | DParseError e => DParseError (shown io u8 e)
  | DParseIntError e => DParseIntError (ie e)
  | DParseFloatError e => DParseFloatError (fe e)
  | DTrailingCharacters => DTrailingCharacters
  | DOverflow t => DOverflow t
  | DInvalidTupleLength a b => DInvalidTupleLength a b
  | DObjectDuplicateKey k => DObjectDuplicateKey k
  | DBodyDuplicateKey k => DBodyDuplicateKey k
  | DCustom s => DCustom s
  end.
Definition DeNamed {I U A B} (e : de_error_full I U A B) : Prop :=
  match e with DParseError e => WellNamed e | DCustom _ => False | _ => True end.
Theorem C107_serde {I U A B} (io : I -> str) (u8 : U -> str) (ie : A -> str) (fe : B -> str) (e e' : de_error_full I U A B) :
  (DeNamed e -> DeNamed e' -> display_de io u8 ie fe e = display_de io u8 ie fe e' -> de_shown io u8 ie fe e = de_shown io u8 ie fe e') /\
  (forall msg, display_de io u8 ie fe (de_custom msg) = msg).
Proof.
  split; [|reflexivity].
  intros W W' E. destruct e as [x|x|x| |x|x1 x2|x|x|x], e' as [y|y|y| |y|y1 y2|y|y|y]; cbn [display_de de_shown DeNamed] in *; try contradiction;
    try reflexivity;
    try (exfalso; apply (f_equal (firstn 20)) in E; discriminate E);
    try (apply app_inv_head in E; rewrite E; reflexivity).
  - apply app_inv_head in E. f_equal. apply C107_error; assumption.
  - apply app_inv_head in E. change (lit ", got ") with (44%N :: lit " got ") in E. cbn [app] in E.
    assert (NC : forall n, ~ In 44%N (show_nat n)) by (intros n H; apply digit_text in H; lia).
    apply split_first in E as [E1 E2]; [|apply NC..]. apply app_inv_head in E2.
    apply int_text_inj in E1. apply int_text_inj in E2. f_equal; lia.
Qed.

(** ** Errors of the command line tool *)
Definition cli_shown {I U} (io : I -> str) (u8 : U -> str) (e : cli_error I U) : cli_error str str :=
  match e with LParserError e => LParserError (shown io u8 e) | LIOError c => LIOError (io c) | LUnknownCommand s => LUnknownCommand s end.
Definition CliNamed {I U} (e : cli_error I U) : Prop := match e with LParserError e => WellNamed e | _ => True end.
Theorem C107_cli {I U} (io : I -> str) (u8 : U -> str) (e e' : cli_error I U) :
  (CliNamed e -> CliNamed e' -> display_cli io u8 e = display_cli io u8 e' -> cli_shown io u8 e = cli_shown io u8 e') /\
  (forall x, display_cli io u8 (cli_from_error x) = lit "Parser error: " ++ display_error io u8 x) /\
  (forall x, display_cli io u8 (@cli_from_io I U x) = lit "IO Error: " ++ io x).
Proof.
  split; [|split; reflexivity]. intros W W' E. destruct e, e'; cbn [display_cli cli_shown CliNamed] in *;
    try (exfalso; apply (f_equal (firstn 4)) in E; discriminate E);
    try (apply app_inv_head in E; rewrite E; reflexivity).
  apply app_inv_head in E. f_equal. apply C107_error; assumption.
Qed.

(** Concrete cases; a name with spaces, or a custom message, can imitate another error. *)
Example C107_cases :
  let io := fun s : str => s in
  display_error io io (of_merge_error (ErrorMergingKeys (lit "a b") NList NString)) =
    lit "Error merging key a b into `Value`: existing value of variant List cannot be merged with variant String" /\
  display_error io io (EInvalidUnicode [104; 255]%N) =
    lit "Bytes contain invalid unicode: [" ++ [10%N] ++ lit "    104," ++ [10%N] ++ lit "    255," ++ [10%N] ++ lit "]" /\
  display_de io io io io (DInvalidTupleLength 2 10) = lit "Invalid tuple length. Expected 2, got 10" /\
  display_de io io io io (DCustom (lit "Object has duplicate key a")) = display_de io io io io (DObjectDuplicateKey (lit "a")) /\
  display_error io io (EUnexpectedVariant (lit "A to be of variant B") (lit "C") (lit "D")) =
    display_error io io (EUnexpectedVariant (lit "A") (lit "B to be of variant C") (lit "D")) /\
  display_cli io io (LParserError (EInvalidNumber (lit "1z"))) = lit "Parser error: Invalid Number 1z".
Proof. vm_compute. repeat split. Qed.
