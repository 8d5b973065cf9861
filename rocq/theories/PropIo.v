(** * Property theorems: byte slices, readers, ownership (C20-C22) *)
From Verif Require Import Base Ast Grammar Parser BodyProofs DocProofs PanicProofs Utf8 IoSpec.

Lemma valid_cases : forall c, valid_char c = true -> c < 55296 \/ (57344 <= c <= 1114111).
Proof. intros c. unfold valid_char. lia. Qed.

Ltac dm := zify; Z.to_euclidean_division_equations; lia.

Lemma from_utf8_char : forall c r, valid_char c = true ->
  from_utf8 (utf8_char c ++ r) = option_map (cons c) (from_utf8 r).
Proof.
  intros c r Hv. apply valid_cases in Hv. unfold utf8_char.
  destruct (c <? 128) eqn:E1; [cbn [app from_utf8]; rewrite E1; reflexivity|].
  destruct (c <? 2048) eqn:E2.
  - cbn [app from_utf8].
    replace (192 + c / 64 <? 128) with false by (symmetry; dm).
    replace (between 194 223 (192 + c / 64)) with true by (symmetry; unfold between; dm).
    replace (is_cont (128 + c mod 64)) with true by (symmetry; unfold is_cont, between; dm).
    replace ((192 + c / 64 - 192) * 64 + (128 + c mod 64 - 128)) with c by dm. reflexivity.
  - destruct (c <? 65536) eqn:E3.
    + cbn [app from_utf8].
      replace (224 + c / 4096 <? 128) with false by (symmetry; dm).
      replace (between 194 223 (224 + c / 4096)) with false by (symmetry; unfold between; dm).
      replace (between 224 239 (224 + c / 4096)) with true by (symmetry; unfold between; dm).
      match goal with |- (if ?b then _ else _) = _ => replace b with true end.
      2:{ symmetry. unfold is_cont, between. dm. }
      match goal with |- option_map (cons ?x) _ = _ => replace x with c by dm end. reflexivity.
    + cbn [app from_utf8].
      replace (240 + c / 262144 <? 128) with false by (symmetry; dm).
      replace (between 194 223 (240 + c / 262144)) with false by (symmetry; unfold between; dm).
      replace (between 224 239 (240 + c / 262144)) with false by (symmetry; unfold between; dm).
      match goal with |- (if ?b then _ else _) = _ => replace b with true end.
      2:{ symmetry. unfold is_cont, between. dm. }
      match goal with |- option_map (cons ?x) _ = _ => replace x with c by dm end. reflexivity.
Qed.

Lemma from_utf8_complete : forall s, IsStr s -> from_utf8 (utf8 s) = Some s.
Proof.
  induction 1 as [|c s Hc _ IH]; [reflexivity|]. cbn [utf8 flat_map]. rewrite from_utf8_char by exact Hc.
  unfold utf8 in IH. rewrite IH. reflexivity.
Qed.

Lemma option_map_inv : forall {A B} (f : A -> B) o b, option_map f o = Some b -> exists a, o = Some a /\ b = f a.
Proof. intros A B f [a|] b H; [|discriminate]. injection H as <-. eauto. Qed.

Lemma from_utf8_sound : forall n bs s, (length bs <= n)%nat -> from_utf8 bs = Some s -> IsStr s /\ bs = utf8 s.
Proof.
  induction n as [|n IH]; intros bs s Hn H.
  { destruct bs; [|cbn in Hn; lia]. injection H as <-. split; [constructor|reflexivity]. }
  destruct bs as [|b0 r0]; [injection H as <-; split; [constructor|reflexivity]|]. cbn [length] in Hn.
  cbn [from_utf8] in H. destruct (b0 <? 128) eqn:E1.
  { apply option_map_inv in H as (s' & H & ->). apply IH in H as [Hs ->]; [|lia]. split.
    - constructor; [|exact Hs]. unfold valid_char. lia.
    - cbn [utf8 flat_map]. unfold utf8_char. rewrite E1. reflexivity. }
  destruct r0 as [|b1 r1]; [discriminate|]. cbn [length] in Hn. destruct (between 194 223 b0) eqn:E2.
  { destruct (is_cont b1) eqn:C1; [|discriminate]. apply option_map_inv in H as (s' & H & ->). apply IH in H as [Hs ->]; [|lia].
    unfold is_cont, between in *. split.
    - constructor; [|exact Hs]. unfold valid_char. lia.
    - cbn [utf8 flat_map]. unfold utf8_char.
      replace (_ <? 128) with false by (symmetry; lia). replace (_ <? 2048) with true by (symmetry; lia).
      cbn [app]. repeat f_equal; dm. }
  destruct r1 as [|b2 r2]; [discriminate|]. cbn [length] in Hn. destruct (between 224 239 b0) eqn:E3.
  { match type of H with (if ?b then _ else _) = _ => destruct b eqn:C end; [|discriminate].
    apply option_map_inv in H as (s' & H & ->). apply IH in H as [Hs ->]; [|lia].
    unfold is_cont, between in *. split.
    - constructor; [|exact Hs]. unfold valid_char. lia.
    - cbn [utf8 flat_map]. unfold utf8_char.
      replace (_ <? 128) with false by (symmetry; lia). replace (_ <? 2048) with false by (symmetry; lia).
      replace (_ <? 65536) with true by (symmetry; lia).
      cbn [app]. repeat f_equal; dm. }
  destruct r2 as [|b3 r3]; [discriminate|]. cbn [length] in Hn.
  match type of H with (if ?b then _ else _) = _ => destruct b eqn:C end; [|discriminate].
  apply option_map_inv in H as (s' & H & ->). apply IH in H as [Hs ->]; [|lia].
  unfold is_cont, between in *. split.
  - constructor; [|exact Hs]. unfold valid_char. lia.
  - cbn [utf8 flat_map]. unfold utf8_char.
    replace (_ <? 128) with false by (symmetry; lia). replace (_ <? 2048) with false by (symmetry; lia).
    replace (_ <? 65536) with false by (symmetry; lia).
    cbn [app]. repeat f_equal; dm.
Qed.

(** C20 *)
Theorem C20_parse_slice_utf8 : forall U s, IsStr s -> parse_slice U (utf8 s) = parse_str U s.
Proof. intros U s Hs. unfold parse_slice. rewrite from_utf8_complete by exact Hs. reflexivity. Qed.
Theorem C20_parse_slice_malformed : forall U bytes, ~ (exists s, IsStr s /\ bytes = utf8 s) ->
  parse_slice U bytes = ErrR RUtf8.
Proof.
  intros U bytes H. unfold parse_slice. destruct (from_utf8 bytes) as [s|] eqn:E; [|reflexivity].
  exfalso. apply H. exists s. apply (from_utf8_sound (length bytes)); [lia|exact E].
Qed.
(** Well-formed bytes decode in one way only, and a UTF-8 error is reported for
    malformed bytes only. *)
Theorem C20_utf8_injective : forall s s', IsStr s -> IsStr s' -> utf8 s = utf8 s' -> s = s'.
Proof.
  intros s s' H H' E. apply from_utf8_complete in H. apply from_utf8_complete in H'. congruence.
Qed.
Theorem C20_utf8_error_only_malformed : forall U bytes, parse_slice U bytes = ErrR RUtf8 ->
  forall s, IsStr s -> bytes <> utf8 s.
Proof.
  intros U bytes H s Hs ->. rewrite C20_parse_slice_utf8 in H by exact Hs. unfold parse_str in H.
  destruct (config_file U s) as [[|? ?] ?| | | |]; discriminate.
Qed.
Print Assumptions C20_parse_slice_utf8.
Print Assumptions C20_parse_slice_malformed.
Print Assumptions C20_utf8_injective.
Print Assumptions C20_utf8_error_only_malformed.
Example C20_nonvacuous :
  IsStr [97; 233; 8364; 128512] /\
  utf8 [97; 233; 8364; 128512] = [97; 195; 169; 226; 130; 172; 240; 159; 152; 128] /\
  parse_slice ascii_ucd [237; 160; 128] = ErrR RUtf8 /\ parse_slice ascii_ucd [192; 128] = ErrR RUtf8 /\
  parse_slice ascii_ucd (utf8 (lit "a = 1")) <> ErrR RUtf8.
Proof. split; [repeat constructor|]. repeat split; vm_compute; congruence. Qed.

(** ** Readers *)
Lemma read_to_end_delivers : forall r b, Delivers r b <-> read_to_end r = Some b.
Proof.
  split.
  - induction 1 as [|r|bs r b Hb _ IH|r b _ IH]; cbn; auto. destruct bs; [congruence|]. rewrite IH. reflexivity.
  - revert b. induction r as [|[bs| |] r IH]; cbn; intros b H.
    + injection H as <-. constructor.
    + destruct bs as [|x bs]; [injection H as <-; constructor|]. apply option_map_inv in H as (b' & H & ->).
      constructor; [discriminate|auto].
    + constructor; auto.
    + discriminate.
Qed.
Lemma read_to_end_fails : forall r, FailsRead r <-> read_to_end r = None.
Proof.
  split.
  - induction 1 as [r|bs r Hb _ IH|r _ IH]; cbn; auto. destruct bs; [congruence|]. rewrite IH. reflexivity.
  - induction r as [|[bs| |] r IH]; cbn; intros H; try discriminate.
    + destruct bs as [|x bs]; [discriminate|]. constructor; [discriminate|]. apply IH. destruct (read_to_end r); [discriminate|reflexivity].
    + constructor; auto.
    + constructor.
Qed.

Lemma same_cow_own : forall c, SameCow c (as_owned_cow c).
Proof. reflexivity. Qed.
Lemma same_number_own : forall n, SameNumber n (as_owned_number n).
Proof.
  intros [i p w f e]. unfold as_owned_number. cbn. constructor; [reflexivity|destruct w|destruct f|destruct e as [[q d]|]];
    repeat (constructor; try reflexivity).
Qed.
Lemma same_expr_own : forall e, SameExpr e (as_owned_expr e).
Proof.
  induction e as [|n|b|s|l IH|l IH] using expr_ind'; cbn [as_owned_expr]; constructor; try reflexivity.
  - apply same_number_own.
  - induction IH; cbn; constructor; auto.
  - induction IH as [|[k v] l H _ IHl]; cbn; constructor; auto. cbn. split; [|exact H].
    destruct k; constructor; reflexivity.
Qed.
Lemma same_elem_own : forall el, SameElem el (as_owned_elem el).
Proof.
  induction el as [n v|t ls b IH] using element_ind'; cbn [as_owned_elem]; constructor; try reflexivity.
  - apply same_expr_own.
  - induction ls as [|[s|i] ls IHl]; cbn; constructor; auto; constructor; reflexivity.
  - induction IH; cbn; constructor; auto.
Qed.
Lemma owned_number : forall n, OwnedNumber (as_owned_number n).
Proof.
  intros [i p w f e]. unfold as_owned_number. repeat split; cbn; unfold as_owned_cow, OwnedCow, OwnedOpt; [eauto|..].
  - intros a H. apply option_map_inv in H as (x & _ & ->). eauto.
  - intros a H. apply option_map_inv in H as (x & _ & ->). eauto.
  - intros a H. apply option_map_inv in H as (x & _ & ->). cbn. unfold as_owned_cow. eauto.
Qed.
Lemma owned_expr : forall e, OwnedExpr (as_owned_expr e).
Proof.
  induction e as [|n|b|s|l IH|l IH] using expr_ind'; cbn [as_owned_expr]; constructor; unfold as_owned_cow, OwnedCow; eauto.
  - apply owned_number.
  - induction IH; cbn; constructor; auto.
  - induction IH as [|[k v] l H _ IHl]; cbn; constructor; auto. cbn. split; [|exact H].
    destruct k; cbn; unfold as_owned_cow, OwnedCow; eauto.
Qed.
Lemma owned_elem : forall el, OwnedElem (as_owned_elem el).
Proof.
  induction el as [n v|t ls b IH] using element_ind'; cbn [as_owned_elem]; constructor; unfold as_owned_cow, OwnedCow; eauto.
  - apply owned_expr.
  - induction ls as [|[s|i] ls IHl]; cbn; constructor; auto; cbn; unfold as_owned_cow, OwnedCow; eauto.
  - induction IH; cbn; constructor; auto.
Qed.

(** C21 *)
(** What the reader returns depends only on the bytes delivered. *)
Theorem C21_chunking : forall U r r' b, Delivers r b -> Delivers r' b -> parse_reader U r = parse_reader U r'.
Proof.
  intros U r r' b H H'. apply read_to_end_delivers in H. apply read_to_end_delivers in H'.
  unfold parse_reader, read_to_string. rewrite H, H'. reflexivity.
Qed.
(** ... and is what [parse_slice] returns on them, made owned. *)
Theorem C21_reader_is_slice : forall U r b, Delivers r b ->
  match parse_slice U b with
  | OkR doc => exists doc', parse_reader U r = OkR doc' /\ SameBody doc doc' /\ OwnedBody doc'
  | ErrR RUtf8 => parse_reader U r = ErrR RIo
  | other => parse_reader U r = other
  end.
Proof.
  intros U r b H. apply read_to_end_delivers in H. unfold parse_slice, parse_reader, read_to_string. rewrite H.
  destruct (from_utf8 b) as [s|]; [|reflexivity]. destruct (parse_str U s) as [doc|[]| |] eqn:E; try reflexivity.
  - exists (as_owned_body doc). split; [reflexivity|]. split.
    + unfold SameBody, as_owned_body. clear E. induction doc; cbn; constructor; auto using same_elem_own.
    + unfold OwnedBody, as_owned_body. clear E. induction doc; cbn; constructor; auto using owned_elem.
  - exfalso. unfold parse_str in E. destruct (config_file U s) as [[|? ?] ?| | | |]; discriminate.
Qed.
Theorem C21_read_error : forall U r, FailsRead r -> parse_reader U r = ErrR RIo.
Proof. intros U r H. apply read_to_end_fails in H. unfold parse_reader, read_to_string. rewrite H. reflexivity. Qed.
(** Every (finite) reader either delivers bytes or fails. *)
Theorem C21_reader_total : forall r, (exists b, Delivers r b) \/ FailsRead r.
Proof.
  intros r. destruct (read_to_end r) as [b|] eqn:E; [left; exists b; apply read_to_end_delivers, E|right; apply read_to_end_fails, E].
Qed.
Print Assumptions C21_chunking.
Print Assumptions C21_reader_is_slice.
Print Assumptions C21_read_error.
Print Assumptions C21_reader_total.
Example C21_nonvacuous :
  Delivers [Chunk [97; 32]; Interrupted; Chunk [61; 49]; Chunk []; ReadError] [97; 32; 61; 49] /\
  FailsRead [Chunk [97]; ReadError] /\
  parse_reader ascii_ucd [Chunk [97; 32]; Chunk [61; 49]] =
    OkR [Attr (Owned (lit "a")) (ENumber (mk_number (Owned (lit "1")) true (Some (Owned (lit "1"))) None None))] /\
  (* a chunk may end inside a character *)
  parse_reader ascii_ucd [Chunk [35; 195]; Chunk [169; 10]] = OkR [].
Proof.
  split; [|split; [|split; vm_compute; reflexivity]].
  - change [97; 32; 61; 49] with ([97; 32] ++ ([61; 49] ++ [])). repeat (constructor; [discriminate|] || constructor).
  - constructor; [discriminate|constructor].
Qed.

(** C22 *)
Theorem C22_as_owned : forall b, SameBody b (as_owned_body b) /\ OwnedBody (as_owned_body b).
Proof.
  intros b. unfold SameBody, OwnedBody, as_owned_body. split; induction b; cbn; constructor; auto using same_elem_own, owned_elem.
Qed.
Theorem C22_as_owned_expr : forall e, SameExpr e (as_owned_expr e) /\ OwnedExpr (as_owned_expr e).
Proof. split; [apply same_expr_own|apply owned_expr]. Qed.
Print Assumptions C22_as_owned.
Print Assumptions C22_as_owned_expr.
Example C22_nonvacuous :
  as_owned_elem (Blk (Borrowed (lit "b")) [LIdent (Borrowed (lit "l"))] [Attr (Borrowed (lit "a")) (EString (Borrowed (lit "v")))]) =
  Blk (Owned (lit "b")) [LIdent (Owned (lit "l"))] [Attr (Owned (lit "a")) (EString (Owned (lit "v")))].
Proof. reflexivity. Qed.

(** [utf8_len] (used by the byte slicing of indented heredocs, C12) is the length of the
    encoding. *)
Theorem C12_byte_length : forall c, valid_char c = true -> utf8_len c = length (utf8_char c).
Proof.
  intros c Hv. unfold utf8_len, utf8_char. repeat match goal with |- context [if ?b then _ else _] => destruct b end; reflexivity.
Qed.
Print Assumptions C12_byte_length.
