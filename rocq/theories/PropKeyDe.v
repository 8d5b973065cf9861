(** * Property theorems: reading a target from the key of a map (C97) *)
From Coq Require Import ZArith.
From Verif Require Import Base Ast NomFacts IoSpec NumConv Value Serde KeyDe.
Close Scope Z_scope.

(** C97: what each target gets from a key.  Only the text counts, not whether it was
    written as an identifier or a string; it is handed over as a copy, so that a borrowed
    string is refused; nothing else but texts and characters can be read from a key. *)
Theorem C97_exact : forall k s, k = KeyIdent s \/ k = KeyString s ->
  deserialize_key TString k = DeOk (DStr s) /\
  deserialize_key TAny k = DeOk (DStr s) /\
  deserialize_key TIgnored k = DeOk DIgnored /\
  deserialize_key TBytes k = DeOk (DBytes (utf8 s)) /\
  (forall c, deserialize_key TChar k = DeOk (DChar c) <-> s = [c]) /\
  ((forall c, s <> [c]) -> deserialize_key TChar k = DeErr (ECustom CInvalidValue)) /\
  (forall t, match t with TString | TAny | TIgnored | TBytes | TChar => False | _ => True end ->
     deserialize_key t k = DeErr (ECustom CInvalidType)).
Proof.
  intros k s Hk. assert (E : key_str k = s) by (destruct Hk as [-> | ->]; reflexivity).
  unfold deserialize_key, key_call. rewrite E. repeat (split; [reflexivity|]). split; [|split].
  - intros c. destruct s as [|x [|y s]]; cbn; split; intros H; try discriminate; congruence.
  - intros H. destruct s as [|x [|y s]]; try reflexivity. elim (H x eq_refl).
  - intros t Ht. destruct t; try contradiction; reflexivity.
Qed.
Print Assumptions C97_exact.
Example C97_nonvacuous :
  deserialize_key TString (KeyString (lit "a b")) = DeOk (DStr (lit "a b")) /\
  deserialize_key TChar (KeyIdent (lit "a")) = DeOk (DChar 97%N) /\
  deserialize_key TStr (KeyIdent (lit "a")) = DeErr (ECustom CInvalidType) /\
  deserialize_key (TNewtype TString) (KeyIdent (lit "a")) = DeErr (ECustom CInvalidType) /\
  deserialize_key (TInt U8) (KeyString (lit "1")) = DeErr (ECustom CInvalidType).
Proof. repeat split; reflexivity. Qed.
