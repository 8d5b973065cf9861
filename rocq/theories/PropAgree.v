(** * PropAgree: C71, the two parsers agree *)
From Coq Require Import ZArith.
From Verif Require Import Base Nom NomFacts Ast Lex Grammar Parser ParserFacts ExprProofs BodyProofs NumConv NumSpec NumProofs Kvp Value
  OldParser OldGrammar OldProofs PropOld AgreeSpec AgreeProofs.
Close Scope Z_scope.

(** Whenever both accept a document, the value is the translation of the tree. *)
Theorem C71_agree : forall U s b m, parse_str U s = OkR b -> from_str U s None (VOk m) ->
  exists l, m = Unmerged l /\ DocAs b l.
Proof.
  intros U s b m Hb Hm. apply parse_str_spec in Hb. apply C70_from_str_grammar in Hm as (l & -> & Hm).
  exists l. split; [reflexivity|]. eapply documents_agree; eassumption.
Qed.
(** In particular there are as many entries as body elements, under the same names. *)
Theorem C71_names : forall U s b m, parse_str U s = OkR b -> from_str U s None (VOk m) ->
  map (fun kv => key_str (fst kv)) (entries m) =
  map (fun el => match el with Attr n _ => cow_str n | Blk t _ _ => cow_str t end) b.
Proof.
  intros U s b m Hb Hm. destruct (C71_agree U s b m Hb Hm) as (l & -> & H). cbn [entries]. clear Hb Hm.
  induction H as [|el kv b' l' H _ IH]; [reflexivity|]. cbn [map]. f_equal; [|exact IH]. inversion H; reflexivity.
Qed.
(** The translation is a function of the tree where it is defined. *)
Lemma NumberValue_det t v v' : NumberValue t v -> NumberValue t v' -> v = v'.
Proof.
  intros H H'. destruct H as [t z Hz Hr|t f Hn Hf]; inversion H' as [t2 z2 Hz2 Hr2 E1 E2|t2 f2 Hn2 Hf2 E1 E2]; subst.
  - rewrite (IntegerText_unique _ _ _ Hz Hz2). reflexivity.
  - elim (Hn2 _ Hz Hr).
  - elim (Hn _ Hz2 Hr2).
  - congruence.
Qed.
Lemma KeyAs_det k k1 k2 : KeyAs k k1 -> KeyAs k k2 -> k1 = k2.
Proof.
  intros H. inversion H; subst; intros H'; inversion H'; subst; [reflexivity|]. f_equal.
  match goal with A : GChars PlainLine v t [34], B : GChars PlainLine _ t [34] |- _ => 
    assert (E1 : string_literal (34 :: t) = Ok [] v) by (apply StrFacts.string_literal_ok; eauto);
    assert (E2 : string_literal (34 :: t) = Ok [] v0) by (apply StrFacts.string_literal_ok; eauto) end. congruence.
Qed.
Lemma Forall2_det {A B} (P : A -> B -> Prop) l : Forall (fun a => forall b b', P a b -> P a b' -> b = b') l ->
  forall l1 l2, Forall2 P l l1 -> Forall2 P l l2 -> l1 = l2.
Proof.
  induction 1 as [|a l Ha _ IH]; intros l1 l2 H1 H2; inversion H1; inversion H2; subst; [reflexivity|]. f_equal; [eapply Ha; eassumption|apply IH; assumption].
Qed.
Fixpoint ExprAs_det (e : expr) : forall v v', ExprAs e v -> ExprAs e v' -> v = v'.
Proof.
  destruct e; intros v v' H H'; inversion H; inversion H'; subst; try reflexivity.
  - eapply NumberValue_det; eassumption.
  - f_equal. eapply (Forall2_det ExprAs l); [|eassumption|eassumption]. clear - ExprAs_det. induction l as [|x l IH]; constructor; [apply ExprAs_det|exact IH].
  - do 3 f_equal. eapply (Forall2_det (fun m kv => KeyAs (fst m) (fst kv) /\ ExprAs (snd m) (snd kv)) l); [|eassumption|eassumption].
    clear - ExprAs_det. induction l as [|[k x] l IH]; constructor; [|exact IH].
    intros [k1 v1] [k2 v2] [H1 H2] [H3 H4]. cbn in *. f_equal; [eapply KeyAs_det; eassumption|eapply ExprAs_det; eassumption].
Qed.
Lemma map_LString_inj ls ls' : map LString ls = map LString ls' -> ls = ls'.
Proof. revert ls'; induction ls as [|x ls IH]; intros [|y ls'] H; try discriminate; [reflexivity|]. injection H as -> H. f_equal. apply IH, H. Qed.
Fixpoint ElemAs_det (el : element) : forall kv kv', ElemAs el kv -> ElemAs el kv' -> kv = kv'.
Proof.
  assert (HB : forall b : body_t, Forall (fun el => forall kv kv', ElemAs el kv -> ElemAs el kv' -> kv = kv') b -> True) by auto.
  destruct el as [n e|t ls b]; intros kv kv' H H'.
  - inversion H; inversion H'; subst. f_equal. eapply ExprAs_det; eassumption.
  - assert (HF : forall l1 l2, Forall2 ElemAs b l1 -> Forall2 ElemAs b l2 -> l1 = l2).
    { apply Forall2_det. clear - ElemAs_det. induction b as [|x b IH]; constructor; [apply ElemAs_det|exact IH]. }
    clear ElemAs_det. inversion H; inversion H'; subst; try congruence.
    + do 4 f_equal. apply HF; assumption.
    + exfalso. destruct ls0; [congruence|discriminate].
    + exfalso. destruct ls0; [congruence|discriminate].
    + match goal with E : map LString _ = map LString _ |- _ => apply map_LString_inj in E; subst end. do 6 f_equal. apply HF; assumption.
Qed.
Theorem C71_deterministic : forall b l l', DocAs b l -> DocAs b l' -> l = l'.
Proof.
  intros b. apply Forall2_det. induction b as [|x b IH]; constructor; [apply ElemAs_det|exact IH].
Qed.
Print Assumptions C71_agree.
Print Assumptions C71_names.
Print Assumptions C71_deterministic.

Definition both_doc : str := lit "a = [1, ""x"",]
b ""l"" ""m"" {
  c = {
    ""q"" = true
    r = -2.5e1
  }
}
d {
  e = null
}
".
Example C71_nonvacuous : exists b l, parse_str ascii_ucd both_doc = OkR b /\ from_str ascii_ucd both_doc None (VOk (Unmerged l)) /\ length l = 3%nat.
Proof.
  destruct (parse_str ascii_ucd both_doc) as [b| | |] eqn:Eb; [|vm_compute in Eb; discriminate..].
  destruct (old_body ascii_ucd both_doc) as [r [l|l]| | | |] eqn:El; try (vm_compute in El; discriminate).
  exists b, l. vm_compute in El. injection El as <- <-. split; [reflexivity|]. split; vm_compute; reflexivity.
Qed.
(** Neither language contains the other: *)
Example C71_only_parse_str : exists b, parse_str ascii_ucd (lit "b l { x = 1 }") = OkR b /\ from_str ascii_ucd (lit "b l { x = 1 }") None (VErr (RParse (Some (lit "b l { x = 1 }")))).
Proof. destruct (parse_str ascii_ucd (lit "b l { x = 1 }")) as [b| | |] eqn:Eb; vm_compute in Eb; try discriminate. exists b. split; [reflexivity|vm_compute; reflexivity]. Qed.
Example C71_only_from_str : parse_str ascii_ucd (lit "x = 1, ""y"" = 2") = ErrR (RParse (Some (lit "x = 1, ""y"" = 2"))) /\
  from_str ascii_ucd (lit "x = 1, ""y"" = 2") None (VOk (Unmerged [(KeyIdent (lit "x"), VInteger 1); (KeyString (lit "y"), VInteger 2)])).
Proof. split; vm_compute; reflexivity. Qed.
