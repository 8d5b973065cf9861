(** * OldPanic: the only source of panics in [value::from_str]'s parser is unindenting a heredoc *)
From Coq Require Import ZArith.
From Verif Require Import Base Nom NomFacts Ast Lex Grammar WsFacts NumFacts StrFacts HeredocFacts
  Parser ParserFacts ExprProofs BodyProofs PanicProofs Kvp Value OldParser OldFacts.
Close Scope Z_scope.

Section WithTables.
Context (U : ucd).
Local Notation SV := (single_value U).
Local Notation MV := (map_values U).
Local Notation PS := (PS U).

Lemma simple_literal_number : simple literal_number.
Proof.
  intros s. unfold literal_number. rewrite recognize_float_number. destruct (simple_number s) as [(r & n & E)|E]; rewrite E; cbn [bind]; [|auto].
  destruct (literal_from_str _); [left; eauto|right; reflexivity].
Qed.
Lemma PS_old_sep n : PS n old_separator.
Proof.
  apply PS_alt; [apply PS_ws_m; [apply wf_wrap_ws, wf_tag|apply PS_wrap_ws, PS_simple, simple_tag]|].
  apply PS_alt; [apply PS_pmap, PS_simple, simple_newline|]. intros s _. unfold eof. destruct s; discriminate.
Qed.
Lemma PS_vlist n : PS n SV -> PS (S n) (vlist SV).
Proof.
  intros H s Hs E. unfold vlist, preceded in E. apply bind_panic in E as [E|(r & v & E & E2)].
  - destruct (simple_char c_lbracket s) as [(? & ? & E')|E']; congruence.
  - apply char_p_ok in E as [-> _]. cbn in Hs. eapply PanicAt_suffix; [apply suffix_cons|].
    eapply (PS_terminated U n); [| | | |cbn; lia|exact E2].
    + apply wf_ws_m. intros x. apply good_separated_list; apply wf_upto_of, wf_wrap_ws; [apply wf_char|apply wf_single_value].
    + apply wf_terminated; [apply wf_ws_m, wf_wrap_ws, wf_opt, wf_char|apply wf_char].
    + apply PS_ws_m; [intros x; apply good_separated_list; apply wf_upto_of, wf_wrap_ws; [apply wf_char|apply wf_single_value]|].
      apply PS_separated; [apply wf_wrap_ws, wf_char|apply wf_wrap_ws, wf_single_value|apply PS_wrap_ws, PS_simple, simple_char|].
      apply PS_wrap_ws, H.
    + apply PS_terminated; [apply wf_ws_m, wf_wrap_ws, wf_opt, wf_char|apply wf_char| |apply PS_simple, simple_char].
      apply PS_ws_m; [apply wf_wrap_ws, wf_opt, wf_char|]. apply PS_wrap_ws, PS_simple, simple_opt, simple_char.
Qed.
Lemma PS_map_expression n : PS n MV -> PS (S n) (map_expression MV).
Proof.
  intros H s Hs E. unfold map_expression in E. apply bind_panic in E as [E|(r & v & E & E2)].
  - assert (HP : PS (S n) (whitespace_m (wrap whitespace (char_p c_lbrace)))).
    { apply PS_ws_m; [apply wf_wrap_ws, wf_char|apply PS_wrap_ws, PS_simple, simple_char]. }
    apply HP; assumption.
  - pose proof (wrap_ws_consumes _ _ _ _ (char_consumes c_lbrace) E) as Hl.
    pose proof (wf_ws_m _ (wf_wrap_ws _ (wf_char c_lbrace)) s) as Hg. rewrite E in Hg. cbn in Hg.
    eapply PanicAt_suffix; [exact Hg|].
    revert E2. apply (PS_seq U n (whitespace_m (wrap whitespace MV))
      (fun values r2 => let* (r3, _e) := char_p c_rbrace r2 in Ok r3 values)); [| | |lia].
    + apply wf_ws_m, wf_wrap_ws, wf_map_values.
    + apply PS_ws_m; [apply wf_wrap_ws, wf_map_values|apply PS_wrap_ws, H].
    + intros l. apply (PS_seq U n (char_p c_rbrace) (fun _ r3 => Ok r3 l)); [apply wf_char|apply PS_simple, simple_char|].
      intros _. apply PS_ret.
Qed.
Lemma PS_literal_key n : PS n (literal_key U).
Proof. apply PS_alt; apply PS_pmap; [apply PS_identifier|apply PS_literal]. Qed.
Lemma wf_attr_alt1 : wf (fun s => let* (r1, k) := wrap inline_whitespace (literal_key U) s in
   let* (r2, _eq) := wrap inline_whitespace (char_p c_eq) r1 in
   let* (r3, v) := wrap inline_whitespace SV r2 in Ok r3 (k, v)).
Proof.
  intros s. apply good_bind; [apply wf_wrap_iws, wf_literal_key|]. intros r v _ _.
  apply good_bind; [apply wf_wrap_iws, wf_char|]. intros r1 v1 _ _.
  apply good_bind; [apply wf_wrap_iws, wf_single_value|]. intros r2 v2 _ _. apply suffix_refl.
Qed.
Lemma wf_attr_alt2 : wf (fun s => let* (r1, i) := wrap inline_whitespace (identifier U) s in
        let* (r2, _eq) := wrap inline_whitespace (opt (char_p c_eq)) r1 in
        let* (r3, m) := wrap inline_whitespace (map_expression MV) r2 in
        Ok r3 (KeyIdent (cow_str i), VObject [m])).
Proof.
  intros s. apply good_bind; [apply wf_wrap_iws, wf_identifier|]. intros r v _ _.
  apply good_bind; [apply wf_wrap_iws, wf_opt, wf_char|]. intros r1 v1 _ _.
  apply good_bind; [apply wf_wrap_iws, wf_map_expression|]. intros r2 v2 _ _. apply suffix_refl.
Qed.
Lemma wf_attr_alt3 : wf (fun s => let* (r1, i) := wrap inline_whitespace (identifier U) s in
        let* (r2, keys) := many0 (wrap inline_whitespace string_literal) r1 in
        let* (r3, m) := wrap inline_whitespace (map_expression MV) r2 in
        Ok r3 (KeyIdent (cow_str i), VBlock (Unmerged [(keys, m)]))).
Proof.
  intros s. apply good_bind; [apply wf_wrap_iws, wf_identifier|]. intros r v _ _.
  apply good_bind; [apply wf_many0, wf_wrap_iws, wf_string_literal|]. intros r1 v1 _ _.
  apply good_bind; [apply wf_wrap_iws, wf_map_expression|]. intros r2 v2 _ _. apply suffix_refl.
Qed.
(** after something was consumed *)
Lemma PS_consume {A B} n (p : parser A) (q : A -> parser B) : wf p -> PS (S n) p ->
  (forall s r v, p s = Ok r v -> (length r < length s)%nat) -> (forall v, PS n (q v)) ->
  PS (S n) (fun s => bind (p s) (fun r v => q v r)).
Proof.
  intros Hw Hp Hc Hq. apply PS_bind; [exact Hw|exact Hp|]. intros s r v Hs E Hr. apply Hq. apply Hc in E. lia.
Qed.
Lemma PS_old_attribute n : PS n SV -> PS n MV -> PS (S n) (old_attribute U SV MV).
Proof.
  intros HV HM. unfold old_attribute. apply PS_iws_m; [apply wf_alt; [apply wf_attr_alt1|apply wf_alt; [apply wf_attr_alt2|apply wf_attr_alt3]]|].
  assert (Hk : forall s r k, wrap inline_whitespace (literal_key U) s = Ok r k -> (length r < length s)%nat).
  { intros s r k. rewrite wrap_iws. intros H. apply literal_key_consumes in H. pose proof (suffix_len _ _ (iws_rest_suffix s)). lia. }
  assert (HME : PS n (map_expression MV)) by (apply (PS_le U (S n) n); [lia|apply PS_map_expression, HM]).
  apply PS_alt; [|apply PS_alt].
  - apply (PS_consume n _ (fun k r1 => let* (r2, _eq) := wrap inline_whitespace (char_p c_eq) r1 in
         let* (r3, e) := wrap inline_whitespace SV r2 in Ok r3 (k, e))).
    + apply wf_wrap_iws, wf_literal_key.
    + apply PS_wrap_iws, PS_literal_key.
    + exact Hk.
    + intros k. apply (PS_seq U n (wrap inline_whitespace (char_p c_eq)) (fun _ r2 =>
         let* (r3, e) := wrap inline_whitespace SV r2 in Ok r3 (k, e))); [apply wf_wrap_iws, wf_char|apply PS_wrap_iws, PS_simple, simple_char|].
      intros _. apply (PS_seq U n (wrap inline_whitespace SV) (fun e r3 => Ok r3 (k, e))); [apply wf_wrap_iws, wf_single_value|apply PS_wrap_iws, HV|].
      intros e. apply PS_ret.
  - apply (PS_consume n _ (fun i r1 => let* (r2, _eq) := wrap inline_whitespace (opt (char_p c_eq)) r1 in
        let* (r3, m) := wrap inline_whitespace (map_expression MV) r2 in
        Ok r3 (KeyIdent (cow_str i), VObject [m]))).
    + apply wf_wrap_iws, wf_identifier.
    + apply PS_wrap_iws, PS_identifier.
    + apply GConsume_ident.
    + intros i. apply (PS_seq U n (wrap inline_whitespace (opt (char_p c_eq))) (fun _ r2 =>
         let* (r3, m) := wrap inline_whitespace (map_expression MV) r2 in Ok r3 (KeyIdent (cow_str i), VObject [m])));
        [apply wf_wrap_iws, wf_opt, wf_char|apply PS_wrap_iws, PS_simple, simple_opt, simple_char|].
      intros _. apply (PS_seq U n (wrap inline_whitespace (map_expression MV)) (fun m r3 => Ok r3 (KeyIdent (cow_str i), VObject [m])));
        [apply wf_wrap_iws, wf_map_expression|apply PS_wrap_iws, HME|]. intros m. apply PS_ret.
  - apply (PS_consume n _ (fun i r1 => let* (r2, keys) := many0 (wrap inline_whitespace string_literal) r1 in
        let* (r3, m) := wrap inline_whitespace (map_expression MV) r2 in
        Ok r3 (KeyIdent (cow_str i), VBlock (Unmerged [(keys, m)])))).
    + apply wf_wrap_iws, wf_identifier.
    + apply PS_wrap_iws, PS_identifier.
    + apply GConsume_ident.
    + intros i. apply (PS_seq U n (many0 (wrap inline_whitespace string_literal)) (fun keys r2 =>
         let* (r3, m) := wrap inline_whitespace (map_expression MV) r2 in Ok r3 (KeyIdent (cow_str i), VBlock (Unmerged [(keys, m)]))));
        [apply wf_many0, wf_wrap_iws, wf_string_literal|apply PS_many0; [apply wf_wrap_iws, wf_string_literal|apply PS_wrap_iws, PS_literal]|].
      intros keys. apply (PS_seq U n (wrap inline_whitespace (map_expression MV)) (fun m r3 => Ok r3 (KeyIdent (cow_str i), VBlock (Unmerged [(keys, m)]))));
        [apply wf_wrap_iws, wf_map_expression|apply PS_wrap_iws, HME|]. intros m. apply PS_ret.
Qed.
Lemma PS_old n : PS n SV /\ PS n MV.
Proof.
  induction n as [|n [IH1 IH2]]; [split; intros s H; lia|]. split; intros s Hs E.
  - rewrite single_value_eq in E. revert E. assert (HP : PS (S n) (single_value_step U SV MV)); [|apply HP, Hs].
    unfold single_value_step. repeat (apply PS_alt); try apply PS_pmap.
    + apply PS_simple, simple_pmap, simple_tag.
    + apply PS_simple, simple_literal_number.
    + apply PS_simple, simple_alt; apply simple_pmap, simple_tag.
    + apply PS_string.
    + apply PS_vlist, IH1.
    + apply PS_map_expression, IH2.
  - rewrite map_values_eq in E. revert E. unfold map_values_step.
    assert (Hw : wf (wrap whitespace (terminated (old_attribute U SV MV) old_separator))) by (apply wf_wrap_ws, wf_terminated; [apply wf_old_attribute|apply wf_old_separator]).
    apply (PS_seq U (S n) _ (fun values r => Ok r (Unmerged values))); [| | |exact Hs].
    + apply wf_ws_m, wf_many0, Hw.
    + apply PS_ws_m; [apply wf_many0, Hw|]. apply PS_many0; [exact Hw|]. apply PS_wrap_ws, PS_terminated;
        [apply wf_old_attribute|apply wf_old_separator|apply PS_old_attribute; assumption|apply PS_old_sep].
    + intros v. apply PS_ret.
Qed.
Lemma old_body_panic s : old_body U s = Panic -> PanicAt U s.
Proof.
  intros E. apply bind_panic in E as [E|(r & v & _ & E)]; [apply (proj2 (PS_old (S (length s)))); [lia|exact E]|].
  apply bind_panic in E as [E|(r' & v' & _ & [=])]. unfold eof in E. destruct r; discriminate.
Qed.
Lemma old_body_no_fuel s : old_body U s <> OutOfFuel.
Proof.
  unfold old_body, exact, terminated. pose proof (map_values_no_fuel U s) as H. destruct (map_values U s) as [r m| | | |]; cbn [bind]; try congruence.
  unfold eof. destruct r; discriminate.
Qed.
End WithTables.
