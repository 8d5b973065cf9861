(** * PanicProofs: the only source of panics in the parser is unindenting a heredoc *)
From Verif Require Import Base Nom NomFacts Ast Lex Grammar WsFacts NumFacts StrFacts HeredocFacts
  Parser ParserFacts ExprProofs BodyProofs.

Section WithTables.
Context (U : ucd).

Definition PanicAt (s : str) : Prop := exists s', suffix s' s /\ heredoc_string U s' = Panic.
Lemma PanicAt_suffix s s' : suffix s s' -> PanicAt s -> PanicAt s'.
Proof. intros H (x & Hx & E). exists x. split; [eapply suffix_trans; eassumption|exact E]. Qed.

(** Panics of [p] on inputs shorter than [n] come from a heredoc. *)
Definition PS {A} (n : nat) (p : parser A) : Prop :=
  forall s, (length s < n)%nat -> p s = Panic -> PanicAt s.

Lemma PS_simple {A} n (p : parser A) : simple p -> PS n p.
Proof. intros H s _ E. destruct (H s) as [(r & v & E')|E']; congruence. Qed.
Lemma PS_le {A} n m (p : parser A) : (m <= n)%nat -> PS n p -> PS m p.
Proof. intros H Hp s Hs. apply Hp. lia. Qed.
Lemma bind_panic {A B} (x : res A) (f : str -> A -> res B) :
  bind x f = Panic -> x = Panic \/ exists r v, x = Ok r v /\ f r v = Panic.
Proof. destruct x; cbn; intros H; try discriminate; eauto. Qed.
Lemma PS_bind {A B} n (p : parser A) (f : str -> A -> res B) :
  wf p -> PS n p -> (forall s r v, (length s < n)%nat -> p s = Ok r v -> suffix r s -> f r v = Panic -> PanicAt r) ->
  PS n (fun s => bind (p s) f).
Proof.
  intros Hw Hp Hf s Hs E. apply bind_panic in E as [E|(r & v & E & E2)]; [apply Hp; assumption|].
  pose proof (Hw s) as Hg. rewrite E in Hg. cbn in Hg. eapply PanicAt_suffix; [exact Hg|eapply Hf; eassumption].
Qed.
Lemma PS_seq {A B} n (p : parser A) (q : A -> parser B) :
  wf p -> PS n p -> (forall v, PS n (q v)) -> PS n (fun s => bind (p s) (fun r v => q v r)).
Proof.
  intros Hw Hp Hq. apply (PS_bind n p (fun r v => q v r)); [exact Hw|exact Hp|].
  intros s r v Hs E Hr. apply Hq. apply suffix_len in Hr. lia.
Qed.
Lemma PS_ret {A} n (v : A) : PS n (fun s => Ok s v).
Proof. intros s _ [=]. Qed.
Lemma PS_pmap {A B} n (f : A -> B) p : PS n p -> PS n (pmap f p).
Proof. intros H s Hs E. unfold pmap, map_res in E. apply bind_panic in E as [E|(r & v & _ & [=])]. apply H; assumption. Qed.
Lemma PS_alt {A} n (p q : parser A) : PS n p -> PS n q -> PS n (alt p q).
Proof. intros Hp Hq s Hs E. unfold alt in E. destruct (p s) eqn:Ep; try discriminate; [apply Hq|apply Hp]; auto. Qed.
Lemma PS_opt {A} n (p : parser A) : PS n p -> PS n (opt p).
Proof. intros H s Hs E. unfold opt in E. destruct (p s) eqn:Ep; try discriminate. apply H; assumption. Qed.
Lemma PS_recognize {A} n (p : parser A) : PS n p -> PS n (recognize p).
Proof. intros H s Hs E. unfold recognize in E. apply bind_panic in E as [E|(r & v & _ & [=])]. apply H; assumption. Qed.
Lemma PS_preceded {A B} n (p : parser A) (q : parser B) : wf p -> PS n p -> PS n q -> PS n (preceded p q).
Proof. intros Hw Hp Hq. apply (PS_seq n p (fun _ => q)); auto. Qed.
Lemma PS_terminated {A B} n (p : parser A) (q : parser B) : wf p -> wf q -> PS n p -> PS n q -> PS n (terminated p q).
Proof.
  intros Hw Hwq Hp Hq. apply (PS_seq n p (fun v s => bind (q s) (fun r _ => Ok r v))); [exact Hw|exact Hp|].
  intros v. apply (PS_seq n q (fun _ s => Ok s v)); [exact Hwq|exact Hq|]. intros _. apply PS_ret.
Qed.
Lemma simple_ws : simple whitespace.
Proof. apply simple_many0; [apply wf_ws_item|apply simple_ws_item]. Qed.
Lemma simple_iws : simple inline_whitespace.
Proof. apply simple_many0; [apply wf_iws_item|apply simple_iws_item]. Qed.
Lemma PS_wrap_ws {A} n (p : parser A) : PS n p -> PS n (wrap whitespace p).
Proof. intros H. apply PS_preceded; [apply wf_whitespace|apply PS_simple, simple_ws|exact H]. Qed.
Lemma PS_wrap_iws {A} n (p : parser A) : PS n p -> PS n (wrap inline_whitespace p).
Proof. intros H. apply PS_preceded; [apply wf_inline_whitespace|apply PS_simple, simple_iws|exact H]. Qed.
Lemma PS_ws_m {A} n (p : parser A) : wf p -> PS n p -> PS n (whitespace_m p).
Proof. intros Hw H. apply PS_terminated; [exact Hw|apply wf_whitespace|exact H|apply PS_simple, simple_ws]. Qed.
Lemma PS_iws_m {A} n (p : parser A) : wf p -> PS n p -> PS n (inline_whitespace_m p).
Proof. intros Hw H. apply PS_terminated; [exact Hw|apply wf_inline_whitespace|exact H|apply PS_simple, simple_iws]. Qed.
Lemma PS_many0 {A} n (p : parser A) : wf p -> PS n p -> PS n (many0 p).
Proof.
  intros Hw Hp s. remember (length s) as k eqn:Ek. revert s Ek; induction k as [k IH] using lt_wf_ind; intros s -> Hs E.
  rewrite many0_eq in E by apply wf_upto_of, Hw. pose proof (Hw s) as Hg.
  destruct (p s) as [r v| | | |] eqn:Ep; try discriminate; [|apply Hp; assumption].
  cbn in Hg. destruct (str_eqb r s) eqn:Eq; [discriminate|]. apply str_eqb_neq in Eq.
  pose proof (suffix_neq_len _ _ Hg Eq) as Hl.
  unfold map_res in E. apply bind_panic in E as [E|(r' & v' & _ & [=])].
  eapply PanicAt_suffix; [exact Hg|]. eapply (IH (length r)); [lia|reflexivity|lia|exact E].
Qed.
Lemma PS_sep_rest {A B} n (sep : parser B) (p : parser A) : wf sep -> wf p -> PS n sep -> PS n p -> PS n (sep_rest sep p).
Proof.
  intros Hws Hw Hsep Hp s. remember (length s) as k eqn:Ek. revert s Ek; induction k as [k IH] using lt_wf_ind; intros s -> Hs E.
  rewrite sep_rest_eq in E by (apply wf_upto_of; assumption). pose proof (Hws s) as Hg.
  destruct (sep s) as [s2 x| | | |] eqn:Es; try discriminate; [|apply Hsep; assumption].
  cbn in Hg. pose proof (suffix_len _ _ Hg) as Hl.
  destruct (Nat.eqb_spec (length s2) (length s)) as [_|Hne]; [discriminate|].
  pose proof (Hw s2) as Hg2. destruct (p s2) as [s3 v| | | |] eqn:Ep; try discriminate.
  - cbn in Hg2. pose proof (suffix_len _ _ Hg2) as Hl2. destruct (Nat.eqb (length s3) (length s2)); [discriminate|].
    unfold map_res in E. apply bind_panic in E as [E|(r' & v' & _ & [=])].
    eapply PanicAt_suffix; [eapply suffix_trans; eassumption|]. eapply (IH (length s3)); [lia|reflexivity|lia|exact E].
  - eapply PanicAt_suffix; [exact Hg|]. apply Hp; [lia|exact Ep].
Qed.
Lemma PS_separated {A B} n (sep : parser B) (p : parser A) : wf sep -> wf p -> PS n sep -> PS n p -> PS n (separated_list sep p).
Proof.
  intros Hws Hw Hsep Hp s Hs E. rewrite separated_list_eq in E. pose proof (Hw s) as Hg.
  destruct (p s) as [r v| | | |] eqn:Ep; try discriminate; [|apply Hp; assumption].
  cbn in Hg. pose proof (suffix_len _ _ Hg) as Hl. destruct (Nat.eqb (length r) (length s)); [discriminate|].
  unfold map_res in E. apply bind_panic in E as [E|(r' & v' & _ & [=])].
  eapply PanicAt_suffix; [exact Hg|]. eapply (PS_sep_rest n sep p Hws Hw Hsep Hp); [|exact E]. lia.
Qed.

(** ** The parsers *)
Lemma PS_quoted n : PS n quoted_string.
Proof. intros s _ E. destruct (quoted_string_outcome s) as [(r & v & E')|[E'|(? & E')]]; congruence. Qed.
Lemma PS_literal n : PS n string_literal.
Proof. intros s _ E. destruct (string_literal_outcome s) as [(r & v & E')|[E'|(? & E')]]; congruence. Qed.
Lemma PS_string n : PS n (string_p U).
Proof.
  apply PS_alt; [apply PS_pmap, PS_quoted|]. intros s _ E. exists s. split; [apply suffix_refl|exact E].
Qed.
Lemma PS_identifier n : PS n (identifier U).
Proof. apply PS_simple, simple_identifier. Qed.
Lemma PS_sep n : PS n object_separator.
Proof.
  apply PS_alt; [apply PS_simple, simple_tag|]. apply PS_alt; apply PS_pmap, PS_simple; [apply simple_newline|apply simple_peek, simple_char].
Qed.

Lemma PS_tuple n : PS n (expression U) -> PS (S n) (tuple (expression U)).
Proof.
  intros H s Hs E. unfold tuple, preceded in E. apply bind_panic in E as [E|(r & v & E & E2)].
  - destruct (simple_char c_lbracket s) as [(? & ? & E')|E']; congruence.
  - apply char_p_ok in E as [-> _]. cbn in Hs. eapply PanicAt_suffix; [apply suffix_cons|].
    eapply (PS_terminated n); [| | | |cbn; lia|exact E2].
    + apply wf_ws_m. intros x. apply good_separated_list; apply wf_upto_of, wf_wrap_ws; [apply wf_char|apply wf_expression].
    + apply wf_terminated; [apply wf_ws_m, wf_wrap_ws, wf_opt, wf_char|apply wf_char].
    + apply PS_ws_m; [intros x; apply good_separated_list; apply wf_upto_of, wf_wrap_ws; [apply wf_char|apply wf_expression]|].
      apply PS_separated; [apply wf_wrap_ws, wf_char|apply wf_wrap_ws, wf_expression|apply PS_wrap_ws, PS_simple, simple_char|].
      apply PS_wrap_ws, H.
    + apply PS_terminated; [apply wf_ws_m, wf_wrap_ws, wf_opt, wf_char|apply wf_char| |apply PS_simple, simple_char].
      apply PS_ws_m; [apply wf_wrap_ws, wf_opt, wf_char|]. apply PS_wrap_ws, PS_simple, simple_opt, simple_char.
Qed.

Lemma wf_oei : wf (object_element_identifier U (expression U)).
Proof. apply wf_alt; apply wf_pmap; [apply wf_identifier|apply wf_recognize, wf_expression]. Qed.
Lemma PS_object_element n : PS n (expression U) -> PS n (object_element U (expression U)).
Proof.
  intros H. unfold object_element. apply PS_iws_m.
  - intros s. apply good_bind; [apply wf_wrap_iws, wf_oei|]. intros r v _ _.
    apply good_bind; [apply wf_wrap_iws, wf_char|]. intros r1 v1 _ _.
    apply good_bind; [apply wf_wrap_iws, wf_expression|]. intros r2 v2 _ _. apply suffix_refl.
  - apply (PS_seq n (wrap inline_whitespace (object_element_identifier U (expression U)))
      (fun k r1 => let* (r2, _eq) := wrap inline_whitespace (char_p c_eq) r1 in
         let* (r3, e) := wrap inline_whitespace (expression U) r2 in Ok r3 (k, e))).
    + apply wf_wrap_iws, wf_oei.
    + apply PS_wrap_iws, PS_alt; [apply PS_pmap, PS_identifier|apply PS_pmap, PS_recognize, H].
    + intros k. apply (PS_seq n (wrap inline_whitespace (char_p c_eq)) (fun _ r2 =>
         let* (r3, e) := wrap inline_whitespace (expression U) r2 in Ok r3 (k, e))).
      * apply wf_wrap_iws, wf_char.
      * apply PS_wrap_iws, PS_simple, simple_char.
      * intros _. apply (PS_seq n (wrap inline_whitespace (expression U)) (fun e r3 => Ok r3 (k, e))).
        -- apply wf_wrap_iws, wf_expression.
        -- apply PS_wrap_iws, H.
        -- intros e. apply PS_ret.
Qed.
Lemma PS_object_body n : PS n (expression U) -> PS n (object_body U (expression U)).
Proof.
  intros H. unfold object_body. apply PS_ws_m.
  - apply wf_many0, wf_wrap_ws, wf_terminated; [apply wf_object_element|apply wf_object_separator].
  - apply PS_many0; [apply wf_wrap_ws, wf_terminated; [apply wf_object_element|apply wf_object_separator]|].
    apply PS_wrap_ws, PS_terminated; [apply wf_object_element|apply wf_object_separator|apply PS_object_element, H|apply PS_sep].
Qed.
Lemma PS_object n : PS n (expression U) -> PS (S n) (object U (expression U)).
Proof.
  intros H s Hs E. unfold object in E. apply bind_panic in E as [E|(r & v & E & E2)].
  - assert (HP : PS (S n) (whitespace_m (wrap whitespace (char_p c_lbrace)))).
    { apply PS_ws_m; [apply wf_wrap_ws, wf_char|apply PS_wrap_ws, PS_simple, simple_char]. }
    apply HP; assumption.
  - pose proof (wrap_ws_consumes _ _ _ _ (char_consumes c_lbrace) E) as Hl.
    pose proof (wf_ws_m _ (wf_wrap_ws _ (wf_char c_lbrace)) s) as Hg. rewrite E in Hg. cbn in Hg.
    eapply PanicAt_suffix; [exact Hg|].
    revert E2. apply (PS_seq n (whitespace_m (wrap whitespace (object_body U (expression U))))
      (fun values r2 => let* (r3, _e) := char_p c_rbrace r2 in Ok r3 values)); [| | |lia].
    + apply wf_ws_m, wf_wrap_ws, wf_object_body.
    + apply PS_ws_m; [apply wf_wrap_ws, wf_object_body|apply PS_wrap_ws, PS_object_body, H].
    + intros l. apply (PS_seq n (char_p c_rbrace) (fun _ r3 => Ok r3 l)); [apply wf_char|apply PS_simple, simple_char|].
      intros _. apply PS_ret.
Qed.
Lemma PS_bracket n : PS n (expression U) -> PS (S n) (bracket_expression (expression U)).
Proof.
  intros H s Hs E. unfold bracket_expression in E. apply bind_panic in E as [E|(r & v & E & E2)].
  - assert (HP : PS (S n) (whitespace_m (wrap whitespace (tag (lit "("))))).
    { apply PS_ws_m; [apply wf_wrap_ws, wf_tag|apply PS_wrap_ws, PS_simple, simple_tag]. }
    apply HP; assumption.
  - assert (Hl : (length r < length s)%nat).
    { eapply (wrap_ws_consumes (tag (lit "("))); [|exact E]. intros x y z Hx. apply (tag_consumes (lit "(") x y z); [discriminate|exact Hx]. }
    pose proof (wf_ws_m _ (wf_wrap_ws _ (wf_tag (lit "("))) s) as Hg. rewrite E in Hg. cbn in Hg.
    eapply PanicAt_suffix; [exact Hg|].
    revert E2. apply (PS_seq n (whitespace_m (wrap whitespace (expression U)))
      (fun e r2 => let* (r3, _e) := tag (lit ")") r2 in Ok r3 e)); [| | |lia].
    + apply wf_ws_m, wf_wrap_ws, wf_expression.
    + apply PS_ws_m; [apply wf_wrap_ws, wf_expression|apply PS_wrap_ws, H].
    + intros e. apply (PS_seq n (tag (lit ")")) (fun _ r3 => Ok r3 e)); [apply wf_tag|apply PS_simple, simple_tag|].
      intros _. apply PS_ret.
Qed.
Lemma PS_expression n : PS n (expression U).
Proof.
  induction n as [|n IH]; [intros s H; lia|]. intros s Hs E. rewrite expression_eq in E. revert E.
  assert (HP : PS (S n) (expression_step U (expression U))); [|apply HP, Hs].
  unfold expression_step. repeat (apply PS_alt); try apply PS_pmap.
  - apply PS_simple, simple_pmap, simple_tag.
  - apply PS_simple, simple_number.
  - apply PS_simple, simple_alt; apply simple_pmap, simple_tag.
  - apply PS_string.
  - apply PS_tuple, IH.
  - apply PS_object, IH.
  - apply PS_bracket, IH.
Qed.

Lemma PS_attribute n : PS n (attribute U).
Proof.
  unfold attribute. apply PS_iws_m.
  - intros s. apply good_bind; [apply wf_wrap_iws, wf_identifier|]. intros r v _ _.
    apply good_bind; [apply wf_wrap_iws, wf_char|]. intros r1 v1 _ _.
    apply good_bind; [apply wf_wrap_iws, wf_expression|]. intros r2 v2 _ _. apply suffix_refl.
  - apply (PS_seq n (wrap inline_whitespace (identifier U))
      (fun k r1 => let* (r2, _eq) := wrap inline_whitespace (char_p c_eq) r1 in
         let* (r3, e) := wrap inline_whitespace (expression U) r2 in Ok r3 (k, e))).
    + apply wf_wrap_iws, wf_identifier.
    + apply PS_wrap_iws, PS_identifier.
    + intros k. apply (PS_seq n (wrap inline_whitespace (char_p c_eq)) (fun _ r2 =>
         let* (r3, e) := wrap inline_whitespace (expression U) r2 in Ok r3 (k, e))).
      * apply wf_wrap_iws, wf_char.
      * apply PS_wrap_iws, PS_simple, simple_char.
      * intros _. apply (PS_seq n (wrap inline_whitespace (expression U)) (fun e r3 => Ok r3 (k, e))).
        -- apply wf_wrap_iws, wf_expression.
        -- apply PS_wrap_iws, PS_expression.
        -- intros e. apply PS_ret.
Qed.
Lemma PS_labels n : PS n (block_labels U).
Proof.
  apply PS_many0; [apply wf_iws_m, wf_wrap_iws, wf_block_label|].
  apply PS_iws_m; [apply wf_wrap_iws, wf_block_label|]. apply PS_wrap_iws, PS_alt; apply PS_pmap; [apply PS_identifier|apply PS_literal].
Qed.

(** The head of a block: type, labels, opening brace *)
Lemma PS_head {A} n (k : cow -> list label -> parser A) :
  (forall t ls, PS n (k t ls)) ->
  PS n (fun s => let* (r1, t) := wrap inline_whitespace (identifier U) s in
                 let* (r2, ls) := wrap inline_whitespace (block_labels U) r1 in
                 let* (r3, _o) := wrap inline_whitespace (tag (lit "{")) r2 in k t ls r3).
Proof.
  intros H. apply (PS_seq n (wrap inline_whitespace (identifier U)) (fun t r1 =>
      let* (r2, ls) := wrap inline_whitespace (block_labels U) r1 in
      let* (r3, _o) := wrap inline_whitespace (tag (lit "{")) r2 in k t ls r3)).
  - apply wf_wrap_iws, wf_identifier.
  - apply PS_wrap_iws, PS_identifier.
  - intros t. apply (PS_seq n (wrap inline_whitespace (block_labels U)) (fun ls r2 =>
      let* (r3, _o) := wrap inline_whitespace (tag (lit "{")) r2 in k t ls r3)).
    + apply wf_wrap_iws, wf_block_labels.
    + apply PS_wrap_iws, PS_labels.
    + intros ls. apply (PS_seq n (wrap inline_whitespace (tag (lit "{"))) (fun _ r3 => k t ls r3)).
      * apply wf_wrap_iws, wf_tag.
      * apply PS_wrap_iws, PS_simple, simple_tag.
      * intros _. apply H.
Qed.

Lemma PS_one_line n : PS n (one_line_block U).
Proof.
  intros s Hs E. unfold one_line_block in E. unfold inline_whitespace_m, terminated in E.
  apply bind_panic in E as [E|(r & v & _ & E)].
  - revert E. apply (PS_head n (fun t ls r3 =>
      let* (r4, a) := wrap inline_whitespace (one_line_block_body U) r3 in
      let* (r5, _c) := wrap inline_whitespace (tag (lit "}")) r4 in Ok r5 (new_one_line t ls a))); [|exact Hs].
    intros t ls. apply (PS_seq n (wrap inline_whitespace (one_line_block_body U)) (fun a r4 =>
      let* (r5, _c) := wrap inline_whitespace (tag (lit "}")) r4 in Ok r5 (new_one_line t ls a))).
    + apply wf_wrap_iws, wf_opt, wf_attribute.
    + apply PS_wrap_iws, PS_opt, PS_attribute.
    + intros a. apply (PS_seq n (wrap inline_whitespace (tag (lit "}"))) (fun _ r5 => Ok r5 (new_one_line t ls a))).
      * apply wf_wrap_iws, wf_tag.
      * apply PS_wrap_iws, PS_simple, simple_tag.
      * intros _. apply PS_ret.
  - apply bind_panic in E as [E|(r' & v' & _ & [=])]. destruct (simple_iws r) as [(? & ? & E')|E']; congruence.
Qed.

Lemma GConsume_ident s r v : wrap inline_whitespace (identifier U) s = Ok r v -> (length r < length s)%nat.
Proof.
  rewrite wrap_iws. intros H. apply identifier_ok, GIdent_len in H.
  pose proof (suffix_len _ _ (iws_rest_suffix s)). lia.
Qed.

Lemma PS_block n : PS n (body U) -> PS (S n) (block U (body U)).
Proof.
  intros H s Hs E. unfold block, inline_whitespace_m, terminated in E.
  apply bind_panic in E as [E|(r & v & _ & E)].
  - apply bind_panic in E as [E|(r1 & t & E & E2)].
    { revert E. apply (PS_wrap_iws (S n)); [apply PS_identifier|exact Hs]. }
    pose proof (GConsume_ident _ _ _ E) as Hl.
    pose proof (wf_wrap_iws _ (wf_identifier U) s) as Hg. rewrite E in Hg. cbn in Hg.
    eapply PanicAt_suffix; [exact Hg|]. revert E2.
    apply (PS_seq n (wrap inline_whitespace (block_labels U)) (fun ls r2 =>
      let* (r3, _o) := wrap inline_whitespace (tag (lit "{")) r2 in
      let* (r4, _n) := wrap inline_whitespace newline r3 in
      let* (r5, b) := wrap inline_whitespace (body U) r4 in
      let* (r6, _c) := wrap inline_whitespace (tag (lit "}")) r5 in
      Ok r6 (Blk t ls b))); [apply wf_wrap_iws, wf_block_labels|apply PS_wrap_iws, PS_labels| |lia].
    intros ls. apply (PS_seq n (wrap inline_whitespace (tag (lit "{"))) (fun _ r3 =>
      let* (r4, _n) := wrap inline_whitespace newline r3 in
      let* (r5, b) := wrap inline_whitespace (body U) r4 in
      let* (r6, _c) := wrap inline_whitespace (tag (lit "}")) r5 in
      Ok r6 (Blk t ls b))); [apply wf_wrap_iws, wf_tag|apply PS_wrap_iws, PS_simple, simple_tag|].
    intros _. apply (PS_seq n (wrap inline_whitespace newline) (fun _ r4 =>
      let* (r5, b) := wrap inline_whitespace (body U) r4 in
      let* (r6, _c) := wrap inline_whitespace (tag (lit "}")) r5 in
      Ok r6 (Blk t ls b))); [apply wf_wrap_iws, wf_newline|apply PS_wrap_iws, PS_simple, simple_newline|].
    intros _. apply (PS_seq n (wrap inline_whitespace (body U)) (fun b r5 =>
      let* (r6, _c) := wrap inline_whitespace (tag (lit "}")) r5 in
      Ok r6 (Blk t ls b))); [apply wf_wrap_iws, wf_body|apply PS_wrap_iws, H|].
    intros b. apply (PS_seq n (wrap inline_whitespace (tag (lit "}"))) (fun _ r6 => Ok r6 (Blk t ls b)));
      [apply wf_wrap_iws, wf_tag|apply PS_wrap_iws, PS_simple, simple_tag|]. intros _. apply PS_ret.
  - apply bind_panic in E as [E|(r' & v' & _ & [=])]. destruct (simple_iws r) as [(? & ? & E')|E']; congruence.
Qed.

Lemma PS_body n : PS n (body U).
Proof.
  induction n as [|n IH]; [intros s H; lia|]. intros s Hs E. rewrite body_unfold in E.
  apply bind_panic in E as [E|(r & v & _ & [=])]. revert E.
  apply (PS_many0 (S n)); [apply wf_body_item| |exact Hs]. apply PS_wrap_ws, PS_terminated;
    [apply wf_body_element|apply wf_body_end| |].
  - unfold body_element. apply PS_alt; [apply PS_pmap, PS_attribute|]. apply PS_alt; [apply PS_one_line|apply PS_block, IH].
  - apply PS_alt; [apply PS_pmap, PS_simple, simple_newline|]. intros x _ Ex. destruct x; discriminate.
Qed.

Theorem parse_str_panic s : parse_str U s = PanicR -> PanicAt s.
Proof.
  unfold parse_str, config_file, exact, terminated. intros H.
  apply (PS_body (S (length s))); [lia|].
  destruct (body U s) as [[|c r] v| | | |]; cbn [bind eof] in H; try discriminate. reflexivity.
Qed.
Theorem expression_parse_panic s : expression_parse U s = PanicR -> PanicAt s.
Proof.
  unfold expression_parse. intros H. apply (PS_expression (S (length s))); [lia|].
  destruct (expression U s) as [[|c r] v| | | |]; try discriminate. reflexivity.
Qed.

(** A panicking heredoc is an indented one whose content has a line that cannot
    be unindented. *)
Theorem PanicAt_shape s : PanicAt s -> exists x m e content b t r,
  s = x ++ [60; 60; 45] ++ m ++ e ++ content ++ t /\ MarkerText U m /\ Eol e /\ Closing m b t r /\ b <> [] /\
  (forall p y b' r', e ++ content = p ++ y -> y <> [] -> ~ Closing m b' (y ++ t) r') /\
  ~ exists out, Unindent (length b) content out.
Proof.
  intros (s' & [x ->] & H). apply heredoc_string_panic in H as (d & m & p & b & t & r & content & n & -> & HS & E).
  destruct HS as (Hm & Hd & Hc & Hn & Hp). destruct p as [|p0 p].
  - destruct Hp as [-> ->]. discriminate.
  - destruct Hp as (e & He & Ep & ->). destruct Hd as [->| ->]; [discriminate|].
    assert (Hb : b <> []) by (intros ->; discriminate).
    exists x, m, e, content, b, t, r. rewrite Ep, <- !app_assoc. split; [reflexivity|].
    split; [exact Hm|]. split; [exact He|]. split; [exact Hc|]. split; [exact Hb|]. split.
    + intros p' y b' r' Hpy. apply (Hn p' y). rewrite Ep. exact Hpy.
    + intros (out & Ho). cbn [app] in E.
      assert (Eo : unindent_heredoc content (length b) = Some (Owned out)).
      { apply unindent_ok; [destruct b; [congruence|cbn; lia]|]. exists out. auto. }
      congruence.
Qed.
End WithTables.
