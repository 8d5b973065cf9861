(** * ParserFacts: the fuel is always enough; unfolding equations *)
From Verif Require Import Base Nom NomFacts Ast Lex Grammar WsFacts NumFacts StrFacts HeredocFacts Parser.

Definition wf_below {A} (n : nat) (p : parser A) : Prop :=
  forall s, (length s < n)%nat -> good (p s) s.

Lemma wf_below_of {A} (p : parser A) n : wf p -> wf_below n p.
Proof. intros H s _. apply H. Qed.
Lemma wf_below_upto {A} (p : parser A) n m : (m < n)%nat -> wf_below n p -> wf_upto m p.
Proof. intros H1 H2 s H. apply H2. lia. Qed.
Lemma wf_below_le {A} (p : parser A) n m : (m <= n)%nat -> wf_below n p -> wf_below m p.
Proof. intros H1 H2 s H. apply H2. lia. Qed.
Lemma wf_of_below {A} (p : parser A) : (forall n, wf_below n p) -> wf p.
Proof. intros H s. apply (H (S (length s))). lia. Qed.

Lemma wf_below_pmap {A B} (f : A -> B) p n : wf_below n p -> wf_below n (pmap f p).
Proof. intros Hp s H. apply good_map_res, Hp, H. Qed.
Lemma wf_below_alt {A} (p q : parser A) n : wf_below n p -> wf_below n q -> wf_below n (alt p q).
Proof. intros Hp Hq s H. unfold alt. specialize (Hp s H). specialize (Hq s H). destruct (p s); auto. Qed.
Lemma wf_below_recognize {A} (p : parser A) n : wf_below n p -> wf_below n (recognize p).
Proof. intros Hp s H. apply good_bind; [apply Hp, H|]. intros r v _ _. cbn. auto with suffix. Qed.
Lemma wf_below_preceded {A B} (p : parser A) (q : parser B) n :
  wf_below n p -> wf_below n q -> wf_below n (preceded p q).
Proof.
  intros Hp Hq s H. apply good_bind; [apply Hp, H|]. intros r v _ Hr. apply Hq.
  apply suffix_len in Hr. lia.
Qed.
Lemma wf_below_terminated {A B} (p : parser A) (q : parser B) n :
  wf_below n p -> wf_below n q -> wf_below n (terminated p q).
Proof.
  intros Hp Hq s H. apply good_bind; [apply Hp, H|]. intros r v _ Hr.
  apply good_bind; [apply Hq; apply suffix_len in Hr; lia|]. intros r' v' _ _. cbn. auto with suffix.
Qed.
Lemma wf_below_wrap_ws {A} (p : parser A) n : wf_below n p -> wf_below n (wrap whitespace p).
Proof. intros H. apply wf_below_preceded; [apply wf_below_of, wf_whitespace|exact H]. Qed.
Lemma wf_below_wrap_iws {A} (p : parser A) n : wf_below n p -> wf_below n (wrap inline_whitespace p).
Proof. intros H. apply wf_below_preceded; [apply wf_below_of, wf_inline_whitespace|exact H]. Qed.
Lemma wf_below_ws_m {A} (p : parser A) n : wf_below n p -> wf_below n (whitespace_m p).
Proof. intros H. apply wf_below_terminated; [exact H|apply wf_below_of, wf_whitespace]. Qed.
Lemma wf_below_iws_m {A} (p : parser A) n : wf_below n p -> wf_below n (inline_whitespace_m p).
Proof. intros H. apply wf_below_terminated; [exact H|apply wf_below_of, wf_inline_whitespace]. Qed.
Lemma wf_below_many0 {A} (p : parser A) n : wf_below n p -> wf_below n (many0 p).
Proof. intros H s Hs. apply good_many0. eapply wf_below_upto; eassumption. Qed.
Lemma wf_below_separated {A B} (sep : parser B) (p : parser A) n :
  wf sep -> wf_below n p -> wf_below n (separated_list sep p).
Proof.
  intros Hq H s Hs. apply good_separated_list; [apply wf_upto_of, Hq|eapply wf_below_upto; eassumption].
Qed.

(** A parser that consumes something, followed by one that is fine on shorter inputs *)
Lemma good_bind_shorter {A B} (x : res A) (f : str -> A -> res B) s :
  good x s -> (forall r v, x = Ok r v -> (length r < length s)%nat /\ good (f r v) r) ->
  good (bind x f) s.
Proof. intros H1 H2. apply good_bind; [exact H1|]. intros r v E _. apply H2, E. Qed.

Section WithTables.
Context (U : ucd).

Lemma wf_object_separator : wf object_separator.
Proof.
  apply wf_alt; [apply wf_tag|]. apply wf_alt; [apply wf_pmap, wf_newline|].
  apply wf_pmap, wf_peek, wf_char.
Qed.

Lemma tuple_below p n : wf_below n p -> wf_below (S n) (tuple p).
Proof.
  intros Hp s Hs. unfold tuple, preceded. apply good_bind; [apply wf_char|]. intros r v E _.
  apply char_p_ok in E as [-> _]. cbn in Hs.
  refine ((_ : wf_below n _) r _); [|lia].
  apply wf_below_terminated.
  - apply wf_below_ws_m, wf_below_separated; [apply wf_preceded; [apply wf_whitespace|apply wf_char]|].
    apply wf_below_wrap_ws, Hp.
  - apply wf_below_of, wf_terminated; [|apply wf_char].
    apply wf_terminated; [|apply wf_whitespace]. apply wf_preceded; [apply wf_whitespace|].
    apply wf_opt, wf_char.
Qed.

Lemma object_element_identifier_below p n : wf_below n p -> wf_below n (object_element_identifier U p).
Proof.
  intros Hp. apply wf_below_alt; [apply wf_below_of, wf_pmap, wf_identifier|].
  apply wf_below_pmap, wf_below_recognize, Hp.
Qed.
Lemma object_element_below p n : wf_below n p -> wf_below n (object_element U p).
Proof.
  intros Hp. apply wf_below_iws_m. intros s Hs.
  apply good_bind; [apply (wf_below_wrap_iws _ n); [apply object_element_identifier_below, Hp|exact Hs]|].
  intros r v _ Hr. apply suffix_len in Hr.
  apply good_bind; [apply wf_preceded; [apply wf_inline_whitespace|apply wf_char]|].
  intros r1 v1 _ Hr1. apply suffix_len in Hr1.
  apply good_bind; [apply (wf_below_wrap_iws _ n); [exact Hp|lia]|].
  intros r2 v2 _ _. cbn. auto with suffix.
Qed.
Lemma object_body_below p n : wf_below n p -> wf_below n (object_body U p).
Proof.
  intros Hp. apply wf_below_ws_m, wf_below_many0, wf_below_wrap_ws, wf_below_terminated.
  - apply object_element_below, Hp.
  - apply wf_below_of, wf_object_separator.
Qed.

Lemma wrap_ws_consumes {A} (p : parser A) s r v :
  (forall s r v, p s = Ok r v -> (length r < length s)%nat) ->
  whitespace_m (wrap whitespace p) s = Ok r v -> (length r < length s)%nat.
Proof.
  intros Hp. rewrite ws_m, wrap_ws. intros H. apply bind_ok in H as (r' & v' & H & E).
  injection E as <- <-. apply Hp in H. pose proof (suffix_len _ _ (ws_rest_suffix s)).
  pose proof (suffix_len _ _ (ws_rest_suffix r')). lia.
Qed.
Lemma char_consumes c s r v : char_p c s = Ok r v -> (length r < length s)%nat.
Proof. intros H. apply char_p_ok in H as [-> _]. cbn. lia. Qed.
Lemma tag_consumes t s r v : t <> [] -> tag t s = Ok r v -> (length r < length s)%nat.
Proof.
  intros Ht H. apply tag_ok in H as [-> _]. rewrite app_length. destruct t; [congruence|]. cbn [length]. lia.
Qed.

Lemma object_below p n : wf_below n p -> wf_below (S n) (object U p).
Proof.
  intros Hp s Hs. unfold object.
  apply good_bind; [apply (wf_below_ws_m _ (S n)); [apply wf_below_wrap_ws, wf_below_of, wf_char|exact Hs]|].
  intros r v E _. apply wrap_ws_consumes in E; [|apply char_consumes].
  apply good_bind.
  - apply (wf_below_ws_m _ n); [apply wf_below_wrap_ws, object_body_below, Hp|lia].
  - intros r1 v1 _ _. apply good_bind; [apply wf_char|]. intros r2 v2 _ _. cbn. auto with suffix.
Qed.
Lemma bracket_below p n : wf_below n p -> wf_below (S n) (bracket_expression p).
Proof.
  intros Hp s Hs. unfold bracket_expression.
  apply good_bind; [apply (wf_below_ws_m _ (S n)); [apply wf_below_wrap_ws, wf_below_of, wf_tag|exact Hs]|].
  intros r v E _. apply wrap_ws_consumes in E; [|intros ? ? ?; apply tag_consumes; discriminate].
  apply good_bind.
  - apply (wf_below_ws_m _ n); [apply wf_below_wrap_ws, Hp|lia].
  - intros r1 v1 _ _. apply good_bind; [apply wf_tag|]. intros r2 v2 _ _. cbn. auto with suffix.
Qed.

Lemma wf_null : wf null.
Proof. apply wf_pmap, wf_tag. Qed.
Lemma wf_boolean : wf boolean.
Proof. apply wf_alt; apply wf_pmap, wf_tag. Qed.

Lemma step_below p n : wf_below n p -> wf_below (S n) (expression_step U p).
Proof.
  intros Hp. unfold expression_step.
  apply wf_below_alt; [apply wf_below_of, wf_pmap, wf_null|].
  apply wf_below_alt; [apply wf_below_of, wf_pmap, wf_number|].
  apply wf_below_alt; [apply wf_below_of, wf_pmap, wf_boolean|].
  apply wf_below_alt; [apply wf_below_of, wf_pmap, wf_string_p|].
  apply wf_below_alt; [apply wf_below_pmap, tuple_below, Hp|].
  apply wf_below_alt; [apply wf_below_pmap, object_below, Hp|]. apply bracket_below, Hp.
Qed.

Lemma expression_f_below f : wf_below f (expression_f U f).
Proof. induction f as [|f IH]; [intros s H; lia|]. apply step_below, IH. Qed.

Lemma wf_expression : wf (expression U).
Proof. intros s. apply expression_f_below. lia. Qed.

(** ** Monotonicity in the recursive parser *)
Lemma ple_wrap {A} sp (p q : parser A) : ple p q -> ple (wrap sp p) (wrap sp q).
Proof. intros H. apply ple_preceded; [apply ple_refl|exact H]. Qed.
Lemma ple_ws_m {A} (p q : parser A) : ple p q -> ple (whitespace_m p) (whitespace_m q).
Proof. intros H. apply ple_terminated; [exact H|apply ple_refl]. Qed.
Lemma ple_iws_m {A} (p q : parser A) : ple p q -> ple (inline_whitespace_m p) (inline_whitespace_m q).
Proof. intros H. apply ple_terminated; [exact H|apply ple_refl]. Qed.

Lemma ple_tuple p q : ple p q -> ple (tuple p) (tuple q).
Proof.
  intros H. apply ple_preceded; [apply ple_refl|]. apply ple_terminated; [|apply ple_refl].
  apply ple_ws_m, ple_separated_list, ple_wrap, H.
Qed.
Lemma ple_object p q : ple p q -> ple (object U p) (object U q).
Proof.
  intros H s. apply le_bind; [apply le_refl|]. intros r v. apply le_bind; [|intros; apply le_refl].
  apply ple_ws_m, ple_wrap, ple_ws_m, ple_many0, ple_wrap, ple_terminated; [|apply ple_refl].
  apply ple_iws_m. intros s1. apply le_bind.
  - apply ple_wrap, ple_alt; [apply ple_refl|]. apply ple_pmap, ple_recognize, H.
  - intros r1 v1. apply le_bind; [apply le_refl|]. intros r2 v2.
    apply le_bind; [apply ple_wrap, H|]. intros; apply le_refl.
Qed.
Lemma ple_bracket p q : ple p q -> ple (bracket_expression p) (bracket_expression q).
Proof.
  intros H s. apply le_bind; [apply le_refl|]. intros r v. apply le_bind; [|intros; apply le_refl].
  apply ple_ws_m, ple_wrap, H.
Qed.
Lemma ple_step p q : ple p q -> ple (expression_step U p) (expression_step U q).
Proof.
  intros H. unfold expression_step. repeat (apply ple_alt; [try apply ple_refl|]).
  - apply ple_pmap, ple_tuple, H.
  - apply ple_pmap, ple_object, H.
  - apply ple_bracket, H.
Qed.
Lemma ple_expression_f f : ple (expression_f U f) (expression_f U (S f)).
Proof. induction f as [|f IH]; [intros s; left; reflexivity|]. apply ple_step, IH. Qed.
Lemma ple_trans {A} (p q r : parser A) : ple p q -> ple q r -> ple p r.
Proof. intros H1 H2 s. eapply le_trans; [apply H1|apply H2]. Qed.
Lemma ple_expression_le f g : (f <= g)%nat -> ple (expression_f U f) (expression_f U g).
Proof.
  induction 1 as [|g H IH]; [apply ple_refl|]. eapply ple_trans; [exact IH|apply ple_expression_f].
Qed.

Lemma good_not_fuel {A} (x : res A) s : good x s -> x <> OutOfFuel.
Proof. intros H ->. exact H. Qed.

Lemma expression_no_fuel s : expression U s <> OutOfFuel.
Proof. eapply good_not_fuel, wf_expression. Qed.

Lemma expression_enough f s : (length s < f)%nat -> expression_f U f s = expression U s.
Proof.
  intros H. unfold expression.
  destruct (ple_expression_le (S (length s)) f ltac:(lia) s) as [E|E]; [|congruence].
  exfalso. apply (expression_no_fuel s). exact E.
Qed.
Lemma ple_expression f : ple (expression_f U f) (expression U).
Proof.
  intros s. destruct (Nat.le_gt_cases f (length s)) as [H|H].
  - apply ple_expression_le. lia.
  - right. apply expression_enough, H.
Qed.

(** The recursion equation of expression.rs:187-212 *)
Lemma expression_eq s : expression U s = expression_step U (expression U) s.
Proof.
  pose proof (ple_step _ _ (ple_expression (length s)) s) as [E|E].
  - exfalso. apply (expression_no_fuel s). exact E.
  - exact E.
Qed.

(** ** Bodies *)
Lemma wf_iws_m {A} (p : parser A) : wf p -> wf (inline_whitespace_m p).
Proof. intros H. apply wf_terminated; [exact H|apply wf_inline_whitespace]. Qed.
Lemma wf_ws_m {A} (p : parser A) : wf p -> wf (whitespace_m p).
Proof. intros H. apply wf_terminated; [exact H|apply wf_whitespace]. Qed.
Lemma wf_wrap_iws {A} (p : parser A) : wf p -> wf (wrap inline_whitespace p).
Proof. intros H. apply wf_preceded; [apply wf_inline_whitespace|exact H]. Qed.
Lemma wf_wrap_ws {A} (p : parser A) : wf p -> wf (wrap whitespace p).
Proof. intros H. apply wf_preceded; [apply wf_whitespace|exact H]. Qed.

Lemma wf_attribute : wf (attribute U).
Proof.
  apply wf_iws_m. intros s. apply good_bind; [apply wf_wrap_iws, wf_identifier|]. intros r v _ _.
  apply good_bind; [apply wf_wrap_iws, wf_char|]. intros r1 v1 _ _.
  apply good_bind; [apply wf_wrap_iws, wf_expression|]. intros r2 v2 _ _. cbn. auto with suffix.
Qed.
Lemma wf_block_label : wf (block_label U).
Proof. apply wf_alt; apply wf_pmap; [apply wf_identifier|apply wf_string_literal]. Qed.
Lemma wf_block_labels : wf (block_labels U).
Proof. apply wf_many0, wf_iws_m, wf_wrap_iws, wf_block_label. Qed.
Lemma wf_one_line_block : wf (one_line_block U).
Proof.
  apply wf_iws_m. intros s. apply good_bind; [apply wf_wrap_iws, wf_identifier|]. intros r v _ _.
  apply good_bind; [apply wf_wrap_iws, wf_block_labels|]. intros r1 v1 _ _.
  apply good_bind; [apply wf_wrap_iws, wf_tag|]. intros r2 v2 _ _.
  apply good_bind; [apply wf_wrap_iws, wf_opt, wf_attribute|]. intros r3 v3 _ _.
  apply good_bind; [apply wf_wrap_iws, wf_tag|]. intros r4 v4 _ _. cbn. auto with suffix.
Qed.

Lemma block_below p n : wf_below n p -> wf_below (S n) (block U p).
Proof.
  intros Hp. apply wf_below_iws_m. intros s Hs.
  apply good_bind; [apply wf_wrap_iws, wf_identifier|]. intros r v E Hr. apply suffix_len in Hr.
  assert (Hlt : (length r < length s)%nat).
  { rewrite wrap_iws in E. apply identifier_ok in E as (t & _ & E & (c & cs & Ht & _) & _).
    pose proof (suffix_len _ _ (iws_rest_suffix s)) as H1.
    rewrite E, Ht, app_length in H1. cbn [length] in H1. lia. }
  apply good_bind; [apply wf_wrap_iws, wf_block_labels|]. intros r1 v1 _ Hr1. apply suffix_len in Hr1.
  apply good_bind; [apply wf_wrap_iws, wf_tag|]. intros r2 v2 _ Hr2. apply suffix_len in Hr2.
  apply good_bind; [apply wf_wrap_iws, wf_newline|]. intros r3 v3 _ Hr3. apply suffix_len in Hr3.
  apply good_bind; [apply (wf_below_wrap_iws _ n); [exact Hp|lia]|]. intros r4 v4 _ _.
  apply good_bind; [apply wf_wrap_iws, wf_tag|]. intros r5 v5 _ _. cbn. auto with suffix.
Qed.
Lemma body_element_below p n : wf_below n p -> wf_below (S n) (body_element U p).
Proof.
  intros Hp. apply wf_below_alt; [apply wf_below_of, wf_pmap, wf_attribute|].
  apply wf_below_alt; [apply wf_below_of, wf_one_line_block|apply block_below, Hp].
Qed.
Lemma wf_body_end : wf (alt (pmap (fun _ => []) newline) eof).
Proof. apply wf_alt; [apply wf_pmap, wf_newline|apply wf_eof]. Qed.
Lemma body_step_below p n : wf_below n p -> wf_below (S n) (body_step U p).
Proof.
  intros Hp. apply wf_below_ws_m, wf_below_many0, wf_below_wrap_ws, wf_below_terminated.
  - apply body_element_below, Hp.
  - apply wf_below_of, wf_body_end.
Qed.
Lemma body_f_below f : wf_below f (body_f U f).
Proof. induction f as [|f IH]; [intros s H; lia|]. apply body_step_below, IH. Qed.
Lemma wf_body : wf (body U).
Proof. intros s. apply body_f_below. lia. Qed.
Lemma body_no_fuel s : body U s <> OutOfFuel.
Proof. eapply good_not_fuel, wf_body. Qed.

Lemma ple_block p q : ple p q -> ple (block U p) (block U q).
Proof.
  intros H. apply ple_iws_m. intros s. do 4 (apply le_bind; [apply le_refl|]; intros ? ?).
  apply le_bind; [apply ple_wrap, H|]. intros; apply le_refl.
Qed.
Lemma ple_body_step p q : ple p q -> ple (body_step U p) (body_step U q).
Proof.
  intros H. apply ple_ws_m, ple_many0, ple_wrap, ple_terminated; [|apply ple_refl].
  unfold body_element. repeat (apply ple_alt; [apply ple_refl|]). apply ple_block, H.
Qed.
Lemma ple_body_f f : ple (body_f U f) (body_f U (S f)).
Proof. induction f as [|f IH]; [intros s; left; reflexivity|]. apply ple_body_step, IH. Qed.
Lemma ple_body_le f g : (f <= g)%nat -> ple (body_f U f) (body_f U g).
Proof.
  induction 1 as [|g H IH]; [apply ple_refl|]. eapply ple_trans; [exact IH|apply ple_body_f].
Qed.
Lemma body_enough f s : (length s < f)%nat -> body_f U f s = body U s.
Proof.
  intros H. unfold body. destruct (ple_body_le (S (length s)) f ltac:(lia) s) as [E|E]; [|congruence].
  exfalso. apply (body_no_fuel s). exact E.
Qed.
Lemma ple_body f : ple (body_f U f) (body U).
Proof.
  intros s. destruct (Nat.le_gt_cases f (length s)) as [H|H].
  - apply ple_body_le. lia.
  - right. apply body_enough, H.
Qed.
(** The recursion equation of body.rs:104-126 *)
Lemma body_eq s : body U s = body_step U (body U) s.
Proof.
  pose proof (ple_body_step _ _ (ple_body (length s)) s) as [E|E].
  - exfalso. apply (body_no_fuel s). exact E.
  - exact E.
Qed.

Lemma wf_body_element : wf (body_element U (body U)).
Proof. apply wf_of_below. intros [|n]; [intros s H; lia|]. apply body_element_below, wf_below_of, wf_body. Qed.
Lemma wf_tuple : wf (tuple (expression U)).
Proof. apply wf_of_below. intros [|n]; [intros s H; lia|]. apply tuple_below, wf_below_of, wf_expression. Qed.
Lemma wf_object_body : wf (object_body U (expression U)).
Proof. apply wf_of_below. intros n. apply object_body_below, wf_below_of, wf_expression. Qed.
Lemma wf_object : wf (object U (expression U)).
Proof. apply wf_of_below. intros [|n]; [intros s H; lia|]. apply object_below, wf_below_of, wf_expression. Qed.
Lemma wf_object_element : wf (object_element U (expression U)).
Proof. apply wf_of_below. intros n. apply object_element_below, wf_below_of, wf_expression. Qed.
End WithTables.
