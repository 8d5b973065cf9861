(** * OldFacts: the fuel is always enough; unfolding equations *)
From Coq Require Import ZArith.
From Verif Require Import Base Nom NomFacts Ast Lex Grammar WsFacts NumFacts StrFacts HeredocFacts Parser ParserFacts NumConv NumSpec NumProofs Kvp Value OldParser.
Close Scope Z_scope.

Section WithTables.
Context (U : ucd).

Lemma recognize_float_number s :
  recognize_float s = match number s with Ok r n => Ok r (cow_str (num_input n)) | Err => Err | Fail q => Fail q | Panic => Panic | OutOfFuel => OutOfFuel end.
Proof.
  unfold recognize_float, recognize, number. destruct (opt sign_char s) as [r1 sg| | | |]; try reflexivity. cbn [bind].
  destruct (mantissa r1) as [r2 m| | | |]; try reflexivity. cbn [bind].
  destruct (exponent r2) as [r3 x| | | |]; reflexivity.
Qed.
Lemma wf_recognize_float : wf recognize_float.
Proof.
  intros s. rewrite recognize_float_number. pose proof (wf_number s) as H. destruct (number s); exact H.
Qed.
Lemma wf_literal_number : wf literal_number.
Proof.
  intros s. apply good_bind; [apply wf_recognize_float|]. intros r t _ _. destruct (literal_from_str t); cbn; auto with suffix.
Qed.
Lemma wf_literal_key : wf (literal_key U).
Proof. apply wf_alt; apply wf_pmap; [apply wf_identifier|apply wf_string_literal]. Qed.
Lemma wf_old_separator : wf old_separator.
Proof.
  apply wf_alt; [apply wf_ws_m, wf_wrap_ws, wf_tag|]. apply wf_alt; [apply wf_pmap, wf_newline|apply wf_eof].
Qed.

Lemma vlist_below p n : wf_below n p -> wf_below (S n) (vlist p).
Proof.
  intros Hp s Hs. unfold vlist, preceded. apply good_bind; [apply wf_char|]. intros r v E _.
  apply char_p_ok in E as [-> _]. cbn in Hs.
  refine ((_ : wf_below n _) r _); [|lia].
  apply wf_below_terminated.
  - apply wf_below_ws_m, wf_below_separated; [apply wf_preceded; [apply wf_whitespace|apply wf_char]|].
    apply wf_below_wrap_ws, Hp.
  - apply wf_below_of, wf_terminated; [|apply wf_char].
    apply wf_terminated; [|apply wf_whitespace]. apply wf_preceded; [apply wf_whitespace|].
    apply wf_opt, wf_char.
Qed.
Lemma map_expression_below p n : wf_below n p -> wf_below (S n) (map_expression p).
Proof.
  intros Hp s Hs. unfold map_expression.
  apply good_bind; [apply (wf_below_ws_m _ (S n)); [apply wf_below_wrap_ws, wf_below_of, wf_char|exact Hs]|].
  intros r v E _. apply wrap_ws_consumes in E; [|apply char_consumes].
  apply good_bind.
  - apply (wf_below_ws_m _ n); [apply wf_below_wrap_ws, Hp|lia].
  - intros r1 v1 _ _. apply good_bind; [apply wf_char|]. intros r2 v2 _ _. cbn. auto with suffix.
Qed.
Lemma single_value_step_below pv pm n : wf_below n pv -> wf_below n pm -> wf_below (S n) (single_value_step U pv pm).
Proof.
  intros Hv Hm. unfold single_value_step.
  apply wf_below_alt; [apply wf_below_of, wf_pmap, wf_null|].
  apply wf_below_alt; [apply wf_below_of, wf_literal_number|].
  apply wf_below_alt; [apply wf_below_of, wf_pmap, wf_boolean|].
  apply wf_below_alt; [apply wf_below_of, wf_pmap, wf_string_p|].
  apply wf_below_alt; [apply wf_below_pmap, vlist_below, Hv|apply wf_below_pmap, map_expression_below, Hm].
Qed.
Lemma identifier_consumes s r i : identifier U s = Ok r i -> (length r < length s)%nat.
Proof. intros E. apply identifier_ok in E as (t & _ & -> & (c & cs & -> & _) & _). rewrite app_length. cbn [length]. lia. Qed.
Lemma string_literal_consumes s r v : string_literal s = Ok r v -> (length r < length s)%nat.
Proof.
  intros H. unfold string_literal, delimited in H. apply bind_ok in H as (r1 & v1 & H1 & H). apply tag_ok in H1 as [-> _].
  apply bind_ok in H as (r2 & v2 & H2 & H). apply bind_ok in H as (r3 & v3 & H3 & H). injection H as <- <-. apply tag_ok in H3 as [-> _].
  assert (Hg : good (string_literal_content r1) r1) by apply wf_escaped_transform, wf_unescape. rewrite H2 in Hg. cbn in Hg. apply suffix_len in Hg.
  cbn [length app] in *. lia.
Qed.
Lemma literal_key_consumes s r k : literal_key U s = Ok r k -> (length r < length s)%nat.
Proof.
  unfold literal_key, alt, pmap. destruct (identifier U s) as [r1 i| | | |] eqn:E; cbn; try discriminate.
  - intros [= <- _]. eapply identifier_consumes, E.
  - destruct (string_literal s) as [r1 v| | | |] eqn:E'; cbn; try discriminate. intros [= <- _]. eapply string_literal_consumes, E'.
Qed.
Lemma old_attribute_below pv pm n : wf_below n pv -> wf_below n pm -> wf_below (S n) (old_attribute U pv pm).
Proof.
  intros Hv Hm. apply wf_below_iws_m. apply wf_below_alt; [|apply wf_below_alt]; intros s Hs; pose proof (suffix_len _ _ (iws_rest_suffix s)) as H0.
  - apply good_bind; [apply wf_wrap_iws, wf_literal_key|]. intros r v E _. rewrite wrap_iws in E. apply literal_key_consumes in E.
    apply good_bind; [apply wf_wrap_iws, wf_char|]. intros r1 v1 _ Hr1. apply suffix_len in Hr1.
    apply good_bind; [apply (wf_below_wrap_iws _ n); [exact Hv|lia]|]. intros r2 v2 _ _. cbn. auto with suffix.
  - apply good_bind; [apply wf_wrap_iws, wf_identifier|]. intros r v E _. rewrite wrap_iws in E. apply identifier_consumes in E.
    apply good_bind; [apply wf_wrap_iws, wf_opt, wf_char|]. intros r1 v1 _ Hr1. apply suffix_len in Hr1.
    apply good_bind; [apply (wf_below_wrap_iws _ (S n)); [apply map_expression_below, Hm|lia]|]. intros r2 v2 _ _. cbn. auto with suffix.
  - apply good_bind; [apply wf_wrap_iws, wf_identifier|]. intros r v E _. rewrite wrap_iws in E. apply identifier_consumes in E.
    apply good_bind; [apply wf_many0, wf_wrap_iws, wf_string_literal|]. intros r1 v1 _ Hr1. apply suffix_len in Hr1.
    apply good_bind; [apply (wf_below_wrap_iws _ (S n)); [apply map_expression_below, Hm|lia]|]. intros r2 v2 _ _. cbn. auto with suffix.
Qed.
Lemma map_values_step_below pv pm n : wf_below n pv -> wf_below n pm -> wf_below (S n) (map_values_step U pv pm).
Proof.
  intros Hv Hm s Hs. unfold map_values_step. apply good_bind; [|intros r v _ _; cbn; auto with suffix].
  apply (wf_below_ws_m _ (S n)); [|exact Hs]. apply wf_below_many0, wf_below_wrap_ws, wf_below_terminated.
  - apply old_attribute_below; assumption.
  - apply wf_below_of, wf_old_separator.
Qed.
Lemma old_f_S f : old_f U (S f) = (single_value_step U (fst (old_f U f)) (snd (old_f U f)), map_values_step U (fst (old_f U f)) (snd (old_f U f))).
Proof. cbn [old_f]. destruct (old_f U f). reflexivity. Qed.
Lemma old_f_below f : wf_below f (fst (old_f U f)) /\ wf_below f (snd (old_f U f)).
Proof.
  induction f as [|f [IH1 IH2]]; [split; intros s H; lia|]. rewrite old_f_S. cbn [fst snd].
  split; [apply single_value_step_below|apply map_values_step_below]; assumption.
Qed.
Lemma wf_single_value : wf (single_value U).
Proof. intros s. apply old_f_below. lia. Qed.
Lemma wf_map_values : wf (map_values U).
Proof. intros s. apply old_f_below. lia. Qed.
Lemma single_value_no_fuel s : single_value U s <> OutOfFuel.
Proof. eapply good_not_fuel, wf_single_value. Qed.
Lemma map_values_no_fuel s : map_values U s <> OutOfFuel.
Proof. eapply good_not_fuel, wf_map_values. Qed.

Lemma ple_vlist p q : ple p q -> ple (vlist p) (vlist q).
Proof.
  intros H. apply ple_preceded; [apply ple_refl|]. apply ple_terminated; [|apply ple_refl].
  apply ple_ws_m, ple_separated_list, ple_wrap, H.
Qed.
Lemma ple_map_expression p q : ple p q -> ple (map_expression p) (map_expression q).
Proof.
  intros H s. apply le_bind; [apply le_refl|]. intros r v. apply le_bind; [|intros; apply le_refl].
  apply ple_ws_m, ple_wrap, H.
Qed.
Lemma ple_single_value_step p q p' q' : ple p q -> ple p' q' -> ple (single_value_step U p p') (single_value_step U q q').
Proof.
  intros H H'. unfold single_value_step. repeat (apply ple_alt; [try apply ple_refl|]).
  - apply ple_pmap, ple_vlist, H.
  - apply ple_pmap, ple_map_expression, H'.
Qed.
Lemma ple_old_attribute p q p' q' : ple p q -> ple p' q' -> ple (old_attribute U p p') (old_attribute U q q').
Proof.
  intros H H'. apply ple_iws_m. apply ple_alt; [|apply ple_alt]; intros s; do 2 (apply le_bind; [apply le_refl|]; intros ? ?).
  - apply le_bind; [apply ple_wrap, H|]. intros; apply le_refl.
  - apply le_bind; [apply ple_wrap, ple_map_expression, H'|]. intros; apply le_refl.
  - apply le_bind; [apply ple_wrap, ple_map_expression, H'|]. intros; apply le_refl.
Qed.
Lemma ple_map_values_step p q p' q' : ple p q -> ple p' q' -> ple (map_values_step U p p') (map_values_step U q q').
Proof.
  intros H H' s. apply le_bind; [|intros; apply le_refl].
  apply ple_ws_m, ple_many0, ple_wrap, ple_terminated; [|apply ple_refl]. apply ple_old_attribute; assumption.
Qed.
Lemma ple_old_f f : ple (fst (old_f U f)) (fst (old_f U (S f))) /\ ple (snd (old_f U f)) (snd (old_f U (S f))).
Proof.
  induction f as [|f [IH1 IH2]]; [split; intros s; left; reflexivity|]. rewrite (old_f_S (S f)). rewrite (old_f_S f) in IH1, IH2 |- *. cbn [fst snd] in *.
  split; [apply ple_single_value_step|apply ple_map_values_step]; assumption.
Qed.
Lemma ple_old_le f g : (f <= g)%nat -> ple (fst (old_f U f)) (fst (old_f U g)) /\ ple (snd (old_f U f)) (snd (old_f U g)).
Proof.
  induction 1 as [|g H [IH1 IH2]]; [split; apply ple_refl|]. destruct (ple_old_f g) as [H1 H2].
  split; eapply ple_trans; eassumption.
Qed.
Lemma old_enough f s : (length s < f)%nat -> fst (old_f U f) s = single_value U s /\ snd (old_f U f) s = map_values U s.
Proof.
  intros H. destruct (ple_old_le (S (length s)) f ltac:(lia)) as [H1 H2]. unfold single_value, map_values. split.
  - destruct (H1 s) as [E|E]; [|congruence]. exfalso. apply (single_value_no_fuel s). exact E.
  - destruct (H2 s) as [E|E]; [|congruence]. exfalso. apply (map_values_no_fuel s). exact E.
Qed.
Lemma ple_old f : ple (fst (old_f U f)) (single_value U) /\ ple (snd (old_f U f)) (map_values U).
Proof.
  split; intros s; (destruct (Nat.le_gt_cases f (length s)) as [H|H]; [apply (ple_old_le f (S (length s))); lia|right; apply old_enough, H]).
Qed.
(** The recursion equations of parser.rs:79-89 and 128-143 *)
Lemma single_value_eq s : single_value U s = single_value_step U (single_value U) (map_values U) s.
Proof.
  destruct (ple_old (length s)) as [H1 H2]. pose proof (ple_single_value_step _ _ _ _ H1 H2 s) as [E|E].
  - exfalso. apply (single_value_no_fuel s). unfold single_value. rewrite old_f_S. exact E.
  - unfold single_value at 1. rewrite old_f_S. exact E.
Qed.
Lemma map_values_eq s : map_values U s = map_values_step U (single_value U) (map_values U) s.
Proof.
  destruct (ple_old (length s)) as [H1 H2]. pose proof (ple_map_values_step _ _ _ _ H1 H2 s) as [E|E].
  - exfalso. apply (map_values_no_fuel s). unfold map_values. rewrite old_f_S. exact E.
  - unfold map_values at 1. rewrite old_f_S. exact E.
Qed.
Lemma wf_map_expression : wf (map_expression (map_values U)).
Proof. apply wf_of_below. intros [|n]; [intros s H; lia|]. apply map_expression_below, wf_below_of, wf_map_values. Qed.
Lemma wf_old_attribute : wf (old_attribute U (single_value U) (map_values U)).
Proof. apply wf_of_below. intros [|n]; [intros s H; lia|]. apply old_attribute_below; apply wf_below_of; [apply wf_single_value|apply wf_map_values]. Qed.
End WithTables.
