(** * Property theorems: equality of numbers, one of which is not an integer (C96, C17) *)
From Coq Require Import ZArith Reals Lra Lia SpecFloat.
From Verif Require Import Base NomFacts Ast NumConv NumSpec FloatConv FloatSpec FloatProofs FloatEqSpec FloatEqProofs Grammar Parser NumProofs PropNum PropFloatRead.
Open Scope R_scope.

(** One of the two texts is not that of an integer; so both numbers are compared as floats. *)
Definition NotBothIntegers (t t' : str) : Prop := (forall z, ~ IntegerText t z) \/ (forall z, ~ IntegerText t' z).
Lemma compared_as_floats : forall n t neg v n' t' neg' v', NumLit n t -> NumLit n' t' -> NotBothIntegers t t' ->
  DecimalText t neg v -> DecimalText t' neg' v' ->
  exists f g, CorrectlyRounded 53 1024 neg v f /\ CorrectlyRounded 53 1024 neg' v' g /\ number_eq n n' = float_eq f g.
Proof.
  intros n t neg v n' t' neg' v' Hn Hn' HI HT HT'.
  destruct (literal_float n t neg v 53 1024 Hn HT) as (f & Hf & HC); [right; split; reflexivity|].
  destruct (literal_float n' t' neg' v' 53 1024 Hn' HT') as (g & Hg & HC'); [right; split; reflexivity|].
  exists f, g. split; [exact HC|]. split; [exact HC'|]. unfold number_eq.
  assert (E : (is_float n || is_float n')%bool = true).
  { unfold is_float. destruct HI as [H|H].
    - destruct (is_signed n) eqn:Es; [|reflexivity]. apply (C15_signed_is_integer n t Hn) in Es as [z Hz]. destruct (H z Hz).
    - destruct (is_signed n') eqn:Es; [|apply Bool.orb_true_r]. apply (C15_signed_is_integer n' t' Hn') in Es as [z Hz]. destruct (H z Hz). }
  rewrite E. change (as_f64 n) with (as_float 53 1024 n). change (as_f64 n') with (as_float 53 1024 n'). rewrite Hf, Hg. reflexivity.
Qed.

(** C96: two numbers, not both written as integers, are equal exactly if the magnitudes of
    their nearest floats are equal or the difference between them is forgiven. *)
Theorem C96_exact : forall n t neg v n' t' neg' v' f g, NumLit n t -> NumLit n' t' -> NotBothIntegers t t' ->
  DecimalText t neg v -> DecimalText t' neg' v' ->
  CorrectlyRounded 53 1024 neg v f -> CorrectlyRounded 53 1024 neg' v' g ->
  (number_eq n n' = true <-> SameMagnitude f g \/ Forgiven f g).
Proof.
  intros n t neg v n' t' neg' v' f g Hn Hn' HI HT HT' HC HC'.
  destruct (compared_as_floats n t neg v n' t' neg' v' Hn Hn' HI HT HT') as (f' & g' & H1 & H2 & ->).
  rewrite (C91_unique 53 1024 _ _ _ _ (or_intror (conj eq_refl eq_refl)) H1 HC), (C91_unique 53 1024 _ _ _ _ (or_intror (conj eq_refl eq_refl)) H2 HC').
  apply float_eq_exact; eapply rounded_notnan; eassumption.
Qed.
(** What is forgiven: a difference of at least 2^-1022 that is less than 2^-52 of the
    greater magnitude always, and never one of 2^-51 of it or more. *)
Theorem C96_bounds : forall n t neg v n' t' neg' v' f g, NumLit n t -> NumLit n' t' -> NotBothIntegers t t' ->
  DecimalText t neg v -> DecimalText t' neg' v' ->
  CorrectlyRounded 53 1024 neg v f -> CorrectlyRounded 53 1024 neg' v' g -> FiniteFloat 53 1024 f -> FiniteFloat 53 1024 g ->
  let diff := Rabs (Rabs (real_of f) - Rabs (real_of g)) in
  let top := Rmax (Rabs (real_of f)) (Rabs (real_of g)) in
  (diff = 0 \/ powerRZ 2 (-1022) <= diff < powerRZ 2 (-52) * top -> number_eq n n' = true) /\
  (number_eq n n' = true -> diff = 0 \/ powerRZ 2 (-1022) <= diff < powerRZ 2 (-51) * top).
Proof.
  intros n t neg v n' t' neg' v' f g Hn Hn' HI HT HT' HC HC' Hf Hg diff top.
  pose proof (C96_exact _ _ _ _ _ _ _ _ f g Hn Hn' HI HT HT' HC HC') as HE. destruct (forgiven_bounds f g Hf Hg) as [H1 H2].
  assert (E : SameMagnitude f g <-> diff = 0).
  { assert (E' : SameMagnitude f g = (Rabs (real_of f) = Rabs (real_of g))) by (destruct f; try contradiction; destruct g; try contradiction; reflexivity).
    rewrite E'. unfold diff. split; intros H; [rewrite H, Rminus_diag_eq, Rabs_R0; reflexivity|].
    destruct (Req_dec (Rabs (real_of f) - Rabs (real_of g)) 0) as [H0|H0]; [lra|]. apply Rabs_no_R0 in H0. contradiction. }
  rewrite HE. split; intros [H|H]; [left; apply E, H|right; apply H1, H|left; apply E, H|right; apply H2, H].
Qed.
(** So texts of the same number, or of opposite ones, are equal however they are written
    (unless both are integers: C17) ... *)
Theorem C96_same_number : forall n t neg v n' t' neg' v', NumLit n t -> NumLit n' t' -> NotBothIntegers t t' ->
  DecimalText t neg v -> DecimalText t' neg' v' -> Rabs v = Rabs v' -> number_eq n n' = true.
Proof.
  intros n t neg v n' t' neg' v' Hn Hn' HI HT HT' HV.
  destruct (compared_as_floats n t neg v n' t' neg' v' Hn Hn' HI HT HT') as (f & g & HC & HC' & _).
  apply (C96_exact _ _ _ _ _ _ _ _ f g Hn Hn' HI HT HT' HC HC'). left.
  assert (HM : forall neg v f, CorrectlyRounded 53 1024 neg v f -> (exists s, f = S754_infinity s /\ limit 53 1024 <= Rabs v) \/
     (FiniteFloat 53 1024 f /\ Rabs v < limit 53 1024 /\ Rabs (real_of f) = rnd (Rabs v))).
  { intros neg0 v0 f0 H0. destruct f0 as [s|s| |s m e]; cbn [CorrectlyRounded] in H0; [right|left|contradiction|right].
    - destruct H0 as (_ & HL & HN). split; [exact I|]. split; [exact HL|]. pose proof (nearest_elim 53 1024 ltac:(lia) ltac:(lia) _ _ HN HL) as E. rewrite E.
      symmetry. apply rnd_abs.
    - destruct H0 as (_ & HL). eauto.
    - destruct H0 as (_ & HL & HN). split; [apply HN|]. split; [exact HL|]. pose proof (nearest_elim 53 1024 ltac:(lia) ltac:(lia) _ _ HN HL) as E. rewrite E.
      symmetry. apply rnd_abs. }
  apply HM in HC. apply HM in HC'. rewrite HV in HC. destruct HC as [(s & -> & HL)|(HF & HL & HE)], HC' as [(s' & -> & HL')|(HF' & HL' & HE')]; try lra; [exact I|].
  rewrite <- HE' in HE. destruct f; try contradiction; destruct g; try contradiction; exact HE.
Qed.
(** C17, REFUTED: equality of floats is the equality of numbers, or of the nearest floats, or an
    equivalence.  Different floats are equal, numbers far apart are (both infinite, or both
    rounded to zero), and equality is not transitive even among positive floats. *)
Theorem C17_float_transitive_refuted : exists a b c, parsed "1.0" a /\ parsed "1.0000000000000004" b /\ parsed "1.0000000000000009" c /\
  number_eq a b = true /\ number_eq b c = true /\ number_eq a c = false /\ as_f64 a <> as_f64 b.
Proof. do 3 eexists. repeat split; try (vm_compute; reflexivity). vm_compute. congruence. Qed.
Theorem C17_far_apart_refuted : exists a b c d, parsed "1e400" a /\ parsed "2e999" b /\ parsed "1e-400" c /\ parsed "2e-999" d /\
  number_eq a b = true /\ number_eq c d = true.
Proof. do 4 eexists. repeat split; vm_compute; reflexivity. Qed.
Print Assumptions C96_exact.
Print Assumptions C96_bounds.
Print Assumptions C96_same_number.
Print Assumptions C17_float_transitive_refuted.
Print Assumptions C17_far_apart_refuted.
(** Not vacuous: a pair of distinct floats that is forgiven (one of them an integer text). *)
Example C96_nonvacuous : exists n n', NumLit n (lit "1") /\ NumLit n' (lit "1.5") /\ NotBothIntegers (lit "1") (lit "1.5") /\
  DecimalText (lit "1") false 1 /\ DecimalText (lit "1.5") false (3 / 2) /\
  number_eq n n' = false /\ ~ SameMagnitude (S754_finite false 4503599627370496 (-52)) (S754_finite false 4503599627370497 (-52)) /\
  Forgiven (S754_finite false 4503599627370496 (-52)) (S754_finite false 4503599627370497 (-52)).
Proof.
  pose proof (M_int (lit "1") ltac:(discriminate) ltac:(apply digits_of; reflexivity)) as HM.
  pose proof (M_dec (lit "1") (lit "5") ltac:(discriminate) ltac:(apply digits_of; reflexivity) ltac:(apply digits_of; reflexivity)) as HM'.
  pose proof (NL true [] _ _ _ None [] Sign_none HM X_none) as HL. pose proof (NL true [] _ _ _ None [] Sign_none HM' X_none) as HL'.
  pose proof (DT true [] _ _ _ 0 [] Sign_none HM ET_none) as HD. pose proof (DT true [] _ _ _ 0 [] Sign_none HM' ET_none) as HD'.
  change ([] ++ lit "1" ++ []) with (lit "1") in HL, HD. change ([] ++ (lit "1" ++ [46%N] ++ lit "5") ++ []) with (lit "1.5") in HL', HD'.
  eexists _, _. split; [exact HL|]. split; [exact HL'|]. split.
  { right. intros z Hz. apply (NumLit_float_not_integer _ _ z HL' eq_refl Hz). }
  split. { replace 1 with ((if true then 1 else -1) * (digits_real (part (Some (lit "1"))) + digits_real (part None) / 10 ^ length (part None)) * powerRZ 10 0); [exact HD|]. unfold digits_real. cbn. lra. }
  split. { replace (3 / 2) with ((if true then 1 else -1) * (digits_real (part (Some (lit "1"))) + digits_real (part (Some (lit "5"))) / 10 ^ length (part (Some (lit "5")))) * powerRZ 10 0); [exact HD'|]. unfold digits_real. cbn. lra. }
  split; [vm_compute; reflexivity|].
  assert (E1 : Rabs (real_of (S754_finite false 4503599627370496 (-52))) = 4503599627370496 * powerRZ 2 (-52)).
  { cbn [real_of]. rewrite Rmult_1_l. apply Rabs_pos_eq. apply Rmult_le_pos; [lra|apply powerRZ_le; lra]. }
  assert (E2 : Rabs (real_of (S754_finite false 4503599627370497 (-52))) = 4503599627370497 * powerRZ 2 (-52)).
  { cbn [real_of]. rewrite Rmult_1_l. apply Rabs_pos_eq. apply Rmult_le_pos; [lra|apply powerRZ_le; lra]. }
  assert (Hpos : 0 < powerRZ 2 (-52)) by (apply powerRZ_lt; lra).
  split.
  - cbn [SameMagnitude]. rewrite E1, E2. lra.
  - apply forgiven_bounds; [left; unfold least_exp; lia|left; unfold least_exp; lia|]. rewrite E1, E2.
    assert (Ed : Rabs (4503599627370496 * powerRZ 2 (-52) - 4503599627370497 * powerRZ 2 (-52)) = powerRZ 2 (-52)) by (rewrite Rabs_left; lra).
    rewrite Ed, Rmax_right by lra.
    split; [rewrite <- !bpow_R; apply Flocq.Core.Raux.bpow_le; lia|].
    assert (E52 : 4503599627370496 * powerRZ 2 (-52) = 1).
    { pose proof (pow_real 4503599627370496 (-52) 52 eq_refl ltac:(lia)) as E. cbn [real_of] in E. rewrite Rmult_1_l in E. exact E. }
    replace (4503599627370497 * powerRZ 2 (-52)) with (1 + powerRZ 2 (-52)) by lra. nra.
Qed.
