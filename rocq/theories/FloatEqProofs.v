(** * FloatEqProofs: the comparison of floats in [PartialEq for Number], over the reals *)
From Coq Require Import ZArith Reals Lra Lia Psatz SpecFloat.
From Flocq Require Import Core IEEE754.BinarySingleNaN.
Require Import Flocq.Prop.Sterbenz Flocq.Prop.Plus_error.
From Verif Require Import Base NumConv FloatSpec FloatProofs FloatEqSpec.
Open Scope R_scope.

Local Instance P0 : Prec_gt_0 53 := eq_refl _.
Local Instance PX : Prec_lt_emax 53 1024 := eq_refl _.
Notation fx := (FLT_exp (-1074) 53).
Notation rnd := (round radix2 fx ZnearestE).
Notation F := (generic_format radix2 fx).
Notation b2 := (bpow radix2).

(** ** The real inequality behind the comparison *)
Lemma scaled_format : forall s, F s -> b2 (-970) <= s -> F (b2 (-52) * s).
Proof.
  intros s Hs Hl. unfold generic_format in Hs. set (m := Ztrunc (scaled_mantissa radix2 fx s)) in *. set (e := cexp radix2 fx s) in *.
  assert (E : b2 (-52) * s = F2R (Float radix2 m (e - 52))).
  { rewrite Hs at 1. unfold F2R. cbn [Fnum Fexp]. change (e - 52)%Z with (e + -52)%Z. rewrite bpow_plus. ring. }
  assert (Hp : 0 < s) by (pose proof (bpow_gt_0 radix2 (-970)); lra).
  assert (Hm : (mag radix2 (b2 (-52) * s) = mag radix2 s - 52 :> Z)%Z).
  { rewrite Rmult_comm. rewrite mag_mult_bpow by lra. lia. }
  assert (Hml : (-970 < mag radix2 s)%Z) by (apply mag_gt_bpow; rewrite Rabs_pos_eq; lra).
  rewrite E. apply generic_format_F2R. intros _. rewrite <- E. unfold cexp. rewrite Hm.
  unfold e, cexp, FLT_exp. lia.
Qed.
Lemma bp (e : Z) : 0 < b2 e.
Proof. apply bpow_gt_0. Qed.
Lemma rnd_le : forall a b, a <= b -> rnd a <= rnd b.
Proof. intros a b H. apply round_le; [typeclasses eauto|typeclasses eauto|exact H]. Qed.
Lemma rnd_F : forall a, F a -> rnd a = a.
Proof. intros a H. apply round_generic; [typeclasses eauto|exact H]. Qed.
Lemma F_bpow : forall e, (-1074 <= e)%Z -> F (b2 e).
Proof. intros e H. apply generic_format_bpow. unfold FLT_exp. lia. Qed.
Lemma diff_format : forall u t, F u -> F t -> Rabs (u - t) <= b2 (-1021) -> F (u - t).
Proof.
  intros u t Hu Ht H. apply (FLT_format_plus_small radix2 (-1074) 53 u (- t)); [exact Hu|apply generic_format_opp, Ht|exact H].
Qed.
(* the quotient of a number below 2^-52 s is below 2^-52 even when rounded *)
Lemma quotient_below : forall x s, F x -> F s -> b2 (-1022) <= x -> x < b2 (-52) * s -> rnd (x / s) < b2 (-52).
Proof.
  intros x s Fx Fs Hx Hlt. assert (Hs : b2 (-970) <= s).
  { apply Rmult_le_reg_l with (b2 (-52)); [apply bp|]. rewrite <- bpow_plus. cbn [Z.add Pos.add]. pose proof (bp (-52)).
    apply Rle_trans with x; [exact Hx|lra]. }
  pose proof (bp (-970)). pose proof (bp (-1022)). assert (Hs0 : 0 < s) by lra.
  pose proof (scaled_format s Fs Hs) as Fy. pose proof (succ_le_lt radix2 fx x _ Fx Fy Hlt) as Hsucc.
  rewrite succ_eq_pos in Hsucc by lra.
  pose proof (ulp_FLT_gt radix2 (-1074) 53 x) as Hu. rewrite Rabs_pos_eq in Hu by lra.
  assert (Hv : x / s * (1 + b2 (-53)) < b2 (-52)).
  { apply Rmult_lt_reg_r with s; [exact Hs0|]. replace (x / s * (1 + b2 (-53)) * s) with (x + x * b2 (-53)) by (field; lra).
    change (-(53))%Z with (-53)%Z in Hu. lra. }
  assert (Hv0 : 0 < x / s) by (apply Rdiv_lt_0_compat; lra). set (v := x / s) in *. clearbody v.
  assert (Hmid : v < b2 (-52) - b2 (-106)).
  { apply Rmult_lt_reg_r with (1 + b2 (-53)); [pose proof (bp (-53)); lra|].
    apply Rlt_le_trans with (1 := Hv). change (b2 (-106)) with (b2 (-52 + -54)). rewrite bpow_plus.
    assert (E : b2 (-53) = 2 * b2 (-54)) by (change (b2 (-53)) with (b2 (1 + -54)); rewrite bpow_plus; reflexivity).
    pose proof (bp (-52)). pose proof (bp (-54)). assert (b2 (-54) <= / 2) by (change (/ 2) with (b2 (-1)); apply bpow_le; lia).
    rewrite E. set (a := b2 (-52)) in *. set (c := b2 (-54)) in *.
    assert (0 <= a * (c * (1 - 2 * c))) by (apply Rmult_le_pos; [lra|apply Rmult_le_pos; lra]). lra. }
  pose proof (bp (-106)).
  pose proof (error_le_half_ulp radix2 fx (fun z => negb (Z.even z)) v) as He.
  assert (Hulp : ulp radix2 fx v <= b2 (-105)).
  { rewrite ulp_neq_0 by lra. apply bpow_le. unfold cexp, FLT_exp.
    assert (mag radix2 v <= -52)%Z by (apply mag_le_bpow; [lra|rewrite Rabs_pos_eq; lra]). lia. }
  assert (E : b2 (-105) = 2 * b2 (-106)) by (change (b2 (-105)) with (b2 (1 + -106)); rewrite bpow_plus; reflexivity).
  apply Rabs_le_inv in He. lra.
Qed.
Lemma quotient_above : forall x s, F s -> 0 < s -> b2 (-1022) <= x -> b2 (-52) * s <= x -> b2 (-52) <= rnd (rnd x / s).
Proof.
  intros x s Fs Hs Hx Hge. rewrite <- (rnd_F (b2 (-52))) by (apply F_bpow; lia). apply rnd_le.
  assert (Hd : b2 (-52) * s <= rnd x).
  { destruct (Rle_lt_dec (b2 (-970)) s) as [Hl|Hl].
    - rewrite <- (rnd_F (b2 (-52) * s)) by (apply scaled_format; assumption). apply rnd_le, Hge.
    - apply Rle_trans with (b2 (-1022)).
      + change (b2 (-1022)) with (b2 (-52 + -970)). rewrite bpow_plus. apply Rmult_le_compat_l; [apply Rlt_le, bp|lra].
      + rewrite <- (rnd_F (b2 (-1022))) by (apply F_bpow; lia). apply rnd_le, Hx. }
  apply Rmult_le_reg_r with s; [exact Hs|]. replace (rnd x / s * s) with (rnd x) by (field; lra). exact Hd.
Qed.
Lemma compare_core : forall u t s, F u -> F t -> F s -> 0 <= u -> 0 <= t -> u <> t ->
  u <= s -> t <= s -> s <= 2 * u \/ s <= 2 * t ->
  ((u <> 0 /\ t <> 0 /\ b2 (-1022) <= rnd (Rabs (u - t)) /\ rnd (rnd (Rabs (u - t)) / s) < b2 (-52)) <->
   b2 (-1022) <= Rabs (u - t) < b2 (-52) * s).
Proof.
  intros u t s Fu Ft Fs Hu Ht Hne Hus Hts Hs2. pose proof (bp (-1022)) as Hm.
  assert (Hs0 : 0 < s) by lra.
  assert (Hsmall : Rabs (u - t) < b2 (-1022) -> rnd (Rabs (u - t)) = Rabs (u - t)).
  { intros H. apply rnd_F. apply generic_format_abs. apply diff_format; [exact Fu|exact Ft|].
    pose proof (bpow_le radix2 (-1022) (-1021) ltac:(lia)). lra. }
  split.
  - intros (_ & _ & H1 & H2).
    assert (Hx : b2 (-1022) <= Rabs (u - t)) by (apply Rnot_lt_le; intros H; rewrite (Hsmall H) in H1; lra).
    split; [exact Hx|]. apply Rnot_le_lt. intros Hge. pose proof (quotient_above _ s Fs Hs0 Hx Hge). lra.
  - intros (Hx & Hlt).
    assert (Hb : b2 (-52) <= / 4) by (change (/ 4) with (b2 (-2)); apply bpow_le; lia). pose proof (bp (-52)).
    assert (Hq : b2 (-52) * s <= / 4 * s) by (apply Rmult_le_compat_r; lra).
    assert (Hn : u / 2 < t /\ t / 2 < u).
    { apply Rabs_def2 in Hlt. lra. }
    assert (Fx : F (Rabs (u - t))) by (apply generic_format_abs, sterbenz; [typeclasses eauto|typeclasses eauto|exact Fu|exact Ft|lra]).
    split; [lra|]. split; [lra|]. rewrite (rnd_F _ Fx). split; [exact Hx|]. apply quotient_below; assumption.
Qed.

(** ** The operations of [SpecFloat] *)
Notation Fin := (FiniteFloat 53 1024).
Lemma as_binary : forall f, Fin f -> exists B : binary_float 53 1024, B2SF B = f /\ is_finite B = true /\ B2R B = real_of f.
Proof.
  intros f Hf. apply finite_valid in Hf as [V E]; [|lia|lia]. exists (SF2B f V). rewrite B2SF_SF2B, is_finite_SF2B, B2R_SF2B, real_SF2R. auto.
Qed.
Lemma of_binary : forall B : binary_float 53 1024, is_finite B = true -> Fin (B2SF B) /\ real_of (B2SF B) = B2R B.
Proof.
  intros B HB. split.
  - apply finite_valid; [lia|lia|]. split; [apply valid_binary_B2SF|]. destruct B; try discriminate; reflexivity.
  - rewrite real_SF2R. destruct B; reflexivity.
Qed.
Lemma normalize_equiv : forall m e z, SpecFloat.binary_normalize 53 1024 m e z = B2SF (BinarySingleNaN.binary_normalize 53 1024 P0 PX mode_NE m e z).
Proof.
  intros [|q|q] e z; [reflexivity| |]; cbn [SpecFloat.binary_normalize BinarySingleNaN.binary_normalize]; rewrite B2SF_SF2B; symmetry; apply round_equiv.
Qed.
Lemma sub_equiv : forall A B : binary_float 53 1024, SFsub 53 1024 (B2SF A) (B2SF B) = B2SF (Bminus mode_NE A B).
Proof.
  intros [s|s| |s m e H] [s'|s'| |s' m' e' H']; try reflexivity; try (destruct s, s'; reflexivity).
  cbn -[SpecFloat.binary_normalize BinarySingleNaN.binary_normalize]. unfold Zminus. rewrite <- cond_Zopp_negb. apply normalize_equiv.
Qed.
Lemma add_equiv : forall A B : binary_float 53 1024, SFadd 53 1024 (B2SF A) (B2SF B) = B2SF (Bplus mode_NE A B).
Proof.
  intros [s|s| |s m e H] [s'|s'| |s' m' e' H']; try reflexivity; try (destruct s, s'; reflexivity).
  cbn -[SpecFloat.binary_normalize BinarySingleNaN.binary_normalize]. apply normalize_equiv.
Qed.
Lemma div_equiv : forall A B : binary_float 53 1024, SFdiv 53 1024 (B2SF A) (B2SF B) = B2SF (Bdiv mode_NE A B).
Proof.
  intros [s|s| |s m e H] [s'|s'| |s' m' e' H']; try reflexivity. cbn [SFdiv B2SF Bdiv]. rewrite B2SF_SF2B.
  destruct (SFdiv_core_binary _ _ _ _ _ _) as [[mz ez] lz]. symmetry. apply aux_equiv.
Qed.
Lemma sub_finite : forall f g, Fin f -> Fin g -> Rabs (rnd (real_of f - real_of g)) < b2 1024 ->
  Fin (SFsub 53 1024 f g) /\ real_of (SFsub 53 1024 f g) = rnd (real_of f - real_of g).
Proof.
  intros f g Hf Hg Hlt. destruct (as_binary f Hf) as (A & <- & HA & EA). destruct (as_binary g Hg) as (B & <- & HB & EB).
  rewrite sub_equiv. pose proof (Bminus_correct 53 1024 _ _ mode_NE A B HA HB) as H. rewrite EA, EB in H. change (round_mode mode_NE) with ZnearestE in H.
  change (SpecFloat.fexp 53 1024) with (FLT_exp (-1074) 53) in H. rewrite Rlt_bool_true in H by exact Hlt. destruct H as (H1 & H2 & _).
  destruct (of_binary _ H2) as [H3 H4]. split; [exact H3|]. rewrite H4. exact H1.
Qed.
Lemma add_result : forall f g, Fin f -> Fin g -> 0 <= real_of f -> 0 <= real_of g -> sign_SF f = false ->
  (Rabs (rnd (real_of f + real_of g)) < b2 1024 /\ Fin (SFadd 53 1024 f g) /\ real_of (SFadd 53 1024 f g) = rnd (real_of f + real_of g)) \/
  (b2 1024 <= Rabs (rnd (real_of f + real_of g)) /\ SFadd 53 1024 f g = S754_infinity false).
Proof.
  intros f g Hf Hg Hf0 Hg0 Hs. destruct (as_binary f Hf) as (A & <- & HA & EA). destruct (as_binary g Hg) as (B & <- & HB & EB).
  rewrite add_equiv. pose proof (Bplus_correct 53 1024 _ _ mode_NE A B HA HB) as H. rewrite EA, EB in H. change (round_mode mode_NE) with ZnearestE in H.
  change (SpecFloat.fexp 53 1024) with (FLT_exp (-1074) 53) in H.
  destruct (Rlt_bool_spec (Rabs (rnd (real_of (B2SF A) + real_of (B2SF B)))) (b2 1024)) as [Hl|Hl].
  - left. destruct H as (H1 & H2 & _). destruct (of_binary _ H2) as [H3 H4]. split; [exact Hl|]. split; [exact H3|]. rewrite H4. exact H1.
  - right. destruct H as [H _]. split; [exact Hl|]. rewrite H. replace (Bsign A) with false; [reflexivity|]. destruct A; symmetry; exact Hs.
Qed.
Lemma div_finite : forall f g, Fin f -> Fin g -> real_of g <> 0 -> Rabs (rnd (real_of f / real_of g)) < b2 1024 ->
  Fin (SFdiv 53 1024 f g) /\ real_of (SFdiv 53 1024 f g) = rnd (real_of f / real_of g).
Proof.
  intros f g Hf Hg Hg0 Hlt. destruct (as_binary f Hf) as (A & <- & HA & EA). destruct (as_binary g Hg) as (B & <- & HB & EB).
  rewrite div_equiv. rewrite <- EB in Hg0. pose proof (Bdiv_correct 53 1024 _ _ mode_NE A B Hg0) as H. rewrite EA, EB in H. change (round_mode mode_NE) with ZnearestE in H.
  change (SpecFloat.fexp 53 1024) with (FLT_exp (-1074) 53) in H. rewrite Rlt_bool_true in H by exact Hlt. destruct H as (H1 & H2 & _). rewrite HA in H2.
  destruct (of_binary _ H2) as [H3 H4]. split; [exact H3|]. rewrite H4. exact H1.
Qed.
Lemma ltb_real : forall f g, Fin f -> Fin g -> (SFltb f g = true <-> real_of f < real_of g).
Proof.
  intros f g Hf Hg. destruct (as_binary f Hf) as (A & <- & HA & EA). destruct (as_binary g Hg) as (B & <- & HB & EB).
  pose proof (Bltb_correct 53 1024 A B HA HB) as H. unfold Bltb in H. rewrite H, EA, EB. destruct (Rlt_bool_spec (real_of (B2SF A)) (real_of (B2SF B))); split; intros; try assumption; try discriminate; lra || reflexivity.
Qed.
Lemma eqb_real : forall f g, Fin f -> Fin g -> (SFeqb f g = true <-> real_of f = real_of g).
Proof.
  intros f g Hf Hg. destruct (as_binary f Hf) as (A & <- & HA & EA). destruct (as_binary g Hg) as (B & <- & HB & EB).
  pose proof (Beqb_correct 53 1024 A B HA HB) as H. unfold Beqb in H. rewrite H, EA, EB. destruct (Req_bool_spec (real_of (B2SF A)) (real_of (B2SF B))); split; intros; try assumption; try discriminate; contradiction || reflexivity.
Qed.
Lemma abs_real : forall f, Fin f -> Fin (SFabs f) /\ real_of (SFabs f) = Rabs (real_of f) /\ sign_SF (SFabs f) = false.
Proof.
  intros [s|s| |s m e] H; try contradiction; cbn [SFabs].
  - split; [exact H|]. cbn. rewrite Rabs_R0. auto.
  - split; [exact H|]. split; [|reflexivity]. cbn [real_of]. rewrite !Rabs_mult, (Rabs_pos_eq (IZR _)), (Rabs_pos_eq (powerRZ _ _)).
    + f_equal. f_equal. destruct s; [rewrite Rabs_left; lra|rewrite Rabs_pos_eq; lra].
    + apply powerRZ_le. lra.
    + apply IZR_le. lia.
Qed.

(** ** [float_eq] *)
Lemma max_fin : Fin f64_MAX.
Proof. cbn. unfold least_exp. left. lia. Qed.
Lemma max_real : real_of f64_MAX = largest_f64.
Proof. unfold f64_MAX, largest_f64, real_of. rewrite Rmult_1_l. reflexivity. Qed.
Lemma minpos_fin : Fin f64_MIN_POSITIVE.
Proof. cbn. unfold least_exp. left. lia. Qed.
Lemma bpow_R (e : Z) : b2 e = powerRZ 2 e.
Proof. rewrite bpow_powerRZ. reflexivity. Qed.
Lemma pow_real : forall q e k, Z.pos q = (2 ^ k)%Z -> (0 <= k)%Z -> real_of (S754_finite false q e) = b2 (k + e).
Proof. intros q e k H Hk. unfold real_of. rewrite H, Rmult_1_l, bpow_plus, <- bpow_R. f_equal. apply (IZR_Zpower radix2). exact Hk. Qed.
Lemma minpos_real : real_of f64_MIN_POSITIVE = b2 (-1022).
Proof. exact (pow_real 4503599627370496 (-1074) 52 eq_refl ltac:(lia)). Qed.
Lemma eps_fin : Fin f64_EPSILON.
Proof. cbn. unfold least_exp. left. lia. Qed.
Lemma eps_real : real_of f64_EPSILON = b2 (-52).
Proof. exact (pow_real 4503599627370496 (-104) 52 eq_refl ltac:(lia)). Qed.
Lemma largest_lt : largest_f64 < b2 1024.
Proof.
  rewrite <- max_real. pose proof (finite_lt 53 1024 ltac:(lia) ltac:(lia) _ max_fin) as H. apply Rle_lt_trans with (2 := H). apply Rle_abs.
Qed.
(* no finite float is larger *)
Lemma finite_le_largest : forall f, Fin f -> real_of f <= largest_f64.
Proof.
  intros f Hf. pose proof (finite_lt 53 1024 ltac:(lia) ltac:(lia) f Hf) as H. pose proof (finite_generic 53 1024 ltac:(lia) ltac:(lia) f Hf) as HF.
  change (SpecFloat.fexp 53 1024) with fx in HF.
  assert (E : largest_f64 = pred radix2 fx (b2 1024)).
  { rewrite pred_bpow. unfold largest_f64, FLT_exp. rewrite minus_IZR, Rmult_minus_distr_r, Rmult_1_l, <- bpow_R.
    change (Z.max (1024 - 53) (-1074)) with 971%Z. f_equal. change (IZR (2 ^ 53)) with (b2 53). rewrite <- bpow_plus. reflexivity. }
  rewrite E. apply pred_ge_gt; [typeclasses eauto|exact HF|apply F_bpow; lia|]. apply Rle_lt_trans with (2 := H). apply Rle_abs.
Qed.
Lemma sum_value : forall f g h, Fin f -> Fin g -> 0 <= real_of f -> 0 <= real_of g -> sign_SF f = false ->
  CorrectlyRounded 53 1024 false (real_of f + real_of g) h ->
  Fin (f64_min (SFadd 53 1024 f g) f64_MAX) /\ real_of (f64_min (SFadd 53 1024 f g) f64_MAX) = finite_or_largest h /\
  real_of f <= finite_or_largest h /\ real_of g <= finite_or_largest h /\
  (finite_or_largest h <= 2 * real_of f \/ finite_or_largest h <= 2 * real_of g).
Proof.
  intros f g h Hf Hg H0 H0' Hs HC.
  pose proof (finite_generic 53 1024 ltac:(lia) ltac:(lia) f Hf) as Ff. pose proof (finite_generic 53 1024 ltac:(lia) ltac:(lia) g Hg) as Fg.
  change (SpecFloat.fexp 53 1024) with fx in Ff, Fg.
  pose proof (overflow_iff 53 1024 ltac:(lia) ltac:(lia) (real_of f + real_of g)) as HO. change (SpecFloat.fexp 53 1024) with fx in HO.
  assert (Hge : real_of f <= rnd (real_of f + real_of g) /\ real_of g <= rnd (real_of f + real_of g)).
  { split; [rewrite <- (rnd_F (real_of f) Ff) at 1|rewrite <- (rnd_F (real_of g) Fg) at 1]; apply rnd_le; lra. }
  assert (Hdouble : forall r, F r -> F (2 * r)).
  { intros r Hr. assert (E : 2 * r = F2R (Float radix2 (Ztrunc (scaled_mantissa radix2 fx r)) (cexp radix2 fx r + 1))).
    { unfold generic_format in Hr. rewrite Hr at 1. unfold F2R. cbn [Fnum Fexp]. rewrite bpow_plus. change (b2 1) with 2. ring. }
    destruct (Req_dec r 0) as [->|Hr0]; [rewrite Rmult_0_r; apply generic_format_0|]. rewrite E.
    apply generic_format_F2R. intros _. rewrite <- E. unfold cexp. rewrite Rmult_comm. change 2 with (b2 1). rewrite mag_mult_bpow by exact Hr0.
    unfold FLT_exp. lia. }
  assert (Hle : rnd (real_of f + real_of g) <= 2 * real_of f \/ rnd (real_of f + real_of g) <= 2 * real_of g).
  { destruct (Rle_lt_dec (real_of g) (real_of f)); [left; rewrite <- (rnd_F _ (Hdouble _ Ff))|right; rewrite <- (rnd_F _ (Hdouble _ Fg))]; apply rnd_le; lra. }
  destruct (add_result f g Hf Hg H0 H0' Hs) as [(HL & HF & HR)|(HL & HI)].
  - assert (Eh : finite_or_largest h = rnd (real_of f + real_of g)).
    { apply HO in HL. destruct h as [s|s| |s m e]; cbn [CorrectlyRounded] in HC; [| |contradiction|].
      - destruct HC as (_ & _ & HN). exact (nearest_elim 53 1024 ltac:(lia) ltac:(lia) _ _ HN HL).
      - destruct HC as (_ & HC). lra.
      - destruct HC as (_ & _ & HN). exact (nearest_elim 53 1024 ltac:(lia) ltac:(lia) _ _ HN HL). }
    assert (HM : Fin (f64_min (SFadd 53 1024 f g) f64_MAX) /\ real_of (f64_min (SFadd 53 1024 f g) f64_MAX) = rnd (real_of f + real_of g)).
    { assert (E : f64_min (SFadd 53 1024 f g) f64_MAX = if SFltb (SFadd 53 1024 f g) f64_MAX then SFadd 53 1024 f g else f64_MAX).
      { destruct (SFadd 53 1024 f g); try contradiction; reflexivity. }
      rewrite E. destruct (SFltb (SFadd 53 1024 f g) f64_MAX) eqn:El; [split; assumption|]. split; [exact max_fin|].
      pose proof (finite_le_largest _ HF) as H1. rewrite max_real. destruct (Rle_lt_or_eq_dec _ _ H1) as [H2|H2].
      - rewrite <- max_real in H2. apply (ltb_real _ _ HF max_fin) in H2. congruence.
      - rewrite <- H2. exact HR. }
    rewrite Eh. destruct HM as [HM1 HM2]. split; [exact HM1|]. split; [exact HM2|]. split; [apply Hge|]. split; [apply Hge|exact Hle].
  - assert (Eh : finite_or_largest h = largest_f64).
    { assert (HN : ~ Rabs (real_of f + real_of g) < limit 53 1024) by (intros H; apply HO in H; lra).
      destruct h as [s|s| |s m e]; cbn [CorrectlyRounded] in HC; [tauto|reflexivity|contradiction|tauto]. }
    rewrite HI, Eh. change (f64_min (S754_infinity false) f64_MAX) with f64_MAX. split; [exact max_fin|]. split; [exact max_real|].
    split; [apply finite_le_largest, Hf|]. split; [apply finite_le_largest, Hg|].
    pose proof largest_lt as HLg. rewrite Rabs_pos_eq in HL; [|apply Rle_trans with (real_of f); [exact H0|apply Hge]]. lra.
Qed.
Lemma SFabs_nonneg : forall f, sign_SF f = false -> SFabs f = f.
Proof. intros [s|s| |s m e] H; cbn in H; subst; reflexivity. Qed.
Lemma finite_eq : forall f g h, Fin f -> Fin g -> CorrectlyRounded 53 1024 false (Rabs (real_of f) + Rabs (real_of g)) h ->
  (float_eq f g = true <-> Rabs (real_of f) = Rabs (real_of g) \/
     b2 (-1022) <= Rabs (Rabs (real_of f) - Rabs (real_of g)) < b2 (-52) * finite_or_largest h).
Proof.
  intros f g h Hf Hg HC. unfold float_eq. destruct (abs_real f Hf) as (Ha & Ea & Sa). destruct (abs_real g Hg) as (Hb & Eb & Sb).
  rewrite <- Ea, <- Eb in HC |- *. pose proof (Rabs_pos (real_of f)) as Pa. pose proof (Rabs_pos (real_of g)) as Pb. rewrite <- Ea in Pa. rewrite <- Eb in Pb.
  set (a := SFabs f) in *. set (b := SFabs g) in *. clearbody a b. clear f g Hf Hg Ea Eb.
  pose proof (finite_generic 53 1024 ltac:(lia) ltac:(lia) a Ha) as Fa. pose proof (finite_generic 53 1024 ltac:(lia) ltac:(lia) b Hb) as Fb.
  change (SpecFloat.fexp 53 1024) with fx in Fa, Fb.
  destruct (SFeqb a b) eqn:Eq.
  { apply (eqb_real a b Ha Hb) in Eq. tauto. }
  assert (Hne : real_of a <> real_of b) by (intros H; apply (eqb_real a b Ha Hb) in H; congruence).
  destruct (sum_value a b h Ha Hb Pa Pb Sa HC) as (HS & ES & Hs1 & Hs2 & Hs3).
  pose proof (finite_generic 53 1024 ltac:(lia) ltac:(lia) _ HS) as Fs. change (SpecFloat.fexp 53 1024) with fx in Fs. rewrite ES in Fs.
  set (S := f64_min (SFadd 53 1024 a b) f64_MAX) in *. set (s := finite_or_largest h) in *. clearbody S s.
  assert (Habs : Rabs (rnd (real_of a - real_of b)) = rnd (Rabs (real_of a - real_of b))) by (symmetry; apply round_NE_abs; typeclasses eauto).
  assert (Hxs : Rabs (real_of a - real_of b) <= s) by (apply Rabs_le; lra).
  assert (Hds : rnd (Rabs (real_of a - real_of b)) <= s) by (rewrite <- (rnd_F s Fs); apply rnd_le, Hxs).
  assert (Hslt : s < b2 1024).
  { rewrite <- ES. apply Rle_lt_trans with (Rabs (real_of S)); [apply Rle_abs|]. exact (finite_lt 53 1024 ltac:(lia) ltac:(lia) _ HS). }
  destruct (sub_finite a b Ha Hb) as [HD ED]; [rewrite Habs; lra|].
  destruct (abs_real _ HD) as (HD' & ED' & _). rewrite ED, Habs in ED'. set (D := SFabs (SFsub 53 1024 a b)) in *. clearbody D.
  pose proof (compare_core _ _ _ Fa Fb Fs Pa Pb Hne Hs1 Hs2 Hs3) as HC'.
  set (x := Rabs (real_of a - real_of b)) in *.
  assert (Hd0 : 0 <= rnd x) by (rewrite <- (rnd_F 0 (generic_format_0 _ _)); apply rnd_le; apply Rabs_pos).
  assert (Hs0 : 0 < s) by lra.
  destruct (div_finite D S HD' HS) as [HQ EQ].
  { rewrite ES. lra. }
  { rewrite ED', ES. assert (H1 : 0 <= rnd x / s <= 1).
    { split; [apply Rmult_le_pos; [exact Hd0|apply Rlt_le, Rinv_0_lt_compat, Hs0]|]. apply Rmult_le_reg_r with s; [exact Hs0|].
      replace (rnd x / s * s) with (rnd x) by (field; lra). lra. }
    assert (H2 : 0 <= rnd (rnd x / s) <= 1).
    { rewrite <- (rnd_F 0 (generic_format_0 _ _)) at 1. rewrite <- (rnd_F 1) by (apply (F_bpow 0); lia). split; apply rnd_le; lra. }
    rewrite Rabs_pos_eq by lra. apply Rle_lt_trans with 1; [lra|]. change 1 with (b2 0). apply bpow_lt. lia. }
  rewrite ED', ES in EQ.
  assert (Hmul : SFmul 53 1024 f64_EPSILON f64_MIN_POSITIVE = S754_finite false 1 (-1074)) by (vm_compute; reflexivity).
  assert (Hx0 : 0 < x) by (apply Rabs_pos_lt; lra).
  assert (Htiny : b2 (-1074) <= rnd x).
  { rewrite <- (rnd_F (b2 (-1074))) by (apply F_bpow; lia). apply rnd_le. destruct (Rlt_le_dec x (b2 (-1022))) as [Hl|Hl].
    - assert (Fx : F x).
      { apply generic_format_abs, diff_format; [exact Fa|exact Fb|]. fold x. pose proof (bpow_le radix2 (-1022) (-1021) ltac:(lia)). lra. }
      destruct (Rle_lt_dec (b2 (-1074)) x) as [H|H]; [exact H|]. exfalso. pose proof (succ_le_lt radix2 fx 0 x (generic_format_0 _ _) Fx Hx0) as H'.
      rewrite succ_0, ulp_FLT_0 in H' by typeclasses eauto. lra.
    - apply Rle_trans with (2 := Hl). apply bpow_le. lia. }
  assert (Hrhs : (real_of a = real_of b \/ b2 (-1022) <= x < b2 (-52) * s) <-> b2 (-1022) <= x < b2 (-52) * s) by tauto.
  rewrite Hrhs, <- HC'. clear Hrhs HC'.
  assert (Hz : forall c, Fin c -> (SFeqb c (S754_zero false) = true <-> real_of c = 0)) by (intros c Hc; apply (eqb_real c (S754_zero false) Hc I)).
  assert (HDmin : SFltb D f64_MIN_POSITIVE = true <-> rnd x < b2 (-1022)) by (rewrite <- ED', <- minpos_real; apply ltb_real; [exact HD'|exact minpos_fin]).
  destruct (SFeqb a (S754_zero false) || SFeqb b (S754_zero false) || SFltb D f64_MIN_POSITIVE)%bool eqn:Ez.
  - rewrite Hmul. assert (HF1 : Fin (S754_finite false 1 (-1074))) by (cbn; unfold least_exp; right; lia).
    assert (E1 : real_of (S754_finite false 1 (-1074)) = b2 (-1074)) by exact (pow_real 1 (-1074) 0 eq_refl ltac:(lia)).
    split; [intros H; apply (ltb_real _ _ HD' HF1) in H; lra|]. intros (H1 & H2 & H3 & _).
    apply Bool.orb_true_iff in Ez as [Ez|Ez]; [apply Bool.orb_true_iff in Ez as [Ez|Ez]|].
    + apply Hz in Ez; [tauto|exact Ha].
    + apply Hz in Ez; [tauto|exact Hb].
    + apply HDmin in Ez. lra.
  - apply Bool.orb_false_iff in Ez as [Ez Ez3]. apply Bool.orb_false_iff in Ez as [Ez1 Ez2].
    rewrite (ltb_real _ _ HQ eps_fin), EQ, eps_real. split; [|tauto]. intros H. split; [|split; [|split; [|exact H]]].
    + intros H'. apply (Hz a Ha) in H'. congruence.
    + intros H'. apply (Hz b Hb) in H'. congruence.
    + apply Rnot_lt_le. intros H'. apply HDmin in H'. congruence.
Qed.
Lemma rounded_exists : forall v, 0 <= v -> exists h, CorrectlyRounded 53 1024 false v h.
Proof.
  intros v Hv. pose proof (overflow_iff 53 1024 ltac:(lia) ltac:(lia) v) as HO. change (SpecFloat.fexp 53 1024) with fx in HO.
  destruct (Rlt_le_dec (Rabs v) (limit 53 1024)) as [Hl|Hl].
  - pose proof (proj2 HO Hl) as Hr. destruct (generic_finite 53 1024 ltac:(lia) ltac:(lia) (rnd v)) as (f & Hf & Ef); [apply generic_format_round; typeclasses eauto|exact Hr|].
    destruct (abs_real f Hf) as (Ha & Ea & Sa).
    assert (E : real_of (SFabs f) = rnd v).
    { rewrite Ea, Ef. apply Rabs_pos_eq. rewrite <- (rnd_F 0 (generic_format_0 _ _)). apply rnd_le, Hv. }
    pose proof (nearest_intro 53 1024 ltac:(lia) ltac:(lia) v (SFabs f) Ha E) as HN. exists (SFabs f).
    destruct (SFabs f) as [s|s| |s m e]; try contradiction; (split; [exact Sa|]; split; assumption).
  - exists (S754_infinity false). split; [reflexivity|exact Hl].
Qed.
Definition NotNan (f : spec_float) : Prop := Fin f \/ exists s, f = S754_infinity s.
Lemma rounded_notnan : forall neg v f, CorrectlyRounded 53 1024 neg v f -> NotNan f.
Proof.
  intros neg v [s|s| |s m e] H; cbn [CorrectlyRounded] in H; [left; exact I|right; eauto|contradiction|]. left. destruct H as (_ & _ & HN). apply HN.
Qed.
Lemma float_eq_exact : forall f g, NotNan f -> NotNan g -> (float_eq f g = true <-> SameMagnitude f g \/ Forgiven f g).
Proof.
  assert (HI : forall s g, Fin g -> float_eq (S754_infinity s) g = false /\ float_eq g (S754_infinity s) = false).
  { intros s [s'|s'| |s' m e] H; try contradiction; split; reflexivity. }
  intros f g [Hf|[s ->]] [Hg|[s' ->]].
  - destruct (rounded_exists (Rabs (real_of f) + Rabs (real_of g))) as (h & Hh); [pose proof (Rabs_pos (real_of f)); pose proof (Rabs_pos (real_of g)); lra|].
    rewrite (finite_eq f g h Hf Hg Hh). rewrite !bpow_R.
    assert (E1 : SameMagnitude f g = (Rabs (real_of f) = Rabs (real_of g))) by (destruct f; try contradiction; destruct g; try contradiction; reflexivity).
    assert (E2 : Forgiven f g = exists sum, CorrectlyRounded 53 1024 false (Rabs (real_of f) + Rabs (real_of g)) sum /\
        powerRZ 2 (-1022) <= Rabs (Rabs (real_of f) - Rabs (real_of g)) < powerRZ 2 (-52) * finite_or_largest sum)
      by (destruct f; try contradiction; destruct g; try contradiction; reflexivity).
    rewrite E1, E2. split; (intros [H|H]; [left; exact H|right]).
    + exists h. auto.
    + destruct H as (h' & Hh' & H). rewrite (correct_unique 53 1024 ltac:(lia) ltac:(lia) _ _ _ _ Hh Hh'). exact H.
  - destruct (HI s' f Hf) as [_ ->]. destruct f; cbn; try contradiction; split; intros H; try discriminate; destruct H as [H|H]; contradiction.
  - destruct (HI s g Hg) as [-> _]. destruct g; cbn; try contradiction; split; intros H; try discriminate; destruct H as [H|H]; contradiction.
  - split; [intros _; left; exact I|reflexivity].
Qed.
(** Readable bounds *)
Lemma forgiven_bounds : forall f g, Fin f -> Fin g ->
  (powerRZ 2 (-1022) <= Rabs (Rabs (real_of f) - Rabs (real_of g)) < powerRZ 2 (-52) * Rmax (Rabs (real_of f)) (Rabs (real_of g)) -> Forgiven f g) /\
  (Forgiven f g -> powerRZ 2 (-1022) <= Rabs (Rabs (real_of f) - Rabs (real_of g)) < powerRZ 2 (-51) * Rmax (Rabs (real_of f)) (Rabs (real_of g))).
Proof.
  intros f g Hf Hg. destruct (abs_real f Hf) as (Ha & Ea & Sa). destruct (abs_real g Hg) as (Hb & Eb & _).
  pose proof (Rabs_pos (real_of f)) as Pa. pose proof (Rabs_pos (real_of g)) as Pb.
  assert (E2 : Forgiven f g = exists sum, CorrectlyRounded 53 1024 false (Rabs (real_of f) + Rabs (real_of g)) sum /\
        powerRZ 2 (-1022) <= Rabs (Rabs (real_of f) - Rabs (real_of g)) < powerRZ 2 (-52) * finite_or_largest sum)
      by (destruct f; try contradiction; destruct g; try contradiction; reflexivity).
  assert (HS : forall h, CorrectlyRounded 53 1024 false (Rabs (real_of f) + Rabs (real_of g)) h ->
     Rmax (Rabs (real_of f)) (Rabs (real_of g)) <= finite_or_largest h <= 2 * Rmax (Rabs (real_of f)) (Rabs (real_of g))).
  { intros h Hh. rewrite <- Ea, <- Eb in Hh. rewrite <- Ea in Pa. rewrite <- Eb in Pb. rewrite <- Ea, <- Eb. destruct (sum_value _ _ h Ha Hb Pa Pb Sa Hh) as (_ & _ & H1 & H2 & H3).
    split; [apply Rmax_lub; assumption|]. pose proof (Rmax_l (real_of (SFabs f)) (real_of (SFabs g))). pose proof (Rmax_r (real_of (SFabs f)) (real_of (SFabs g))). lra. }
  assert (E51 : powerRZ 2 (-51) = powerRZ 2 (-52) * 2) by (rewrite <- !bpow_R; change (b2 (-51)) with (b2 (-52 + 1)); rewrite bpow_plus; reflexivity).
  pose proof (bp (-52)) as H52. rewrite bpow_R in H52.
  rewrite E2. split.
  - intros [H1 H2]. destruct (rounded_exists (Rabs (real_of f) + Rabs (real_of g))) as (h & Hh); [lra|]. exists h. split; [exact Hh|]. split; [exact H1|].
    apply Rlt_le_trans with (1 := H2). apply Rmult_le_compat_l; [lra|apply HS, Hh].
  - intros (h & Hh & H1 & H2). split; [exact H1|]. apply Rlt_le_trans with (1 := H2). rewrite E51, Rmult_assoc. apply Rmult_le_compat_l; [lra|apply HS, Hh].
Qed.
Lemma rnd_abs : forall v, rnd (Rabs v) = Rabs (rnd v).
Proof. intros v. apply round_NE_abs; typeclasses eauto. Qed.
