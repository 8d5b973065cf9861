(** * FloatProofs: the model's rounding is correct (through Flocq) *)
From Coq Require Import ZArith Reals Lra Lia Psatz SpecFloat.
From Flocq Require Import Core IEEE754.BinarySingleNaN.
From Verif Require Import Base FloatSpec.
Open Scope R_scope.

Section Format.
Variables p x : Z.
Hypothesis Hp : (1 < p)%Z.
Hypothesis Hx : (p < x)%Z.
Let P0 : Prec_gt_0 p. Proof. unfold Prec_gt_0. lia. Qed.
Let PX : Prec_lt_emax p x. Proof. exact Hx. Qed.
Existing Instance P0.
Existing Instance PX.
Notation fexp := (SpecFloat.fexp p x).
Local Instance VE : Valid_exp fexp := fexp_correct p x P0.
Local Instance ME : Monotone_exp fexp := fexp_monotone p x.
Local Instance NE : Exists_NE radix2 fexp. Proof. apply (exists_NE_FLT radix2 (emin p x) p). right. exact Hp. Qed.

Lemma choice_ne : forall s m l, choice_mode mode_NE s m l = SpecFloat.round_nearest_even m l.
Proof.
  intros s m l. destruct l as [|[]]; cbn; try reflexivity. destruct (Z.even m); reflexivity.
Qed.
Lemma aux_equiv : forall s m e l, BinarySingleNaN.binary_round_aux p x mode_NE s m e l = SpecFloat.binary_round_aux p x s m e l.
Proof.
  intros s m e l. unfold BinarySingleNaN.binary_round_aux, SpecFloat.binary_round_aux.
  destruct (shr_fexp p x m e l) as [mrs e']. rewrite choice_ne. destruct (shr_fexp p x _ e' loc_Exact) as [mrs2 e2]. reflexivity.
Qed.
Lemma round_equiv : forall s m e, BinarySingleNaN.binary_round p x mode_NE s m e = SpecFloat.binary_round p x s m e.
Proof.
  intros s m e. unfold BinarySingleNaN.binary_round, SpecFloat.binary_round, shl_align_fexp.
  destruct (shl_align m e _) as [mz ez]. apply aux_equiv.
Qed.

(** ** Values *)
Lemma real_SF2R : forall f, real_of f = SF2R radix2 f.
Proof.
  intros [s|s| |s m e]; try reflexivity. cbn. unfold F2R. cbn [Fnum Fexp]. rewrite bpow_powerRZ. change (IZR radix2) with 2.
  destruct s; cbn [cond_Zopp]; rewrite ?opp_IZR; ring.
Qed.
Lemma digits2_bounds : forall m, (2 ^ (Z.pos (digits2_pos m) - 1) <= Z.pos m < 2 ^ Z.pos (digits2_pos m))%Z.
Proof.
  intros m. rewrite Digits.Zpos_digits2_pos. pose proof (Digits.Zdigits_correct radix2 (Z.pos m)) as H. exact H.
Qed.
Lemma finite_bounded : forall s m e, FiniteFloat p x (S754_finite s m e) <-> bounded p x m e = true.
Proof.
  intros s m e. unfold bounded, canonical_mantissa, SpecFloat.fexp, emin, FiniteFloat, least_exp.
  pose proof (digits2_bounds m) as Hd. set (d := Z.pos (digits2_pos m)) in *.
  rewrite Bool.andb_true_iff, Z.leb_le. rewrite <- Zeq_is_eq_bool.
  assert (Hd1 : (1 <= d)%Z) by (unfold d; lia).
  split.
  - intros [[Hm He]|[Hm He]].
    + assert (d = p).
      { destruct (Z.lt_trichotomy d p) as [H|[H|H]]; [|exact H|].
        - pose proof (Z.pow_le_mono_r 2 d (p - 1) ltac:(lia) ltac:(lia)). lia.
        - pose proof (Z.pow_le_mono_r 2 p (d - 1) ltac:(lia) ltac:(lia)). lia. }
      lia.
    + assert (d < p)%Z.
      { destruct (Z.lt_ge_cases d p) as [H|H]; [exact H|]. pose proof (Z.pow_le_mono_r 2 (p - 1) (d - 1) ltac:(lia) ltac:(lia)). lia. }
      lia.
  - intros [Hc He]. destruct (Z.lt_trichotomy d p) as [H|[H|H]].
    + right. pose proof (Z.pow_le_mono_r 2 d (p - 1) ltac:(lia) ltac:(lia)). lia.
    + left. rewrite <- H. lia.
    + lia.
Qed.
Lemma finite_valid : forall f, FiniteFloat p x f <-> valid_binary p x f = true /\ is_finite_SF f = true.
Proof.
  intros [s|s| |s m e]; cbn [valid_binary is_finite_SF]; try (cbn; intuition congruence).
  rewrite finite_bounded. tauto.
Qed.
Lemma finite_generic : forall f, FiniteFloat p x f -> generic_format radix2 fexp (real_of f).
Proof.
  intros [s|s| |s m e] H; cbn in H; try (cbn; apply generic_format_0). rewrite real_SF2R. apply (finite_bounded s) in H.
  change (SF2R radix2 (S754_finite s m e)) with (B2R (B754_finite (prec:=p) (emax:=x) s m e H)). apply generic_format_B2R.
Qed.
Lemma finite_lt : forall f, FiniteFloat p x f -> Rabs (real_of f) < bpow radix2 x.
Proof.
  intros [s|s| |s m e] H; cbn in H; try (cbn; rewrite Rabs_R0; apply bpow_gt_0). rewrite real_SF2R. apply (finite_bounded s) in H.
  change (SF2R radix2 (S754_finite s m e)) with (B2R (B754_finite (prec:=p) (emax:=x) s m e H)). apply abs_B2R_lt_emax.
Qed.
(** a number of the format below the maximum is the value of a finite float *)
Lemma generic_finite : forall r, generic_format radix2 fexp r -> Rabs r < bpow radix2 x -> exists f, FiniteFloat p x f /\ real_of f = r.
Proof.
  intros r Hr Hlt. pose proof Hr as Hr'. unfold generic_format in Hr'. set (m := Ztrunc (scaled_mantissa radix2 fexp r)) in *.
  set (e := cexp radix2 fexp r) in *.
  assert (HG : forall s q, r = F2R (Float radix2 (cond_Zopp s (Z.pos q)) e) -> exists f, FiniteFloat p x f /\ real_of f = r).
  { intros s q Hq. pose proof (binary_round_correct p x _ _ mode_NE s q e) as [Hv Hc]. cbv zeta in Hc. rewrite <- Hq in Hc.
    rewrite (round_generic radix2 fexp _ r Hr) in Hc. rewrite Rlt_bool_true in Hc by exact Hlt.
    destruct Hc as (H1 & H2 & H3). eexists. rewrite real_SF2R. split; [|exact H1]. apply finite_valid. split; assumption. }
  destruct m as [|q|q].
  - exists (S754_zero false). split; [exact I|]. rewrite Hr'. symmetry. apply F2R_0.
  - apply (HG false q Hr').
  - apply (HG true q Hr').
Qed.

(** ** The limit *)
Lemma limit_bpow : limit p x = bpow radix2 x - bpow radix2 (x - p - 1).
Proof. unfold limit. rewrite !bpow_powerRZ. reflexivity. Qed.
Lemma cexp_top : forall v, bpow radix2 (x - 1) <= v < bpow radix2 x -> cexp radix2 fexp v = (x - p)%Z.
Proof.
  intros v Hv. unfold cexp. rewrite (mag_unique_pos radix2 v x Hv). unfold SpecFloat.fexp, emin. lia.
Qed.
Lemma limit_range : bpow radix2 (x - 1) <= limit p x < bpow radix2 x.
Proof.
  rewrite limit_bpow. pose proof (bpow_gt_0 radix2 (x - p - 1)). split; [|lra].
  assert (bpow radix2 x = 2 * bpow radix2 (x - 1)) by (replace x with (1 + (x - 1))%Z at 1 by lia; rewrite bpow_plus; reflexivity).
  pose proof (bpow_le radix2 (x - p - 1) (x - 1) ltac:(lia)). lra.
Qed.
Lemma limit_scaled : limit p x = (bpow radix2 p - /2) * bpow radix2 (x - p).
Proof.
  rewrite limit_bpow, Rmult_minus_distr_r, <- bpow_plus. replace (p + (x - p))%Z with x by lia.
  replace (x - p - 1)%Z with (-(1) + (x - p))%Z by lia. rewrite (bpow_plus radix2 (-(1)) (x - p)). f_equal.
Qed.
Lemma even_2p : Z.even (2 ^ p) = true.
Proof. rewrite Z.even_pow by lia. reflexivity. Qed.
Lemma IZR_2p : IZR (2 ^ p) = bpow radix2 p.
Proof. apply (IZR_Zpower radix2 p). lia. Qed.
Lemma overflow_iff : forall v, Rabs (round radix2 fexp ZnearestE v) < bpow radix2 x <-> Rabs v < limit p x.
Proof.
  intros v. rewrite <- round_NE_abs by typeclasses eauto. pose proof (Rabs_pos v) as Hv. set (u := Rabs v) in *. clearbody u.
  pose proof limit_range as [HL1 HL2].
  split; intros H.
  - apply Rnot_le_lt. intros HL. apply (Rlt_not_le _ _ H).
    assert (HM : round radix2 fexp ZnearestE (limit p x) = bpow radix2 x).
    { unfold round, scaled_mantissa. rewrite cexp_top by (split; assumption). rewrite limit_scaled at 1.
      rewrite Rmult_assoc, <- bpow_plus. replace (x - p + - (x - p))%Z with 0%Z by lia. rewrite Rmult_1_r.
      assert (HZ : ZnearestE (bpow radix2 p - /2) = (2 ^ p)%Z).
      { unfold Znearest. assert (HF : Zfloor (bpow radix2 p - /2) = (2 ^ p - 1)%Z).
        { apply Zfloor_imp. rewrite plus_IZR, minus_IZR. rewrite IZR_2p. lra. }
        rewrite HF. rewrite minus_IZR, IZR_2p.
        rewrite Rcompare_Eq by lra. rewrite Z.even_sub, even_2p. cbn [negb Z.even Bool.eqb].
        assert (HC : Zceil (bpow radix2 p - /2) = (2 ^ p)%Z).
        { apply Zceil_imp. rewrite minus_IZR. rewrite IZR_2p. lra. }
        exact HC. }
      rewrite HZ. unfold F2R. cbn [Fnum Fexp]. rewrite IZR_2p. rewrite <- bpow_plus. f_equal. lia. }
    rewrite <- HM. apply round_le; [typeclasses eauto|typeclasses eauto|exact HL].
  - destruct (Rlt_le_dec u (bpow radix2 (x - 1))) as [Hu|Hu].
    + apply Rle_lt_trans with (bpow radix2 (x - 1)); [|apply bpow_lt; lia].
      apply round_le_generic; [typeclasses eauto|typeclasses eauto| |lra].
      apply generic_format_bpow. unfold SpecFloat.fexp, emin. lia.
    + unfold round, scaled_mantissa. rewrite cexp_top by lra.
      apply Rle_lt_trans with (IZR (2 ^ p - 1) * bpow radix2 (x - p)).
      * unfold F2R. cbn [Fnum Fexp]. apply Rmult_le_compat_r; [apply bpow_ge_0|]. apply IZR_le.
        assert (Hs : u * bpow radix2 (- (x - p)) < bpow radix2 p - /2).
        { apply Rmult_lt_reg_r with (bpow radix2 (x - p)); [apply bpow_gt_0|]. rewrite Rmult_assoc, <- bpow_plus.
          replace (- (x - p) + (x - p))%Z with 0%Z by lia. rewrite Rmult_1_r, <- limit_scaled. exact H. }
        set (w := u * bpow radix2 (- (x - p))) in *.
        apply Z.lt_le_pred. apply lt_IZR.
        pose proof (Znearest_half (fun z => negb (Z.even z)) w) as Hh. apply Rabs_le_inv in Hh.
        rewrite IZR_2p. lra.
      * rewrite minus_IZR, IZR_2p. rewrite Rmult_minus_distr_r, <- bpow_plus.
        replace (p + (x - p))%Z with x by lia. pose proof (bpow_gt_0 radix2 (x - p)). lra.
Qed.

(** ** Nearest *)
Lemma even_of_prop : forall f v, FiniteFloat p x f -> NE_prop radix2 fexp v (real_of f) -> EvenSignificand f.
Proof.
  intros [s|s| |s m e] v Hf HN; try exact I. destruct HN as (g & Hg & Hc & Hev). cbn [EvenSignificand].
  apply (finite_bounded s) in Hf. pose proof (canonical_bounded p x s m e Hf) as Hcf.
  rewrite real_SF2R in Hg. cbn [SF2R] in Hg. pose proof (canonical_unique _ _ _ _ Hcf Hc Hg) as E. rewrite <- E in Hev. cbn [Fnum] in Hev.
  destruct s; cbn [cond_Zopp] in Hev; [rewrite Z.even_opp in Hev|]; exact Hev.
Qed.
Lemma prop_of_even : forall f v, FiniteFloat p x f -> EvenSignificand f -> NE_prop radix2 fexp v (real_of f).
Proof.
  intros f v Hf Hev. assert (HZ : NE_prop radix2 fexp v 0).
  { exists (Float radix2 0 (cexp radix2 fexp 0)). split; [symmetry; apply F2R_0|]. split; [apply canonical_0|reflexivity]. }
  destruct f as [s|s| |s m e]; try exact HZ. rewrite real_SF2R. cbn [SF2R].
  exists (Float radix2 (cond_Zopp s (Z.pos m)) e). split; [reflexivity|]. split.
  - apply (finite_bounded s) in Hf. apply (canonical_bounded p x s m e Hf).
  - cbn [Fnum]. destruct s; cbn [cond_Zopp]; [rewrite Z.even_opp|]; exact Hev.
Qed.
Lemma nearest_intro : forall v f, FiniteFloat p x f -> real_of f = round radix2 fexp ZnearestE v -> Nearest p x v f.
Proof.
  intros v f Hf Hr. pose proof (round_NE_pt radix2 fexp v) as [[HF HN] HT]. rewrite <- Hr in HF, HN, HT.
  constructor; [exact Hf| |].
  - intros g Hg. apply HN, finite_generic, Hg.
  - intros g Hg He. destruct HT as [HT|HT]; [right; apply (even_of_prop f v Hf HT)|]. left. apply HT. split; [apply finite_generic, Hg|].
    intros h Hh. rewrite <- He. apply HN, Hh.
Qed.
Lemma nearest_elim : forall v f, Nearest p x v f -> Rabs v < limit p x -> real_of f = round radix2 fexp ZnearestE v.
Proof.
  intros v f [Hf Hn Ht] Hv. apply overflow_iff in Hv. pose proof (round_NE_pt radix2 fexp v) as HR.
  destruct (generic_finite (round radix2 fexp ZnearestE v)) as (g & Hg & Eg); [apply generic_format_round; typeclasses eauto|exact Hv|].
  rewrite <- Eg in HR |- *. pose proof HR as [[HF HN] HT].
  assert (E : Rabs (real_of f - v) = Rabs (real_of g - v)) by (apply Rle_antisym; [apply Hn, Hg|apply HN, finite_generic, Hf]).
  destruct (Ht g Hg E) as [H|H]; [symmetry; exact H|].
  apply (round_unique _ (Rnd_NE_pt_monotone radix2 fexp) v); [|exact HR]. split; [|left; apply prop_of_even; assumption].
  split; [apply finite_generic, Hf|]. intros h Hh. rewrite E. apply HN, Hh.
Qed.
(** The specification determines the result. *)
Lemma correct_unique : forall neg v f g, CorrectlyRounded p x neg v f -> CorrectlyRounded p x neg v g -> f = g.
Proof.
  intros neg v f g Hf Hg.
  assert (HFF : forall f g, FiniteFloat p x f -> FiniteFloat p x g -> sign_SF f = sign_SF g -> real_of f = real_of g -> f = g).
  { clear f g Hf Hg. intros f g Hf Hg Hs Hr. apply finite_valid in Hf as [Vf Ff]. apply finite_valid in Hg as [Vg Fg].
    rewrite <- (B2SF_SF2B p x f Vf), <- (B2SF_SF2B p x g Vg). f_equal. apply B2R_Bsign_inj.
    - rewrite is_finite_SF2B. exact Ff.
    - rewrite is_finite_SF2B. exact Fg.
    - rewrite !B2R_SF2B, <- !real_SF2R. exact Hr.
    - rewrite !Bsign_SF2B. exact Hs. }
  destruct f as [s|s| |s m e], g as [s'|s'| |s' m' e']; cbn in Hf, Hg; try tauto;
    try (destruct Hf as (-> & Hvf & Nf)); try (destruct Hg as (-> & Hvg & Ng)); try (destruct Hf as (-> & Hvf)); try (destruct Hg as (-> & Hvg));
    try reflexivity; try lra;
    (apply HFF; [apply Nf|apply Ng|reflexivity|rewrite (nearest_elim v _ Nf Hvf), (nearest_elim v _ Ng Hvg); reflexivity]).
Qed.

(** From Flocq's statements to ours *)
Lemma correct_intro : forall neg v z,
  valid_binary p x z = true /\
  (if Rlt_bool (Rabs (round radix2 fexp (round_mode mode_NE) v)) (bpow radix2 x) then
    SF2R radix2 z = round radix2 fexp (round_mode mode_NE) v /\ is_finite_SF z = true /\ sign_SF z = neg
  else z = binary_overflow p x mode_NE neg) -> CorrectlyRounded p x neg v z.
Proof.
  intros neg v z [Hv H]. cbn [round_mode] in H. destruct (Rlt_bool_spec (Rabs (round radix2 fexp ZnearestE v)) (bpow radix2 x)) as [Hl|Hl].
  - destruct H as (H1 & H2 & H3). rewrite <- real_SF2R in H1. assert (HF : FiniteFloat p x z) by (apply finite_valid; split; assumption).
    pose proof (nearest_intro v z HF H1) as HN. apply overflow_iff in Hl.
    destruct z as [s|s| |s m e]; cbn in H2, H3; try discriminate; (split; [exact H3|]; split; assumption).
  - subst z. cbn. split; [reflexivity|]. apply Rnot_lt_le. intros HL. apply overflow_iff in HL. lra.
Qed.
Lemma correct_zero : forall neg, CorrectlyRounded p x neg 0 (S754_zero neg).
Proof.
  intros neg. cbn. split; [reflexivity|]. pose proof limit_range as [H _]. pose proof (bpow_gt_0 radix2 (x - 1)) as Hb. rewrite Rabs_R0. split; [lra|].
  apply nearest_intro; [exact I|]. rewrite round_0 by typeclasses eauto. reflexivity.
Qed.
(** An integer scaled by a power of two. *)
Lemma correct_round : forall neg q e,
  CorrectlyRounded p x neg ((if neg then -1 else 1) * IZR (Z.pos q) * powerRZ 2 e) (SpecFloat.binary_round p x neg q e).
Proof.
  intros neg q e. rewrite <- round_equiv. apply correct_intro.
  pose proof (binary_round_correct p x _ _ mode_NE neg q e) as H. cbv zeta in H.
  replace ((if neg then -1 else 1) * IZR (Z.pos q) * powerRZ 2 e) with (F2R (Float radix2 (cond_Zopp neg (Z.pos q)) e)); [exact H|].
  unfold F2R. cbn [Fnum Fexp]. rewrite bpow_powerRZ. change (IZR radix2) with 2. destruct neg; cbn [cond_Zopp]; rewrite ?opp_IZR; ring.
Qed.
(** A quotient of integers. *)
Lemma correct_div : forall neg q d,
  CorrectlyRounded p x neg ((if neg then -1 else 1) * (IZR (Z.pos q) / IZR (Z.pos d)))
    (let '(mz, ez, lz) := SFdiv_core_binary p x (Z.pos q) 0 (Z.pos d) 0 in SpecFloat.binary_round_aux p x neg mz ez lz).
Proof.
  intros neg q d. apply correct_intro. pose proof (Bdiv_correct_aux p x _ _ mode_NE neg q 0 false d 0) as H. cbv zeta in H.
  rewrite Bool.xorb_false_r in H.
  assert (E : F2R (Float radix2 (cond_Zopp neg (Z.pos q)) 0) / F2R (Float radix2 (cond_Zopp false (Z.pos d)) 0) =
              (if neg then -1 else 1) * (IZR (Z.pos q) / IZR (Z.pos d))).
  { unfold F2R. cbn [Fnum Fexp bpow]. destruct neg; cbn [cond_Zopp]; rewrite ?opp_IZR; field; apply IZR_neq; lia. }
  rewrite E in H. destruct (SFdiv_core_binary p x (Z.pos q) 0 (Z.pos d) 0) as [[mz ez] lz]. rewrite aux_equiv in H. exact H.
Qed.
End Format.
