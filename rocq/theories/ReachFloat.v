(** * ReachFloat: every float but NaN has a literal *)
From Coq Require Import ZArith Reals Lra Lia Psatz SpecFloat.
From Flocq Require Import Core.
From Verif Require Import Base Ast Grammar NumConv NumSpec NumProofs PropNum IoSpec FloatSpec FloatProofs PropFloat PropFloatRead DenSpec ReachSpec.
Open Scope R_scope.

(** A float is its own value rounded. *)
Lemma exact_rounded p x f : (1 < p)%Z -> (p < x)%Z -> FiniteFloat p x f -> CorrectlyRounded p x (sign_bit f) (real_of f) f.
Proof.
  intros Hp Hx HF.
  assert (HL : Rabs (real_of f) < limit p x).
  { apply (overflow_iff p x Hp Hx). rewrite round_generic; [apply (finite_lt p x Hp Hx); assumption|typeclasses eauto|apply (finite_generic p x Hp Hx); assumption]. }
  assert (HN : Nearest p x (real_of f) f).
  { split; [exact HF| |].
    - intros g _. rewrite Rminus_diag_eq by reflexivity. rewrite Rabs_R0. apply Rabs_pos.
    - intros g _ E. left. rewrite Rminus_diag_eq in E by reflexivity. rewrite Rabs_R0 in E. symmetry in E. destruct (Req_dec (real_of g) (real_of f)) as [Hq|Hq]; [exact Hq|]. exfalso. apply (Rabs_no_R0 (real_of g - real_of f)); lra. }
  destruct f; cbn in *; try contradiction; auto.
Qed.
Lemma rounded_NotNaN p x neg v f : CorrectlyRounded p x neg v f -> NotNaN p x f.
Proof. destruct f; cbn; try contradiction; [intros (_ & _ & [H _ _])|intros _|intros (_ & _ & [H _ _])]; [left; exact H|right; eauto|left; exact H]. Qed.
Lemma narrowed_NotNaN f g : NotNaN 53 1024 f -> Narrowed f g -> NotNaN 24 128 g.
Proof. intros [H|[s ->]]; [destruct f; cbn in H; try contradiction; apply rounded_NotNaN|intros ->; right; eauto]. Qed.

Lemma digits_str d : Digits d -> IsStr d.
Proof. intros H. apply Forall_forall. intros c Hc. apply H in Hc. unfold valid_char. destruct (N.ltb_spec c 55296); [reflexivity|lia]. Qed.
Lemma sign_str b sg : Sign b sg -> IsStr sg.
Proof. intros []; repeat constructor. Qed.

(** A literal for [+/- m * 2^e] *)
Lemma dyadic_text (neg : bool) (m : N) (e : Z) : exists t, DecimalText t neg ((if neg then -1 else 1) * IZR (Z.of_N m) * powerRZ 2 e) /\
  IsStr t /\ (forall z, ~ IntegerText t z).
Proof.
  set (sg := if neg then [45%N] else []).
  assert (Hs : Sign (negb neg) sg) by (destruct neg; constructor).
  set (a := (if e <? 0 then Z.of_N m * 5 ^ (- e) else Z.of_N m * 2 ^ e)%Z).
  set (k := (if e <? 0 then - e else 0)%Z). set (es := (if e <? 0 then [45%N] else [])%Z).
  assert (He : Sign (negb (e <? 0)%Z) es) by (unfold es; destruct (e <? 0)%Z; constructor).
  destruct (dec_str_spec (Z.to_N a)) as (A1 & A2 & A3 & _). destruct (dec_str_spec (Z.to_N k)) as (K1 & K2 & K3 & _).
  set (xt := [101%N] ++ es ++ dec_str (Z.to_N k)).
  exists (sg ++ dec_str (Z.to_N a) ++ xt).
  assert (Ha : (0 <= a)%Z) by (unfold a; destruct (Z.ltb_spec e 0); apply Z.mul_nonneg_nonneg; try lia; apply Z.pow_nonneg; lia).
  assert (Hk : (0 <= k)%Z) by (unfold k; destruct (Z.ltb_spec e 0); lia).
  split; [|split].
  - pose proof (DT (negb neg) sg (Some (dec_str (Z.to_N a))) None (dec_str (Z.to_N a)) _ xt Hs (M_int _ A1 A2) (ET_some 101 _ es _ (or_introl eq_refl) He K1 K2)) as H.
    rewrite Bool.negb_involutive in H.
    match type of H with DecimalText _ _ ?v => match goal with |- DecimalText _ _ ?w => replace w with v; [exact H|] end end.
    unfold digits_real. cbn [part length pow value]. rewrite A3, K3, !Z2N.id by assumption.
    assert (E : IZR a * powerRZ 10 (if negb (e <? 0)%Z then k else - k) = IZR (Z.of_N m) * powerRZ 2 e).
    { unfold a, k. destruct (Z.ltb_spec e 0) as [Hn|Hn]; cbn [negb].
      - assert (Hq' : exists q, e = (- q)%Z /\ (0 <= q)%Z) by (exists (- e)%Z; lia). destruct Hq' as (q & -> & Hq).
        rewrite Z.opp_involutive. rewrite !powerRZ_neg'. rewrite mult_IZR, powerRZ_10 by exact Hq.
        assert (E10 : (10 ^ q = 5 ^ q * 2 ^ q)%Z) by (rewrite <- Z.pow_mul_l; reflexivity).
        assert (E2 : powerRZ 2 q = IZR (2 ^ q)) by (rewrite <- (Z2Nat.id q Hq), <- pow_powerRZ, <- pow_IZR; reflexivity).
        rewrite E10, mult_IZR, E2. assert (IZR (5 ^ q) <> 0) by (apply IZR_neq; apply Z.pow_nonzero; lia).
        assert (IZR (2 ^ q) <> 0) by (apply IZR_neq; apply Z.pow_nonzero; lia). field. split; assumption.
      - cbn [powerRZ]. rewrite mult_IZR, Rmult_1_r. f_equal. rewrite <- (Z2Nat.id e Hn), <- pow_powerRZ, <- pow_IZR. reflexivity. }
    replace (if negb neg then 1 else -1) with (if neg then -1 else 1) by (destruct neg; reflexivity).
    rewrite Rmult_assoc, (Rmult_assoc (if neg then -1 else 1)). f_equal. rewrite <- E. f_equal. cbn. field.
  - apply Forall_app. split; [eapply sign_str; exact Hs|]. apply Forall_app. split; [apply digits_str, A2|].
    apply Forall_app. split; [repeat constructor|]. apply Forall_app. split; [eapply sign_str; exact He|apply digits_str, K2].
  - intros z Hz. assert (Hin : In 101%N (sg ++ dec_str (Z.to_N a) ++ xt)) by (rewrite !in_app_iff; right; right; left; reflexivity).
    destruct Hz as [b sg' d Hs' _ Hd]. apply in_app_or in Hin as [Hin|Hin].
    + destruct (Sign_chars _ _ _ Hs' Hin); lia.
    + apply Hd in Hin. lia.
Qed.

Lemma lit_of_text t neg v : DecimalText t neg v -> (forall z, ~ IntegerText t z) -> exists n, NumLit n t /\
  forall f, CorrectlyRounded 53 1024 neg v f -> FloatLit n f.
Proof. intros H HI. destruct (text_literal t neg v H) as [n Hn]. exists n. split; [exact Hn|]. intros f Hf. exists t, neg, v. auto. Qed.

Lemma limit_le p x : (1 < p)%Z -> (p < x)%Z -> limit p x <= powerRZ 2 x.
Proof. intros Hp Hx. unfold limit. pose proof (powerRZ_lt 2 (x - p - 1)). lra. Qed.
Lemma inf_rounded s : CorrectlyRounded 53 1024 s ((if s then -1 else 1) * IZR (Z.of_N 1) * powerRZ 2 1024) (S754_infinity s).
Proof.
  cbn -[powerRZ limit]. split; [reflexivity|]. pose proof (limit_le 53 1024 ltac:(lia) ltac:(lia)).
  assert (0 < powerRZ 2 1024) by (apply powerRZ_lt; lra).
  destruct s; [rewrite Rmult_1_r, Rabs_mult, (Rabs_left (-1)) by lra|rewrite !Rmult_1_l]; rewrite (Rabs_pos_eq (powerRZ 2 1024)) by lra; lra.
Qed.
(** the same for any finite float *)
Lemma finite_text f : (exists s, f = S754_zero s) \/ (exists s m e, f = S754_finite s m e) ->
  exists t, DecimalText t (sign_bit f) (real_of f) /\ IsStr t /\ (forall z, ~ IntegerText t z).
Proof.
  intros [[s ->]|(s & m & e & ->)].
  - destruct (dyadic_text s 0 0) as (t & H & R). exists t. split; [|exact R]. cbn in *. replace 0 with ((if s then -1 else 1) * 0 * 1); [exact H|ring].
  - destruct (dyadic_text s (Npos m) e) as (t & H & R). exists t. split; [|exact R]. exact H.
Qed.
Lemma finite_shape p x f : FiniteFloat p x f -> (exists s, f = S754_zero s) \/ (exists s m e, f = S754_finite s m e).
Proof. destruct f; cbn; try contradiction; eauto 6. Qed.

Theorem f64_literal f : NotNaN 53 1024 f -> exists n t, NumLit n t /\ IsStr t /\ FloatLit n f.
Proof.
  intros [H|[s ->]].
  - destruct (finite_text f (finite_shape _ _ _ H)) as (t & Ht & HS & HI). destruct (lit_of_text t _ _ Ht HI) as (n & Hn & Hf).
    exists n, t. split; [exact Hn|]. split; [exact HS|]. apply Hf. apply exact_rounded; [lia|lia|exact H].
  - destruct (dyadic_text s 1 1024) as (t & Ht & HS & HI). destruct (lit_of_text t _ _ Ht HI) as (n & Hn & Hf).
    exists n, t. split; [exact Hn|]. split; [exact HS|]. apply Hf. apply inf_rounded.
Qed.

(** An [f32] is an [f64]. *)
Lemma widen f : FiniteFloat 24 128 f -> exists g, FiniteFloat 53 1024 g /\ real_of g = real_of f /\ sign_bit g = sign_bit f.
Proof.
  destruct f as [s|s| |s m e]; cbn [FiniteFloat]; try contradiction; intros H.
  - exists (S754_zero s). repeat split.
  - destruct (generic_finite 53 1024 ltac:(lia) ltac:(lia) (real_of (S754_finite s m e))) as (g & HF & Hg).
    + replace (real_of (S754_finite s m e)) with (F2R (Float radix2 (if s then Z.neg m else Z.pos m) e)).
      * apply generic_format_FLT. eapply FLT_spec; [reflexivity| |].
        -- cbn [Fnum]. unfold least_exp in H. destruct s; cbn [Z.abs]; change (radix2 ^ 53)%Z with 9007199254740992%Z; lia.
        -- cbn [Fexp]. unfold least_exp, SpecFloat.emin in *. lia.
      * unfold F2R. cbn [Fnum Fexp real_of]. rewrite bpow_powerRZ. change (IZR radix2) with 2. f_equal.
        destruct s; [change (Z.neg m) with (- Z.pos m)%Z; rewrite opp_IZR; ring|ring].
    + eapply Rlt_trans; [apply (finite_lt 24 128 ltac:(lia) ltac:(lia)); exact H|]. apply bpow_lt. lia.
    + exists g. split; [exact HF|]. split; [exact Hg|]. pose proof (powerRZ_lt 2 e ltac:(lra)) as HE.
      assert (Hm : 0 < IZR (Z.pos m)) by (apply IZR_lt; lia).
      cbn [real_of] in Hg. assert (0 < IZR (Z.pos m) * powerRZ 2 e) by (apply Rmult_lt_0_compat; assumption).
      destruct g as [s'|s'| |s' m' e']; cbn in HF; try contradiction; cbn [real_of] in Hg.
      * destruct s; lra.
      * pose proof (powerRZ_lt 2 e' ltac:(lra)) as HE'. assert (Hm' : 0 < IZR (Z.pos m')) by (apply IZR_lt; lia).
        assert (0 < IZR (Z.pos m') * powerRZ 2 e') by (apply Rmult_lt_0_compat; assumption).
        cbn. destruct s, s'; try reflexivity; lra.
Qed.
Theorem f32_literal f : NotNaN 24 128 f -> exists n t g, NumLit n t /\ IsStr t /\ FloatLit n g /\ Narrowed g f.
Proof.
  intros [H|[s ->]].
  - destruct (widen f H) as (g & Hg & Er & Es). destruct (f64_literal g (or_introl Hg)) as (n & t & Hn & Ht & HL).
    exists n, t, g. repeat (split; [assumption|]). pose proof (exact_rounded 24 128 f ltac:(lia) ltac:(lia) H) as HC.
    destruct g; cbn in Hg; try contradiction; unfold Narrowed; rewrite Er, Es; exact HC.
  - destruct (f64_literal (S754_infinity s)) as (n & t & Hn & Ht & HL); [right; eauto|]. exists n, t, (S754_infinity s). repeat (split; [assumption|]). reflexivity.
Qed.
