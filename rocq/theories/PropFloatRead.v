(** * PropFloatRead: C91, floats are read to the nearest *)
From Coq Require Import ZArith Reals Lra SpecFloat Lia.
From Verif Require Import Base NomFacts Ast Value OldGrammar OldProofs Grammar Parser NumConv NumSpec FloatConv FloatSpec FloatProofs NumFacts PropLex IoSpec NumProofs PropNum PropFloat.
Open Scope Z_scope.

(** ** The decimal text of a literal *)
Lemma float_decimal_literal p q n t : NumLit n t ->
  float_decimal p q (cow_str (num_input n)) = Some (round_dec p q (negb (num_positive n))
                     (dec_value (opt_str (num_whole n) ++ opt_str (num_fraction n)))
                     (exp_value (num_exponent n) - Z.of_nat (length (opt_str (num_fraction n))))).
Proof.
  intros [b sg w f m x xt Hs Hm Hx]. cbn [num_input cow_str num_positive num_whole num_fraction num_exponent].
  unfold float_decimal.
  assert (Hm0 : match m ++ xt with c :: _ => c <> 43%N /\ c <> 45%N | [] => True end).
  { destruct Hm as [d Hd HD|d f Hd HD HF|f Hf HF]; cbn; try lia; destruct d as [|c d]; try congruence; cbn;
      specialize (HD c (or_introl eq_refl)); lia. }
  rewrite (sign_of_eq b sg _ Hs Hm0).
  assert (Hxt : stops is_dec_digit xt /\ (forall c r, xt = c :: r -> c <> 46%N)).
  { destruct Hx as [|e b' sg' d' He Hs' Hd' HD']; [split; [exact I|discriminate]|]. cbn [app]. split.
    - cbn. unfold is_dec_digit. destruct He as [->| ->]; reflexivity.
    - intros c r [= <- _]. destruct He as [->| ->]; lia. }
  destruct Hxt as [Hst Hdot].
  assert (Hexp : match xt with
     | [] => Some (round_dec p q (negb b) (dec_value (opt_str (option_map Borrowed w) ++ opt_str (option_map Borrowed f)))
                     (- Z.of_nat (length (opt_str (option_map Borrowed f)))))
     | c :: s4 =>
          if N.eqb c 101 || N.eqb c 69 then
            let '(eneg, s5) := sign_of s4 in
            let '(x, s6) := digits_span s5 in
            match x, s6 with
            | _ :: _, [] =>
                Some (round_dec p q (negb b) (dec_value (opt_str (option_map Borrowed w) ++ opt_str (option_map Borrowed f)))
                   ((if eneg then - dec_value x else dec_value x) - Z.of_nat (length (opt_str (option_map Borrowed f)))))
            | _, _ => None
            end
          else None end =
     Some (round_dec p q (negb b) (dec_value (opt_str (option_map Borrowed w) ++ opt_str (option_map Borrowed f)))
                     (exp_value x - Z.of_nat (length (opt_str (option_map Borrowed f)))))).
  { destruct Hx as [|e b' sg' d' He Hs' Hd' HD']; [reflexivity|]. cbn [app].
    replace (N.eqb e 101 || N.eqb e 69) with true by (symmetry; destruct He as [->| ->]; reflexivity).
    rewrite (sign_of_eq b' sg' d' Hs').
    2:{ destruct d' as [|c d']; [exact I|]. specialize (HD' c (or_introl eq_refl)). lia. }
    pose proof (digits_span_eq d' [] HD' I) as ED. rewrite app_nil_r in ED. rewrite ED.
    destruct d' as [|c d']; [congruence|]. cbn [exp_value exp_positive exp_digits cow_str]. destruct b'; reflexivity. }
  destruct Hm as [d Hd HD|d f Hd HD HF|f Hf HF]; cbn [option_map opt_str cow_str] in *.
  - rewrite (digits_span_eq d xt HD Hst). rewrite app_nil_r in Hexp.
    assert (E2 : (match xt with [] => ([], []) | c :: s2' => if N.eqb c c_dot then digits_span s2' else ([], xt) end) = (@nil N, xt)).
    { destruct xt as [|c xt']; [reflexivity|]. rewrite (proj2 (N.eqb_neq c c_dot)) by (eapply Hdot; reflexivity). reflexivity. }
    rewrite E2, !app_nil_r. destruct d as [|c d]; [congruence|]. exact Hexp.
  - rewrite <- app_assoc. cbn [app]. rewrite (digits_span_eq d (46%N :: f ++ xt) HD) by reflexivity.
    cbn [N.eqb Pos.eqb]. rewrite (digits_span_eq f xt HF Hst). destruct d as [|c d]; [congruence|]. exact Hexp.
  - cbn [app digits_span]. cbn [N.eqb Pos.eqb]. change (is_dec_digit 46) with false. cbv iota. cbn [N.eqb Pos.eqb].
    rewrite (digits_span_eq f xt HF Hst). cbn [app]. destruct f as [|c f]; [congruence|]. exact Hexp.
Qed.

Lemma float_literal p q n t : NumLit n t ->
  as_float p q n = Some (round_dec p q (negb (num_positive n))
                     (dec_value (opt_str (num_whole n) ++ opt_str (num_fraction n)))
                     (exp_value (num_exponent n) - Z.of_nat (length (opt_str (num_fraction n))))).
Proof. intros H. unfold as_float, float_from_str. rewrite (float_decimal_literal p q n t H). reflexivity. Qed.
Lemma dec_value_value : forall d, Digits d -> dec_value d = Z.of_N (value 10 0 d).
Proof.
  intros d. assert (G : forall d a, Digits d -> fold_left (fun a c => a * 10 + Z.of_N (c - 48)) d (Z.of_N a) = Z.of_N (value 10 a d)).
  { clear d. induction d as [|c d IH]; intros a H; [reflexivity|]. cbn [fold_left value]. rewrite <- IH by (intros y Hy; apply H; right; exact Hy).
    f_equal. rewrite dval_digit by (apply H; left; reflexivity). lia. }
  intros H. exact (G d 0%N H).
Qed.
Lemma value_shift : forall d a, value 10 a d = (a * 10 ^ N.of_nat (length d) + value 10 0 d)%N.
Proof.
  intros d. induction d as [|c d IH] using rev_ind; intros a; [cbn; lia|]. rewrite !value_app. cbn [value]. rewrite (IH a), app_length. cbn [length].
  replace (N.of_nat (length d + 1)) with (N.succ (N.of_nat (length d))) by lia. rewrite N.pow_succ_r'. nia.
Qed.
Open Scope R_scope.
Lemma powerRZ_10 : forall e, (0 <= e)%Z -> powerRZ 10 e = IZR (10 ^ e).
Proof. intros e He. destruct e as [|e|e]; [reflexivity| |lia]. rewrite <- (Z2Nat.id (Z.pos e)) by lia. rewrite <- pow_powerRZ, pow_IZR. f_equal. Qed.

(** The exact decimal value is rounded correctly. *)
Lemma round_dec_correct : forall p x neg m e, (1 < p)%Z -> (p < x)%Z -> (0 <= m)%Z ->
  CorrectlyRounded p x neg ((if neg then -1 else 1) * IZR m * powerRZ 10 e) (round_dec p x neg m e).
Proof.
  intros p x neg m e Hp Hx Hm. destruct m as [|m|m]; [| |lia].
  - replace (_ * 0 * _) with 0 by ring. apply correct_zero; assumption.
  - unfold round_dec. destruct (0 <=? e)%Z eqn:E.
    + apply Z.leb_le in E. pose proof (Z.pow_pos_nonneg 10 e ltac:(lia) E) as Ht.
      destruct (Z.pos m * 10 ^ e)%Z as [|q|q] eqn:Eq; [lia| |lia].
      pose proof (correct_round p x Hp Hx neg q 0) as H. rewrite <- Eq in H. rewrite mult_IZR, <- powerRZ_10 in H by exact E.
      cbn [powerRZ] in H. rewrite Rmult_1_r in H. rewrite Rmult_assoc. exact H.
    + apply Z.leb_gt in E. pose proof (Z.pow_pos_nonneg 10 (- e) ltac:(lia) ltac:(lia)) as Ht.
      destruct (10 ^ (- e))%Z as [|q|q] eqn:Eq; [lia| |lia].
      pose proof (correct_div p x Hp Hx neg m q) as H. rewrite <- Eq in H at 1. rewrite <- powerRZ_10 in H by lia.
      rewrite powerRZ_neg' in H. unfold Rdiv in H. rewrite Rinv_inv in H. rewrite Rmult_assoc. exact H.
Qed.
Lemma Exponent_text : forall x xt, Exponent x xt -> ExponentText xt (exp_value x).
Proof.
  intros x xt [|e b sg d He Hs Hd HD]; [constructor|]. cbn [exp_value exp_positive exp_digits cow_str]. rewrite (dec_value_value d HD). constructor; assumption.
Qed.
Lemma Exponent_of_text : forall xt k, ExponentText xt k -> exists x, Exponent x xt /\ exp_value x = k.
Proof.
  intros xt k [|e b sg d He Hs Hd HD]; [exists None; split; [constructor|reflexivity]|].
  eexists. split; [apply X_some with (b := b); eassumption|]. cbn [exp_value exp_positive exp_digits cow_str]. rewrite (dec_value_value d HD). reflexivity.
Qed.
Lemma Digits_parts : forall w f m, Mantissa w f m -> Digits (part w) /\ Digits (part f).
Proof. intros w f m [d _ Hd|d f' _ Hd Hf|f' _ Hf]; cbn; split; try assumption; intros c []. Qed.
Lemma opt_part : forall o, opt_str (option_map Borrowed o) = part o.
Proof. intros [|]; reflexivity. Qed.
Lemma parts_value : forall w f m k, Mantissa w f m ->
  IZR (dec_value (part w ++ part f)) * powerRZ 10 (k - Z.of_nat (length (part f))) =
  (digits_real (part w) + digits_real (part f) / 10 ^ length (part f)) * powerRZ 10 k.
Proof.
  intros w f m k Hm. apply Digits_parts in Hm as [Hw Hf]. rewrite dec_value_value by (apply Digits_app; assumption).
  rewrite value_app, value_shift. unfold digits_real. set (a := value 10 0 (part w)). set (b := value 10 0 (part f)). set (l := length (part f)).
  rewrite N2Z.inj_add, N2Z.inj_mul, N2Z.inj_pow, plus_IZR, mult_IZR. rewrite nat_N_Z. rewrite <- powerRZ_10 by lia. change (Z.of_N 10) with 10%Z.
  unfold Z.sub. rewrite powerRZ_add by lra. rewrite powerRZ_neg'. rewrite <- pow_powerRZ. field. apply pow_nonzero. lra.
Qed.
Lemma literal_text : forall n t, NumLit n t -> exists v, DecimalText t (negb (num_positive n)) v /\
  forall p x, Format p x -> exists f, as_float p x n = Some f /\ CorrectlyRounded p x (negb (num_positive n)) v f.
Proof.
  intros n t [b sg w f m x xt Hs Hm Hx]. pose proof (NL b sg w f m x xt Hs Hm Hx) as H. cbn [num_positive]. eexists. split.
  - eapply DT; [exact Hs|exact Hm|apply Exponent_text, Hx].
  - intros p q HF. rewrite (float_literal p q _ _ H). eexists. split; [reflexivity|]. cbn [num_positive num_whole num_fraction num_exponent]. rewrite !opt_part.
    rewrite Rmult_assoc, <- (parts_value w f m (exp_value x) Hm), <- Rmult_assoc.
    replace (if b then 1 else -1) with (if negb b then -1 else 1) by (destruct b; reflexivity). apply round_dec_correct.
    + destruct HF as [[-> _]|[-> _]]; lia.
    + destruct HF as [[-> ->]|[-> ->]]; lia.
    + rewrite dec_value_value by (apply Digits_app; apply (Digits_parts w f m Hm)). lia.
Qed.
Lemma text_literal : forall t neg v, DecimalText t neg v -> exists n, NumLit n t.
Proof. intros t neg v [b sg w f m k xt Hs Hm Hx]. apply Exponent_of_text in Hx as (x & Hx & _). eexists. apply NL; eassumption. Qed.

(** ** C91 *)
(** Every decimal text is read as the float of either size that is nearest to its exact
    value: ties to even, overflow to infinity, and the sign kept even for zero. *)
Theorem C91_nearest : forall U p x t neg v, Format p x -> DecimalText t neg v ->
  exists n f, expression_parse U t = OkR (ENumber n) /\ as_float p x n = Some f /\ CorrectlyRounded p x neg v f.
Proof.
  intros U p x t neg v HF H. pose proof H as [b sg w f m k xt Hs Hm Hx]. apply Exponent_of_text in Hx as (y & Hy & <-).
  pose proof (NL b sg w f m y xt Hs Hm Hy) as HL. exists (mk_number (Borrowed (sg ++ m ++ xt)) b (option_map Borrowed w) (option_map Borrowed f) y).
  destruct (C13_number_literal U _ _ HL) as [HE _]. rewrite (float_literal p x _ _ HL). eexists. split; [exact HE|]. split; [reflexivity|].
  cbn [num_positive num_whole num_fraction num_exponent]. rewrite !opt_part.
  rewrite Rmult_assoc, <- (parts_value w f m (exp_value y) Hm), <- Rmult_assoc.
  replace (if b then 1 else -1) with (if negb b then -1 else 1) by (destruct b; reflexivity). apply round_dec_correct.
  + destruct HF as [[-> _]|[-> _]]; lia.
  + destruct HF as [[-> ->]|[-> ->]]; lia.
  + rewrite dec_value_value by (apply Digits_app; apply (Digits_parts w f m Hm)). lia.
Qed.
(** Conversely every number the parser returns has such a text: no other is read. *)
Theorem C91_parsed : forall U p x s n, Format p x -> expression_parse U s = OkR (ENumber n) ->
  exists neg v f, DecimalText (cow_str (num_input n)) neg v /\ as_float p x n = Some f /\ CorrectlyRounded p x neg v f.
Proof.
  intros U p x s n HF H. apply C13_number_text in H as (a & b & _ & HL & _).
  destruct (literal_text n _ HL) as (v & HT & Hr). destruct (Hr p x HF) as (f & Hf & HC). eauto 6.
Qed.
(** These conditions determine the float. *)
Theorem C91_unique : forall p x neg v f g, Format p x -> CorrectlyRounded p x neg v f -> CorrectlyRounded p x neg v g -> f = g.
Proof.
  intros p x neg v f g HF. apply correct_unique; destruct HF as [[-> ->]|[-> ->]]; lia.
Qed.
Print Assumptions C91_nearest.
Print Assumptions C91_parsed.
Print Assumptions C91_unique.

Lemma digits_of : forall d, forallb is_dec_digit d = true -> Digits d.
Proof. intros d H c Hc. rewrite forallb_forall in H. apply dec_digit_spec, H, Hc. Qed.
(** A fraction that no float has, a tie, an overflow, a subnormal and a negative zero. *)
Example C91_nonvacuous :
  (exists v, DecimalText (lit "0.1") false v /\ v = 1 / 10) /\
  (exists v, DecimalText (lit "-0") true v /\ v = 0) /\
  float_from_str 53 1024 (lit "0.1") = Some (S754_finite false 7205759403792794 (-56)) /\
  float_from_str 24 128 (lit "0.1") = Some (S754_finite false 13421773 (-27)) /\
  float_from_str 53 1024 (lit "9007199254740993") = Some (S754_finite false 4503599627370496 1) /\
  float_from_str 53 1024 (lit "1e309") = Some (S754_infinity false) /\
  float_from_str 53 1024 (lit "-5e-324") = Some (S754_finite true 1 (-1074)) /\
  float_from_str 53 1024 (lit "-0") = Some (S754_zero true).
Proof.
  split; [|split; [|repeat split; vm_compute; reflexivity]].
  - eexists. split; [apply (DT true [] (Some (lit "0")) (Some (lit "1")) (lit "0.1") 0 []); [constructor| |constructor]|].
    + apply (M_dec (lit "0") (lit "1")); [discriminate|apply digits_of; reflexivity|apply digits_of; reflexivity].
    + unfold digits_real. cbn. lra.
  - eexists. split; [apply (DT false (lit "-") (Some (lit "0")) None (lit "0") 0 []); [constructor| |constructor]|].
    + apply M_int; [discriminate|apply digits_of; reflexivity].
    + unfold digits_real. cbn. lra.
Qed.

(** A text stands for one number only. *)
Lemma DecimalText_lit : forall t neg v, DecimalText t neg v -> exists n, NumLit n t /\ neg = negb (num_positive n) /\
  v = (if num_positive n then 1 else -1) * (digits_real (opt_str (num_whole n)) + digits_real (opt_str (num_fraction n)) / 10 ^ length (opt_str (num_fraction n)))
        * powerRZ 10 (exp_value (num_exponent n)).
Proof.
  intros t neg v [b sg w f m k xt Hs Hm Hx]. apply Exponent_of_text in Hx as (x & Hx & <-).
  eexists. split; [apply NL; eassumption|]. cbn [num_positive num_whole num_fraction num_exponent]. rewrite !opt_part. split; reflexivity.
Qed.
Definition some_ucd : ucd := ascii_ucd.
Lemma NumLit_unique : forall n n' t, NumLit n t -> NumLit n' t -> n = n'.
Proof. intros n n' t H H'. pose proof (C13_number_literal some_ucd n t H) as [E _]. pose proof (C13_number_literal some_ucd n' t H') as [E' _]. congruence. Qed.
Theorem C91_text_unique : forall t neg v neg' v', DecimalText t neg v -> DecimalText t neg' v' -> neg = neg' /\ v = v'.
Proof.
  intros t neg v neg' v' H H'. apply DecimalText_lit in H as (n & Hn & -> & ->). apply DecimalText_lit in H' as (n' & Hn' & -> & ->).
  rewrite (NumLit_unique n n' t Hn Hn'). split; reflexivity.
Qed.
Print Assumptions C91_text_unique.
Lemma literal_float : forall n t neg v p x, NumLit n t -> DecimalText t neg v -> Format p x ->
  exists f, as_float p x n = Some f /\ CorrectlyRounded p x neg v f.
Proof.
  intros n t neg v p x Hn HT HF. destruct (literal_text n t Hn) as (v' & HT' & Hr). destruct (C91_text_unique _ _ _ _ _ HT HT') as [-> ->]. exact (Hr p x HF).
Qed.
Lemma integer_decimal : forall t z, IntegerText t z -> exists neg, DecimalText t neg (IZR z).
Proof.
  intros t z [b sg d Hs Hd HD]. exists (negb b). pose proof (DT b sg (Some d) None d 0 [] Hs (M_int d Hd HD) ET_none) as H.
  rewrite app_nil_r in H. replace (IZR _) with ((if b then 1 else -1) * (digits_real (part (Some d)) + digits_real (part None) / 10 ^ length (part None)) * powerRZ 10 0); [exact H|].
  unfold digits_real. cbn [part length pow powerRZ value]. destruct b; rewrite ?opp_IZR; cbn; field.
Qed.
(** [value::from_str]: a number is the integer it stands for if an [i64] can hold
    it, and the nearest [f64] otherwise. *)
Theorem C91_value_numbers : forall t neg v, DecimalText t neg v ->
  exists r, NumberValue t r /\
    match r with
    | VInteger z => v = IZR z /\ InRange I64 z
    | VFloat f => CorrectlyRounded 53 1024 neg v f /\ (forall z, IntegerText t z -> ~ InRange I64 z)
    | _ => False
    end.
Proof.
  intros t neg v H. destruct (text_literal t neg v H) as [n Hn]. destruct (literal_float n t neg v 53 1024 Hn H) as (f & Hf & HC); [right; split; reflexivity|].
  destruct (int_from_str I64 t) as [z|] eqn:E.
  - apply int_from_str_spec in E as (H1 & H2 & _). exists (VInteger z). split; [constructor; assumption|]. split; [|exact H2].
    destruct (integer_decimal t z H1) as [neg' H']. apply (C91_text_unique _ _ _ _ _ H H').
  - assert (HN : forall z, IntegerText t z -> ~ InRange I64 z).
    { intros z H1 H2. assert (int_from_str I64 t = Some z) by (apply int_from_str_spec; auto). congruence. }
    exists (VFloat f). split; [|split; assumption]. constructor; [exact HN|]. unfold as_float in Hf. rewrite (NumLit_input n t Hn) in Hf. exact Hf.
Qed.
Print Assumptions C91_value_numbers.
