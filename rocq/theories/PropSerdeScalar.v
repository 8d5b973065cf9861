(** * PropSerdeScalar: C92, what float and byte targets get *)
From Coq Require Import ZArith Reals Lra SpecFloat Lia.
From Verif Require Import Base NomFacts Ast Blocks NumConv NumSpec FloatConv FloatSpec FloatProofs IoSpec Utf8 Grammar Parser NumProofs PropNum Serde SerdeSpec SerdeProofs PropSerde PropIo PropFloat PropFloatRead.
Open Scope Z_scope.

(** ** Rounding *)
Lemma of_Z_correct : forall p x z, 1 < p -> p < x -> CorrectlyRounded p x (z <? 0) (IZR z) (binary_normalize p x z 0 false).
Proof.
  intros p x z Hp Hx. destruct z as [|q|q]; cbn [binary_normalize].
  - apply correct_zero; assumption.
  - pose proof (correct_round p x Hp Hx false q 0) as H. cbn [powerRZ] in H. rewrite Rmult_1_r, Rmult_1_l in H. exact H.
  - pose proof (correct_round p x Hp Hx true q 0) as H. cbn [powerRZ] in H. rewrite Rmult_1_r in H.
    assert (E : IZR (Z.neg q) = (-1 * IZR (Z.pos q))%R) by (change (Z.neg q) with (- Z.pos q); rewrite opp_IZR; lra).
    rewrite E. exact H.
Qed.
Lemma f32_of_f64_narrow : forall f, Narrowed f (f32_of_f64 f).
Proof.
  intros [s|s| |s m e]; cbn [Narrowed f32_of_f64]; try reflexivity.
  - apply correct_zero; lia.
  - destruct s; cbn [binary_normalize]; apply (correct_round 24 128 ltac:(lia) ltac:(lia)).
Qed.

(** ** C92 *)
(** The float targets take numbers only ... *)
Theorem C92_only_numbers : forall ord, Order ord -> forall t e d, t = TF64 \/ t = TF32 ->
  deserialize ord t (SExpr e) = DeOk d -> exists n f, e = ENumber n /\ d = DFloat f.
Proof.
  intros ord Ho t e d Ht H. rewrite deserialize_eq in H by exact Ho. destruct e as [|n|b|[s|s]|l|l]; destruct Ht as [-> | ->]; cbn in H; try discriminate;
    (exists n; unfold number_event in H; destruct (is_float n); [destruct (as_f64 n) as [f|]|destruct (is_signed n); [destruct (as_int I64 n) as [z|]|destruct (as_int U64 n) as [z|]]];
     cbn in H; try discriminate; injection H as <-; eauto).
Qed.
Lemma float_visit : forall ord, Order ord -> forall n t, NumLit n t ->
  (forall z, IntegerText t z -> InRange I64 z ->
     deserialize ord TF64 (SExpr (ENumber n)) = DeOk (DFloat (f64_of_Z z)) /\ deserialize ord TF32 (SExpr (ENumber n)) = DeOk (DFloat (f32_of_Z z))) /\
  (forall z, IntegerText t z -> ~ InRange I64 z ->
     deserialize ord TF64 (SExpr (ENumber n)) = DeErr EParseInt /\ deserialize ord TF32 (SExpr (ENumber n)) = DeErr EParseInt) /\
  ((forall z, ~ IntegerText t z) -> forall f, as_f64 n = Some f ->
     deserialize ord TF64 (SExpr (ENumber n)) = DeOk (DFloat f) /\ deserialize ord TF32 (SExpr (ENumber n)) = DeOk (DFloat (f32_of_f64 f))).
Proof.
  intros ord Ho n t Hn. rewrite !deserialize_eq by exact Ho. cbn [call method_of expr_call expr_any]. unfold number_event, is_float.
  destruct (is_signed n) eqn:Es; cbn [negb].
  - destruct (NumLit_integer n t Hn Es) as (z & Hz & _).
    split; [|split].
    + intros z' Hz' Hr. assert (E : as_int I64 n = Some z') by (apply (C14_integer_exact n t I64 z' Hn); auto). rewrite E. split; reflexivity.
    + intros z' Hz' Hr. destruct (as_int I64 n) as [y|] eqn:E; [|split; reflexivity].
      apply (C14_integer_exact n t I64 y Hn) in E as (Hy & Hr' & _). rewrite (C14_value_unique t z' y Hz' Hy) in Hr. contradiction.
    + intros Hno. destruct (Hno z Hz).
  - split; [|split].
    + intros z Hz. destruct (NumLit_float_not_integer n t z Hn Es Hz).
    + intros z Hz. destruct (NumLit_float_not_integer n t z Hn Es Hz).
    + intros _ f ->. split; reflexivity.
Qed.
(** ... an [f64] gets the nearest one to the number: of an integer if an [i64] can hold
    it (a minus sign of zero is lost), an error if not, and of everything else. *)
Theorem C92_f64 : forall ord, Order ord -> forall n t neg v, NumLit n t -> DecimalText t neg v ->
  (forall z, IntegerText t z -> InRange I64 z ->
     exists f, deserialize ord TF64 (SExpr (ENumber n)) = DeOk (DFloat f) /\ CorrectlyRounded 53 1024 (z <? 0) v f) /\
  (forall z, IntegerText t z -> ~ InRange I64 z -> deserialize ord TF64 (SExpr (ENumber n)) = DeErr EParseInt) /\
  ((forall z, ~ IntegerText t z) ->
     exists f, deserialize ord TF64 (SExpr (ENumber n)) = DeOk (DFloat f) /\ CorrectlyRounded 53 1024 neg v f).
Proof.
  intros ord Ho n t neg v Hn HT. destruct (float_visit ord Ho n t Hn) as (H1 & H2 & H3). split; [|split].
  - intros z Hz Hr. exists (f64_of_Z z). split; [apply (H1 z Hz Hr)|]. destruct (integer_decimal t z Hz) as [neg' HT'].
    destruct (C91_text_unique _ _ _ _ _ HT HT') as [_ ->]. apply of_Z_correct; lia.
  - intros z Hz Hr. apply (H2 z Hz Hr).
  - intros Hno. destruct (literal_float n t neg v 53 1024 Hn HT) as (f & Hf & HC); [right; split; reflexivity|].
    exists f. split; [apply (H3 Hno f Hf)|exact HC].
Qed.
(** An [f32] gets the nearest one to an integer; of everything else, what the nearest
    [f64] becomes when it is narrowed. *)
Theorem C92_f32 : forall ord, Order ord -> forall n t neg v, NumLit n t -> DecimalText t neg v ->
  (forall z, IntegerText t z -> InRange I64 z ->
     exists f, deserialize ord TF32 (SExpr (ENumber n)) = DeOk (DFloat f) /\ CorrectlyRounded 24 128 (z <? 0) v f) /\
  (forall z, IntegerText t z -> ~ InRange I64 z -> deserialize ord TF32 (SExpr (ENumber n)) = DeErr EParseInt) /\
  ((forall z, ~ IntegerText t z) ->
     exists f g, deserialize ord TF32 (SExpr (ENumber n)) = DeOk (DFloat g) /\ CorrectlyRounded 53 1024 neg v f /\ Narrowed f g).
Proof.
  intros ord Ho n t neg v Hn HT. destruct (float_visit ord Ho n t Hn) as (H1 & H2 & H3). split; [|split].
  - intros z Hz Hr. exists (f32_of_Z z). split; [apply (H1 z Hz Hr)|]. destruct (integer_decimal t z Hz) as [neg' HT'].
    destruct (C91_text_unique _ _ _ _ _ HT HT') as [_ ->]. apply of_Z_correct; lia.
  - intros z Hz Hr. apply (H2 z Hz Hr).
  - intros Hno. destruct (literal_float n t neg v 53 1024 Hn HT) as (f & Hf & HC); [right; split; reflexivity|].
    exists f, (f32_of_f64 f). split; [apply (H3 Hno f Hf)|]. split; [exact HC|apply f32_of_f64_narrow].
Qed.
(** REFUTED: an [f32] target gets the [f32] nearest to the number, which is what
    [Number::as_f32] gives.  It is rounded twice: this number, a little more than half way
    from 1 to the next [f32], becomes 1. *)
Definition twice : str := lit "1.000000059604644775390625000000000001".
Theorem C92_f32_rounds_twice : forall U ord, Order ord -> exists n v f g, expression_parse U twice = OkR (ENumber n) /\ DecimalText twice false v /\
  deserialize ord TF32 (SExpr (ENumber n)) = DeOk (DFloat f) /\ as_f32 n = Some g /\ CorrectlyRounded 24 128 false v g /\ ~ CorrectlyRounded 24 128 false v f.
Proof.
  intros U ord Ho.
  assert (HM : Mantissa (Some (lit "1")) (Some (lit "000000059604644775390625000000000001")) twice).
  { apply (M_dec (lit "1") (lit "000000059604644775390625000000000001")); [discriminate|apply digits_of; reflexivity|apply digits_of; reflexivity]. }
  pose proof (DT true [] _ _ _ 0 [] Sign_none HM ET_none) as HT. rewrite app_nil_r in HT. cbn [app negb] in HT.
  pose proof (NL true [] _ _ _ None [] Sign_none HM X_none) as HL. rewrite app_nil_r in HL. cbn [app] in HL.
  pose proof (PropLex.C13_number_literal U _ _ HL) as [HE _]. destruct (literal_float _ _ _ _ 24 128 HL HT) as (g & Hg & HC); [left; split; reflexivity|].
  eexists _, _, (S754_finite false 8388608 (-23)), g. split; [exact HE|]. split; [exact HT|]. split.
  - rewrite deserialize_eq by exact Ho. cbn [call method_of expr_call expr_any]. vm_compute. reflexivity.
  - split; [exact Hg|]. split; [exact HC|]. intros HC'. pose proof (C91_unique 24 128 _ _ _ _ (or_introl (conj eq_refl eq_refl)) HC HC') as E. subst g.
    vm_compute in Hg. discriminate.
Qed.
(** Bytes: of a string its UTF-8 encoding; of a tuple its elements, read as [u8]; nothing
    else is taken. *)
Theorem C92_bytes : forall ord, Order ord -> forall e d, deserialize ord TBytes (SExpr e) = DeOk d <->
  (exists s, e = EString s /\ d = DBytes (utf8 (cow_str s))) \/
  (exists l bs, e = ETuple l /\ d = DBytes bs /\ Forall2 (fun x b => deserialize ord (TInt U8) (SExpr x) = DeOk (DInt (Z.of_N b))) l bs).
Proof.
  intros ord Ho e d. rewrite deserialize_eq by exact Ho.
  assert (HT : forall l, visit (deserialize ord) TBytes (VSeq (map SExpr l)) = DeOk d <->
     exists bs, d = DBytes bs /\ Forall2 (fun x b => deserialize ord (TInt U8) (SExpr x) = DeOk (DInt (Z.of_N b))) l bs).
  { intros l. cbn [visit]. rewrite dmap_ok. split.
    - intros (ds & H & ->). exists (map byte_of ds). split; [reflexivity|]. apply seq_all_ok in H. apply Forall2_map_l in H.
      induction H as [|x y l ds Hx _ IH]; [constructor|]. cbn [map]. constructor; [|exact IH].
      rewrite Hx. f_equal.
      assert (Hd : exists z, y = DInt z /\ 0 <= z).
      { rewrite deserialize_eq in Hx by exact Ho. destruct x as [|n|b|[s|s]|l'|l']; cbn in Hx; try discriminate.
        unfold number_event in Hx. destruct (is_float n); [destruct (as_f64 n); discriminate|].
        assert (HC : forall z, match checked U8 z with Some z => DeOk (DInt z) | None => DeErr (ECustom CInvalidValue) end = DeOk y -> exists z, y = DInt z /\ 0 <= z).
        { intros z Hc. destruct (checked U8 z) as [z1|] eqn:E; [|discriminate]. apply checked_range in E as [-> Hr]. injection Hc as <-. exists z. split; [reflexivity|]. cbn in Hr. lia. }
        destruct (is_signed n); [destruct (as_int I64 n) as [z|]|destruct (as_int U64 n) as [z|]]; cbn in Hx; try discriminate; apply (HC z Hx). }
      destruct Hd as (z & -> & Hz). cbn [byte_of]. rewrite Z2N.id by exact Hz. reflexivity.
    - intros (bs & -> & H). exists (map (fun b => DInt (Z.of_N b)) bs). split.
      + apply seq_all_ok, Forall2_map_l. induction H; constructor; assumption.
      + rewrite map_map. cbn [byte_of]. f_equal. rewrite <- (map_id bs) at 1. apply map_ext. intros b. symmetry. apply N2Z.id. }
  destruct e as [|n|b|[s|s]|l|l]; cbn [call method_of expr_call expr_any string_event].
  1: cbn; split; [discriminate|intros [(? & [=] & _)|(? & ? & [=] & _)]].
  1: unfold number_event; split; [|intros [(? & [=] & _)|(? & ? & [=] & _)]].
  1: destruct (is_float n); [destruct (as_f64 n)|destruct (is_signed n); [destruct (as_int I64 n)|destruct (as_int U64 n)]]; discriminate.
  1: cbn; split; [discriminate|intros [(? & [=] & _)|(? & ? & [=] & _)]].
  1: cbn; split; [intros [= <-]; left; eexists; split; reflexivity|intros [(? & [= <-] & ->)|(? & ? & [=] & _)]; reflexivity].
  1: cbn; split; [intros [= <-]; left; eexists; split; reflexivity|intros [(? & [= <-] & ->)|(? & ? & [=] & _)]; reflexivity].
  - rewrite HT. split; [intros (bs & -> & H); right; eauto|intros [(? & [=] & _)|(? & bs & [= <-] & -> & H)]; eauto].
  - cbn. split; [discriminate|intros [(? & [=] & _)|(? & ? & [=] & _)]].
Qed.
Print Assumptions C92_only_numbers.
Print Assumptions C92_f64.
Print Assumptions C92_f32.
Print Assumptions C92_f32_rounds_twice.
Print Assumptions C92_bytes.
Example C92_nonvacuous :
  (exists n, parsed "0.1" n /\ deserialize id_ord TF32 (SExpr (ENumber n)) = DeOk (DFloat (S754_finite false 13421773 (-27)))) /\
  (exists n, parsed "16777217" n /\ deserialize id_ord TF32 (SExpr (ENumber n)) = DeOk (DFloat (S754_finite false 8388608 1))) /\
  (exists n, parsed "-0" n /\ deserialize id_ord TF64 (SExpr (ENumber n)) = DeOk (DFloat (S754_zero false))) /\
  deserialize id_ord TBytes (SExpr (EString (Owned [233%N; 97%N]))) = DeOk (DBytes [195%N; 169%N; 97%N]).
Proof.
  split; [|split; [|split]].
  1-3: eexists; split; [vm_compute; reflexivity|]; vm_compute; reflexivity.
  vm_compute. reflexivity.
Qed.
