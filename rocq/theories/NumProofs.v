(** * NumProofs: lemmas on number conversions *)
From Coq Require Import SpecFloat.
From Verif Require Import Base Ast Grammar NomFacts Lex NumFacts NumConv NumSpec MoreProofs.
Open Scope Z_scope.

Lemma checked_spec t z z' : checked t z = Some z' <-> z = z' /\ ty_min t <= z <= ty_max t.
Proof.
  unfold checked. destruct ((ty_min t <=? z) && (z <=? ty_max t)) eqn:E; split.
  - intros [= <-]. lia.
  - intros [<- _]. reflexivity.
  - discriminate.
  - lia.
Qed.
Lemma InRange_spec t z : InRange t z <-> ty_min t <= z <= ty_max t.
Proof. destruct t; reflexivity. Qed.
Lemma signed_spec t : ty_signed t = true <-> Signed t.
Proof. unfold Signed. destruct t; cbn; split; intros H; try reflexivity; try discriminate H; auto 6; repeat destruct H as [H|H]; discriminate H. Qed.
Lemma signed_I128 : Signed I128.
Proof. apply signed_spec. reflexivity. Qed.
Lemma signed_I64 : Signed I64.
Proof. apply signed_spec. reflexivity. Qed.
Lemma signed_I32 : Signed I32.
Proof. apply signed_spec. reflexivity. Qed.
Global Hint Resolve signed_I128 signed_I64 signed_I32 : core.
Lemma least_spec t : ty_min t = least t.
Proof. destruct t; reflexivity. Qed.
Lemma unsigned_range t z : ty_signed t = false -> InRange t z -> 0 <= z.
Proof. destruct t; cbn; intros H [H1 _]; try discriminate H; exact H1. Qed.
Lemma min_le_0 t : ty_min t <= 0.
Proof. destruct t; cbn; lia. Qed.
Lemma max_ge_0 t : 0 < ty_max t.
Proof. destruct t; cbn; lia. Qed.

Lemma value_app b a x y : value b a (x ++ y) = value b (value b a x) y.
Proof. revert a. induction x as [|c x IH]; intros a; cbn; [reflexivity|apply IH]. Qed.
Lemma value_ge a s : (a <= value 10 a s)%N.
Proof. revert a. induction s as [|c s IH]; intros a; cbn [value]; [lia|]. specialize (IH (10 * a + dval c)%N). lia. Qed.
Lemma dval_digit c : (48 <= c <= 57)%N -> dval c = (c - 48)%N.
Proof. intros H. unfold dval. replace (c <=? 57)%N with true by (symmetry; lia). reflexivity. Qed.

Definition sgn (neg : bool) (z : Z) : Z := if neg then - z else z.

Lemma parse_digits_spec t neg s : forall a z,
  ty_min t <= sgn neg (Z.of_N a) <= ty_max t ->
  parse_digits t neg (sgn neg (Z.of_N a)) s = Some z <->
  Digits s /\ z = sgn neg (Z.of_N (value 10 a s)) /\ ty_min t <= z <= ty_max t.
Proof.
  induction s as [|c s IH]; intros a z Ha; cbn [parse_digits value].
  - split; [intros [= <-]; split; [intros ? []|auto]|intros (_ & -> & _); reflexivity].
  - pose proof (min_le_0 t) as Hmn. pose proof (max_ge_0 t) as Hmx.
    destruct (is_dec_digit c) eqn:Ec.
    2:{ split; [discriminate|]. intros (Hd & _). exfalso. specialize (Hd c (or_introl eq_refl)). unfold is_dec_digit in Ec. lia. }
    assert (Hc : (48 <= c <= 57)%N) by (unfold is_dec_digit in Ec; lia).
    rewrite dval_digit by exact Hc.
    assert (Enext : (if neg then sgn neg (Z.of_N a) * 10 - Z.of_N (c - 48) else sgn neg (Z.of_N a) * 10 + Z.of_N (c - 48))
                    = sgn neg (Z.of_N (10 * a + (c - 48)))) by (destruct neg; cbn [sgn]; lia).
    assert (HD : Digits (c :: s) <-> Digits s).
    { split; [intros H x Hx; apply H; right; exact Hx|intros H x [<-|Hx]; [exact Hc|apply H, Hx]]. }
    rewrite HD.
    pose proof (value_ge (10 * a + (c - 48)) s) as Hge.
    destruct (checked t (sgn neg (Z.of_N a) * 10)) as [a1|] eqn:E1.
    + apply checked_spec in E1 as [<- E1]. rewrite Enext.
      destruct (checked t (sgn neg (Z.of_N (10 * a + (c - 48))))) as [a2|] eqn:E2.
      * apply checked_spec in E2 as [<- E2]. apply IH. exact E2.
      * split; [discriminate|]. intros (_ & -> & Hr). exfalso.
        assert (checked t (sgn neg (Z.of_N (10 * a + (c - 48)))) = Some (sgn neg (Z.of_N (10 * a + (c - 48))))).
        { apply checked_spec. split; [reflexivity|]. destruct neg; cbn [sgn] in *; lia. }
        congruence.
    + split; [discriminate|]. intros (_ & -> & Hr). exfalso.
      assert (checked t (sgn neg (Z.of_N a) * 10) = Some (sgn neg (Z.of_N a) * 10)).
      { apply checked_spec. split; [reflexivity|]. destruct neg; cbn [sgn] in *; lia. }
      congruence.
Qed.

Lemma parse_digits_0 t neg s z :
  parse_digits t neg 0 s = Some z <->
  Digits s /\ z = sgn neg (Z.of_N (value 10 0 s)) /\ ty_min t <= z <= ty_max t.
Proof.
  pose proof (min_le_0 t) as Hmn. pose proof (max_ge_0 t) as Hmx.
  pose proof (parse_digits_spec t neg s 0%N z) as H. destruct neg; cbn [sgn Z.of_N] in H; apply H; lia.
Qed.

Lemma IntegerText_sign s z : IntegerText s z -> exists c s', s = c :: s'.
Proof. intros [b sg d Hs Hd _]. destruct Hs; cbn; eauto. destruct d; [congruence|eauto]. Qed.

Lemma int_from_str_spec t s z :
  int_from_str t s = Some z <->
  IntegerText s z /\ InRange t z /\ (ty_signed t = true \/ NoMinus s).
Proof.
  rewrite InRange_spec. split.
  - destruct s as [|c s']; [discriminate|]. unfold int_from_str.
    destruct (N.eqb_spec c c_plus) as [->|Hp].
    + destruct s' as [|c' s']; [discriminate|]. intros H. apply parse_digits_0 in H as (Hd & -> & Hr). cbn [sgn] in *.
      split; [|split; [exact Hr|right; intros t' E; discriminate]].
      apply (IT true [43]%N (c' :: s')); [constructor|discriminate|exact Hd].
    + destruct (N.eqb_spec c c_minus) as [->|Hm]; cbn [andb].
      * destruct (ty_signed t) eqn:Et.
        -- destruct s' as [|c' s']; [discriminate|]. intros H. apply parse_digits_0 in H as (Hd & -> & Hr). cbn [sgn] in *.
           split; [|split; [exact Hr|left; reflexivity]].
           apply (IT false [45]%N (c' :: s')); [constructor|discriminate|exact Hd].
        -- intros H. apply parse_digits_0 in H as (Hd & _). specialize (Hd 45%N (or_introl eq_refl)). lia.
      * intros H. apply parse_digits_0 in H as (Hd & -> & Hr). cbn [sgn] in *.
        split; [|split; [exact Hr|right; intros t' E; congruence]].
        apply (IT true [] (c :: s')); [constructor|discriminate|exact Hd].
  - intros (H & Hr & Hs). destruct H as [b sg d Hsg Hd HD].
    destruct Hsg; cbn [app]; unfold int_from_str.
    + destruct d as [|c d]; [congruence|]. specialize (HD c (or_introl eq_refl)) as Hc.
      replace (N.eqb c c_plus) with false by (symmetry; apply N.eqb_neq; lia).
      replace (N.eqb c c_minus) with false by (symmetry; apply N.eqb_neq; lia). cbn [andb].
      apply parse_digits_0. auto.
    + cbn [N.eqb Pos.eqb]. destruct d as [|c d]; [congruence|]. apply parse_digits_0. auto.
    + cbn [N.eqb Pos.eqb andb]. destruct Hs as [Hs|Hs]; [|exfalso; exact (Hs d eq_refl)]. rewrite Hs.
      destruct d as [|c d]; [congruence|]. apply parse_digits_0. auto.
Qed.

(** ** Decimal printing *)
Lemma dec_loop_spec fuel : forall n acc, (n < 2 ^ N.of_nat fuel)%N -> (0 < fuel)%nat ->
  exists d, dec_loop fuel n acc = d ++ acc /\ d <> [] /\ Digits d /\ value 10 0 d = n /\
    (n = 0%N -> d = [48%N]) /\ (n <> 0%N -> forall d', d <> 48%N :: d').
Proof.
  induction fuel as [|f IH]; intros n acc Hn Hf; [lia|]. cbn [dec_loop].
  assert (Hm : (n mod 10 < 10)%N) by (apply N.mod_lt; lia).
  assert (Hdm : (n = 10 * (n / 10) + n mod 10)%N) by (apply N.div_mod'; lia).
  assert (HD : Digits [(48 + n mod 10)%N]) by (intros x [<-|[]]; lia).
  set (q := (n / 10)%N) in *. set (m := (n mod 10)%N) in *. clearbody q m.
  destruct (q =? 0)%N eqn:E.
  - apply N.eqb_eq in E. exists [(48 + m)%N]. split; [reflexivity|]. split; [discriminate|]. split; [exact HD|]. cbn [value].
    rewrite dval_digit by lia. split; [lia|]. split.
    + intros E0. f_equal. lia.
    + intros Hn0 d' E1. apply (f_equal (hd 0%N)) in E1. cbn [hd] in E1. lia.
  - apply N.eqb_neq in E. assert (Hf0 : (0 < f)%nat).
    { destruct f; [|lia]. change (2 ^ N.of_nat 1)%N with 2%N in Hn. lia. }
    assert (Hlt : (q < 2 ^ N.of_nat f)%N).
    { rewrite Nnat.Nat2N.inj_succ, N.pow_succ_r' in Hn. lia. }
    destruct (IH q ((48 + m)%N :: acc) Hlt Hf0) as (d & Ed & Hd & HDd & Hv & _ & Hz).
    exists (d ++ [(48 + m)%N]). rewrite Ed, <- app_assoc. split; [reflexivity|].
    split; [intros H; apply app_eq_nil in H as [_ H]; discriminate|].
    split; [apply Digits_app; assumption|]. rewrite value_app, Hv. cbn [value]. rewrite dval_digit by lia.
    split; [lia|]. split; [lia|]. intros _ d' H. destruct d as [|c d]; [congruence|]. injection H as -> _.
    apply (Hz ltac:(lia) d). reflexivity.
Qed.

Lemma dec_str_spec n :
  dec_str n <> [] /\ Digits (dec_str n) /\ value 10 0 (dec_str n) = n /\
  (n = 0%N -> dec_str n = [48%N]) /\ (n <> 0%N -> forall d', dec_str n <> 48%N :: d').
Proof.
  destruct (dec_loop_spec (S (N.size_nat n)) n []) as (d & E & H1 & H2 & H3 & H4 & H5).
  - destruct n as [|p]; [cbn; lia|]. rewrite Nnat.Nat2N.inj_succ, N.pow_succ_r'.
    assert (Hs : (N.pos p < 2 ^ N.of_nat (N.size_nat (N.pos p)))%N).
    { cbn [N.size_nat]. clear.
      induction p as [p IH|p IH|]; cbn [Pos.size_nat]; rewrite ?Nnat.Nat2N.inj_succ, ?N.pow_succ_r'; [lia|lia|cbn; lia]. }
    lia.
  - lia.
  - unfold dec_str. rewrite E, app_nil_r. auto.
Qed.

Lemma int_to_string_text z : IntegerText (int_to_string z) z.
Proof.
  unfold int_to_string. destruct (dec_str_spec (Z.abs_N z)) as (H1 & H2 & H3 & _). destruct (z <? 0) eqn:E.
  - pose proof (IT false [45]%N (dec_str (Z.abs_N z)) Sign_minus H1 H2) as H. rewrite H3 in H. cbn [app] in H.
    replace (- Z.of_N (Z.abs_N z)) with z in H by lia. exact H.
  - pose proof (IT true [] (dec_str (Z.abs_N z)) Sign_none H1 H2) as H. rewrite H3 in H. cbn [app] in H.
    replace (Z.of_N (Z.abs_N z)) with z in H by lia. exact H.
Qed.
Lemma int_to_string_nominus z : 0 <= z -> NoMinus (int_to_string z).
Proof.
  intros Hz t' E. unfold int_to_string in E. replace (z <? 0) with false in E by (symmetry; lia).
  destruct (dec_str_spec (Z.abs_N z)) as (_ & H2 & _). rewrite E in H2. specialize (H2 45%N (or_introl eq_refl)). lia.
Qed.
Lemma IntegerText_unique t z z' : IntegerText t z -> IntegerText t z' -> z = z'.
Proof.
  intros H H'. destruct H as [b sg d Hs Hd HD]. remember (sg ++ d) as t eqn:E. destruct H' as [b' sg' d' Hs' Hd' HD'].
  assert (b = b' /\ d = d') as [<- <-]; [|reflexivity].
  destruct d as [|c d]; [congruence|]. destruct d' as [|c' d']; [congruence|].
  pose proof (HD c (or_introl eq_refl)). pose proof (HD' c' (or_introl eq_refl)).
  destruct Hs, Hs'; cbn in E; injection E as ? ?; subst; try lia; auto; try (split; congruence).
Qed.

(** ** Literals and their integer value *)
Lemma NumLit_integer n t : NumLit n t -> is_signed n = true -> exists z, IntegerText t z /\
  (num_positive n = true <-> NoMinus t).
Proof.
  intros [b sg w f m x xt Hs Hm Hx]. unfold is_signed. cbn. destruct Hm as [d Hd HD|d f Hd HD HF|f Hf HF]; cbn; try discriminate.
  destruct Hx as [|e b' sg' d' He Hs' Hd' HD']; cbn; [|discriminate]. intros _. rewrite app_nil_r.
  eexists. split; [apply (IT b sg d Hs Hd HD)|]. unfold NoMinus. destruct Hs; cbn; split; intros H; try discriminate; auto.
  - intros t' E. destruct d as [|c d]; [congruence|]. injection E as -> ->. specialize (HD 45%N (or_introl eq_refl)). lia.
  - exfalso. exact (H _ eq_refl).
Qed.
Lemma NumLit_float_not_integer n t z : NumLit n t -> is_signed n = false -> ~ IntegerText t z.
Proof.
  intros [b sg w f m x xt Hs Hm Hx] Hn H.
  assert (Hin : exists c, In c (sg ++ m ++ xt) /\ (c = 46%N \/ c = 101%N \/ c = 69%N)).
  { unfold is_signed in Hn. destruct Hm as [d Hd HD|d f Hd HD HF|f Hf HF]; cbn in Hn.
    - destruct Hx as [|e b' sg' d' He Hs' Hd' HD']; [discriminate|]. exists e. split.
      + rewrite !in_app_iff. right. right. left. left. reflexivity.
      + destruct He as [->| ->]; auto.
    - exists 46%N. split; [rewrite !in_app_iff; cbn; auto 10|auto].
    - exists 46%N. split; [rewrite !in_app_iff; cbn; auto 10|auto]. }
  destruct Hin as (c & Hin & Hc). destruct H as [b0 sg0 d0 Hs0 Hd0 HD0] eqn:EH. clear EH.
  apply in_app_iff in Hin as [Hin|Hin].
  - destruct Hs0; cbn in Hin; intuition; subst; lia.
  - specialize (HD0 c Hin). destruct Hc as [->|[->| ->]]; lia.
Qed.

(** ** Floats *)
Lemma SFeqb_sym a b : SFeqb a b = SFeqb b a.
Proof.
  unfold SFeqb, SFcompare. destruct a as [sa|sa| |sa ma ea], b as [sb|sb| |sb mb eb]; try reflexivity;
    try (destruct sa; reflexivity); try (destruct sb; reflexivity); try (destruct sa, sb; reflexivity).
  destruct sa, sb; try reflexivity; rewrite (Z.compare_antisym ea eb); destruct (ea ?= eb); cbn; try reflexivity;
  change Pos.compare_cont with Pos.compare_cont; fold (Pos.compare ma mb) (Pos.compare mb ma);
  rewrite (Pos.compare_antisym ma mb); destruct (Pos.compare ma mb); reflexivity.
Qed.
Lemma SFeqb_refl a : a <> S754_nan -> SFeqb a a = true.
Proof.
  unfold SFeqb, SFcompare. destruct a as [s|s| |s m e]; intros H; try congruence; try (destruct s; reflexivity).
  destruct s; rewrite Z.compare_refl; fold (Pos.compare m m); rewrite Pos.compare_refl; reflexivity.
Qed.
Lemma SFadd_comm a b : SFabs a = a -> SFabs b = b -> SFadd 53 1024 a b = SFadd 53 1024 b a.
Proof.
  destruct a as [sa|sa| |sa ma ea], b as [sb|sb| |sb mb eb]; cbn [SFabs]; intros Ha Hb; try (injection Ha as <-); try (injection Hb as <-); try reflexivity.
  unfold SFadd. rewrite (Z.min_comm eb ea), Z.add_comm. reflexivity.
Qed.
Lemma SFabs_round_aux s m e l : SFabs (binary_round_aux 53 1024 s m e l) = SFabs (binary_round_aux 53 1024 (negb s) m e l).
Proof.
  unfold binary_round_aux. destruct (shr_fexp 53 1024 m e l) as [mrs e']. destruct (shr_fexp _ _ _ _ _) as [mrs' e''].
  destruct (shr_m mrs'); [reflexivity| |reflexivity]. destruct (Zle_bool _ _); reflexivity.
Qed.
Lemma SFabs_sub_sym a b : SFabs a = a -> SFabs b = b -> SFabs (SFsub 53 1024 a b) = SFabs (SFsub 53 1024 b a).
Proof.
  destruct a as [sa|sa| |sa ma ea], b as [sb|sb| |sb mb eb]; cbn [SFabs]; intros Ha Hb; try (injection Ha as <-); try (injection Hb as <-); try reflexivity.
  unfold SFsub. rewrite (Z.min_comm eb ea). cbn [cond_Zopp]. generalize (Z.min ea eb). intros ez.
  generalize (Z.pos (fst (shl_align ma ea ez))) (Z.pos (fst (shl_align mb eb ez))). intros x y.
  replace (y - x) with (- (x - y)) by lia. destruct (x - y) as [|p|p]; cbn; [reflexivity| |];
    unfold binary_round; destruct (shl_align p ez _) as [mz ez']; [apply (SFabs_round_aux false)|apply (SFabs_round_aux true)].
Qed.
Lemma SFabs_idem a : SFabs (SFabs a) = SFabs a.
Proof. destruct a; reflexivity. Qed.
Lemma float_eq_sym a b : float_eq a b = float_eq b a.
Proof.
  unfold float_eq. rewrite (SFeqb_sym (SFabs a) (SFabs b)).
  rewrite (SFabs_sub_sym (SFabs a) (SFabs b)) by apply SFabs_idem.
  rewrite (SFadd_comm (SFabs a) (SFabs b)) by apply SFabs_idem.
  rewrite (orb_comm (SFeqb (SFabs a) (S754_zero false))). reflexivity.
Qed.
Lemma number_eq_sym a b : number_eq a b = number_eq b a.
Proof.
  unfold number_eq. rewrite (orb_comm (is_float a)), (andb_comm (is_unsigned a)).
  destruct (is_float b || is_float a).
  - destruct (as_f64 a), (as_f64 b); auto using float_eq_sym.
  - destruct (is_unsigned b && is_unsigned a).
    + destruct (as_int U128 a), (as_int U128 b); auto using Z.eqb_sym.
    + destruct (as_int I128 a), (as_int I128 b); auto using Z.eqb_sym.
Qed.
Lemma float_eq_refl a : a <> S754_nan -> float_eq a a = true.
Proof. intros H. unfold float_eq. rewrite SFeqb_refl; [reflexivity|]. destruct a; cbn; congruence. Qed.

(** Rounding a non-negative quantity never gives NaN. *)
Lemma iter_shr_nonneg p : forall r, 0 <= shr_m r -> 0 <= shr_m (SpecFloat.iter_pos shr_1 p r).
Proof.
  assert (H1 : forall r, 0 <= shr_m r -> 0 <= shr_m (shr_1 r)).
  { intros [m a b]. cbn. destruct m as [|[q|q|]|q]; cbn; lia. }
  induction p as [p IH|p IH|]; intros r Hr; cbn [SpecFloat.iter_pos]; auto.
Qed.
Lemma shr_fexp_nonneg m e l : 0 <= m -> 0 <= shr_m (fst (shr_fexp 53 1024 m e l)).
Proof.
  intros Hm. unfold shr_fexp, shr.
  assert (Hl : 0 <= shr_m (shr_record_of_loc m l)) by (destruct l as [|[]]; cbn; exact Hm).
  destruct (fexp 53 1024 (Zdigits2 m + e) - e); cbn [fst]; auto using iter_shr_nonneg.
Qed.
Lemma round_aux_not_nan s m e l : 0 <= m -> binary_round_aux 53 1024 s m e l <> S754_nan.
Proof.
  intros Hm. unfold binary_round_aux. pose proof (shr_fexp_nonneg m e l Hm) as H1.
  destruct (shr_fexp 53 1024 m e l) as [mrs e']. cbn [fst] in H1.
  assert (H2 : 0 <= round_nearest_even (shr_m mrs) (loc_of_shr_record mrs)).
  { unfold round_nearest_even. destruct (loc_of_shr_record mrs) as [|[]]; try lia. destruct (Z.even _); lia. }
  pose proof (shr_fexp_nonneg _ e' loc_Exact H2) as H3. destruct (shr_fexp 53 1024 _ e' loc_Exact) as [mrs' e'']. cbn [fst] in H3.
  destruct (shr_m mrs') as [|p|p]; [discriminate| |lia]. destruct (Zle_bool _ _); discriminate.
Qed.
Lemma round_decimal_not_nan neg m e : round_decimal neg m e <> S754_nan.
Proof.
  unfold round_decimal. destruct m as [|p|p]; try discriminate. destruct (0 <=? e) eqn:E.
  - destruct (Z.pos p * 10 ^ e) as [|q|q]; try discriminate. unfold binary_round. destruct (shl_align q 0 _) as [mz ez].
    apply round_aux_not_nan. lia.
  - destruct (SFdiv_core_binary 53 1024 (Z.pos p) 0 (10 ^ (- e)) 0) as [[mz ez] lz] eqn:ED. apply round_aux_not_nan.
    unfold SFdiv_core_binary in ED. set (e' := Z.min _ _) in ED. set (m' := match _ with Z0 => _ | Zpos _ => _ | Zneg _ => _ end) in ED.
    assert (Hm' : 0 <= m').
    { unfold m'. destruct (0 - 0 - e'); try lia. apply Z.shiftl_nonneg. lia. }
    assert (Hp : 0 < 10 ^ (- e)) by (apply Z.pow_pos_nonneg; lia).
    pose proof (Z.div_pos m' (10 ^ (- e)) Hm' Hp) as Hq. unfold Z.div in Hq.
    destruct (Z.div_eucl m' (10 ^ (- e))) as [q r]. injection ED as <- _ _. exact Hq.
Qed.

Lemma digits_span_eq d r : Digits d -> stops is_dec_digit r -> digits_span (d ++ r) = (d, r).
Proof.
  intros Hd Hr. induction d as [|c d IH]; cbn [app digits_span].
  - destruct r as [|c r]; [reflexivity|]. cbn in Hr |- *. rewrite Hr. reflexivity.
  - rewrite (proj2 (dec_digit_spec c)) by (apply Hd; left; reflexivity). rewrite IH; [reflexivity|].
    intros x Hx. apply Hd. right. exact Hx.
Qed.
Lemma sign_of_eq b sg r : Sign b sg -> match r with c :: _ => c <> 43%N /\ c <> 45%N | [] => True end ->
  sign_of (sg ++ r) = (negb b, r).
Proof.
  intros [] Hr; cbn; try reflexivity. destruct r as [|c r]; [reflexivity|]. unfold sign_of.
  destruct Hr as [H1 H2]. rewrite (proj2 (N.eqb_neq c 43)), (proj2 (N.eqb_neq c 45)) by assumption. reflexivity.
Qed.

(** The value [as_f64] gives a literal: its digits, without the point, as an integer
    scaled by the exponent minus the number of decimals, correctly rounded. *)
Definition opt_str (o : option cow) : str := match o with Some c => cow_str c | None => [] end.
Definition exp_value (o : option exponent_t) : Z :=
  match o with
  | Some x => if exp_positive x then dec_value (cow_str (exp_digits x)) else - dec_value (cow_str (exp_digits x))
  | None => 0
  end.
Lemma as_decimal_literal n t : NumLit n t ->
  f64_decimal (cow_str (num_input n)) = Some (round_decimal (negb (num_positive n))
                     (dec_value (opt_str (num_whole n) ++ opt_str (num_fraction n)))
                     (exp_value (num_exponent n) - Z.of_nat (length (opt_str (num_fraction n))))).
Proof.
  intros [b sg w f m x xt Hs Hm Hx]. cbn [num_input cow_str num_positive num_whole num_fraction num_exponent].
  unfold f64_decimal.
  assert (Hm0 : match m ++ xt with c :: _ => c <> 43%N /\ c <> 45%N | [] => True end).
  { destruct Hm as [d Hd HD|d f Hd HD HF|f Hf HF]; cbn; try lia; destruct d as [|c d]; try congruence; cbn;
      specialize (HD c (or_introl eq_refl)); lia. }
  rewrite (sign_of_eq b sg _ Hs Hm0).
  assert (Hxt : stops is_dec_digit xt /\ (forall c r, xt = c :: r -> c <> 46%N)).
  { destruct Hx as [|e b' sg' d' He Hs' Hd' HD']; [split; [exact I|discriminate]|]. cbn [app]. split.
    - cbn. unfold is_dec_digit. destruct He as [->| ->]; reflexivity.
    - intros c r [= <- _]. destruct He as [->| ->]; lia. }
  destruct Hxt as [Hst Hdot].
  assert (Hexp : match xt with
     | [] => Some (round_decimal (negb b) (dec_value (opt_str (option_map Borrowed w) ++ opt_str (option_map Borrowed f)))
                     (- Z.of_nat (length (opt_str (option_map Borrowed f)))))
     | c :: s4 =>
          if N.eqb c 101 || N.eqb c 69 then
            let '(eneg, s5) := sign_of s4 in
            let '(x, s6) := digits_span s5 in
            match x, s6 with
            | _ :: _, [] =>
                Some (round_decimal (negb b) (dec_value (opt_str (option_map Borrowed w) ++ opt_str (option_map Borrowed f)))
                   ((if eneg then - dec_value x else dec_value x) - Z.of_nat (length (opt_str (option_map Borrowed f)))))
            | _, _ => None
            end
          else None end =
     Some (round_decimal (negb b) (dec_value (opt_str (option_map Borrowed w) ++ opt_str (option_map Borrowed f)))
                     (exp_value x - Z.of_nat (length (opt_str (option_map Borrowed f)))))).
  { destruct Hx as [|e b' sg' d' He Hs' Hd' HD']; [reflexivity|]. cbn [app].
    replace (N.eqb e 101 || N.eqb e 69) with true by (symmetry; destruct He as [->| ->]; reflexivity).
    rewrite (sign_of_eq b' sg' d' Hs').
    2:{ destruct d' as [|c d']; [exact I|]. specialize (HD' c (or_introl eq_refl)). lia. }
    pose proof (digits_span_eq d' [] HD' I) as ED. rewrite app_nil_r in ED. rewrite ED.
    destruct d' as [|c d']; [congruence|]. cbn [exp_value exp_positive exp_digits cow_str]. destruct b'; reflexivity. }
  destruct Hm as [d Hd HD|d f Hd HD HF|f Hf HF]; cbn [option_map opt_str cow_str] in *.
  - rewrite (digits_span_eq d xt HD Hst). rewrite app_nil_r in Hexp.
    assert (E2 : (match xt with [] => ([], []) | c :: s2' => if N.eqb c c_dot then digits_span s2' else ([], xt) end) = (@nil N, xt)).
    { destruct xt as [|c xt']; [reflexivity|]. rewrite (proj2 (N.eqb_neq c c_dot)) by (eapply Hdot; reflexivity). reflexivity. }
    rewrite E2, !app_nil_r. destruct d as [|c d]; [congruence|]. exact Hexp.
  - rewrite <- app_assoc. cbn [app]. rewrite (digits_span_eq d (46%N :: f ++ xt) HD) by reflexivity.
    cbn [N.eqb Pos.eqb]. rewrite (digits_span_eq f xt HF Hst). destruct d as [|c d]; [congruence|]. exact Hexp.
  - cbn [app digits_span]. cbn [N.eqb Pos.eqb]. change (is_dec_digit 46) with false. cbv iota. cbn [N.eqb Pos.eqb].
    rewrite (digits_span_eq f xt HF Hst). cbn [app]. destruct f as [|c f]; [congruence|]. exact Hexp.
Qed.
Lemma as_f64_literal n t : NumLit n t ->
  as_f64 n = Some (round_decimal (negb (num_positive n))
                     (dec_value (opt_str (num_whole n) ++ opt_str (num_fraction n)))
                     (exp_value (num_exponent n) - Z.of_nat (length (opt_str (num_fraction n))))).
Proof. intros H. unfold as_f64, f64_from_str. rewrite (as_decimal_literal n t H). reflexivity. Qed.
Lemma as_f64_some n t : NumLit n t -> exists f, as_f64 n = Some f /\ f <> S754_nan.
Proof. intros H. eexists. split; [apply (as_f64_literal n t H)|apply round_decimal_not_nan]. Qed.
