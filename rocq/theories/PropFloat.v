(** * PropFloat: C81, numbers made from floats *)
From Coq Require Import ZArith SpecFloat Lia.
From Verif Require Import Base NomFacts Ast Grammar Parser NumConv NumSpec FloatConv NumFacts PropLex IoSpec NumProofs PropNum.
Open Scope Z_scope.

(** The 64 bit reader is the one of C17. *)
Lemma f64_is_float_from_str : forall s, f64_from_str s = float_from_str 53 1024 s.
Proof. reflexivity. Qed.
Lemma as_f64_float : forall n, as_f64 n = as_float 53 1024 n.
Proof. reflexivity. Qed.

(** ** What is assumed of Rust's [Display] for floats (external code) *)
(** A finite float [m * 2^e] is printed as digits, or digits, a point and digits,
    with a minus sign in front if it is negative; without a point exactly if it is a
    whole number; and the text reads back as the float. *)
Definition Whole (m : positive) (e : Z) : Prop := 0 <= e \/ Z.pos m mod 2 ^ (- e) = 0.
Definition text_of (w : str) (f : option str) : str := w ++ match f with Some d => c_dot :: d | None => [] end.
Record ShowsFinite (p x : Z) (show : spec_float -> str) (m : positive) (e : Z) (w : str) (f : option str) : Prop := {
  SF_pos : show (S754_finite false m e) = text_of w f;
  SF_neg : show (S754_finite true m e) = c_minus :: text_of w f;
  SF_whole : w <> [] /\ Digits w;
  SF_frac : match f with Some d => d <> [] /\ Digits d | None => True end;
  SF_point : f = None <-> Whole m e;
  SF_read : float_from_str p x (text_of w f) = Some (S754_finite false m e);
  SF_read_neg : float_from_str p x (c_minus :: text_of w f) = Some (S754_finite true m e) }.

(** The two formats. *)
Definition Format (p x : Z) : Prop := (p = 24 /\ x = 128) \/ (p = 53 /\ x = 1024).
Definition sgn (s : bool) (t : str) : str := if s then c_minus :: t else t.

(** ** Negation by multiplication is exact *)
Lemma digits2_xO : forall m, Z.pos (digits2_pos (xO m)) = Z.pos (digits2_pos m) + 1.
Proof. intros m. cbn [digits2_pos]. lia. Qed.
Lemma binary_round_aux_exact : forall p x s m e, canonical_mantissa p x m e = true -> e <= x - p ->
  binary_round_aux p x s (Z.pos m) e loc_Exact = S754_finite s m e.
Proof.
  intros p x s m e Hc He. unfold canonical_mantissa in Hc. apply Zeq_bool_eq in Hc.
  assert (Hs : forall l, shr_fexp p x (Z.pos m) e l = (shr_record_of_loc (Z.pos m) l, e)).
  { intros l. unfold shr_fexp. cbn [Zdigits2]. rewrite Hc, Z.sub_diag. reflexivity. }
  unfold binary_round_aux. rewrite Hs. cbn. rewrite Hs. cbn. replace (Zle_bool e (x - p)) with true by (symmetry; apply Z.leb_le; lia).
  reflexivity.
Qed.
Lemma mul_minus_one : forall p x s m e, Format p x -> bounded p x m e = true ->
  SFmul p x (S754_finite s m e) (minus_one p) = S754_finite (negb s) m e.
Proof.
  intros p x s m e HF Hb. unfold bounded in Hb. apply andb_prop in Hb as [Hc He]. apply Z.leb_le in He.
  destruct HF as [[-> ->]|[-> ->]]; unfold minus_one.
  - change (Z.to_pos (2 ^ (24 - 1))) with (2 ^ 23)%positive. change (- (24 - 1)) with (-23).
    cbn [SFmul]. rewrite (Bool.xorb_true_r s).
    assert (Hm : (m * 2 ^ 23)%positive = Pos.iter xO m 23) by (cbn; lia).
    rewrite Hm. unfold binary_round_aux.
    assert (Hs : shr_fexp 24 128 (Z.pos (Pos.iter xO m 23)) (e + -23) loc_Exact = (shr_record_of_loc (Z.pos m) loc_Exact, e)).
    { unfold shr_fexp. cbn [Zdigits2]. unfold canonical_mantissa in Hc. apply Zeq_bool_eq in Hc.
      assert (Hd : Z.pos (digits2_pos (Pos.iter xO m 23)) = Z.pos (digits2_pos m) + 23).
      { cbn [Pos.iter]. rewrite !digits2_xO. lia. }
      rewrite Hd. replace (Z.pos (digits2_pos m) + 23 + (e + -23)) with (Z.pos (digits2_pos m) + e) by lia. rewrite Hc.
      replace (e - (e + -23)) with 23 by lia. unfold shr. cbn [iter_pos Pos.iter shr_record_of_loc].
      cbn [shr_1 shr_m shr_r shr_s orb]. replace (e + -23 + 23) with e by lia. reflexivity. }
    rewrite Hs. pose proof (binary_round_aux_exact 24 128 (negb s) m e Hc He) as HB. unfold binary_round_aux in HB.
    unfold canonical_mantissa in Hc. apply Zeq_bool_eq in Hc.
    assert (Hs2 : forall l, shr_fexp 24 128 (Z.pos m) e l = (shr_record_of_loc (Z.pos m) l, e)).
    { intros l. unfold shr_fexp. cbn [Zdigits2]. rewrite Hc, Z.sub_diag. reflexivity. }
    rewrite Hs2 in HB. exact HB.
  - change (Z.to_pos (2 ^ (53 - 1))) with (2 ^ 52)%positive. change (- (53 - 1)) with (-52).
    cbn [SFmul]. rewrite (Bool.xorb_true_r s).
    assert (Hm : (m * 2 ^ 52)%positive = Pos.iter xO m 52) by (cbn; lia).
    rewrite Hm. unfold binary_round_aux.
    assert (Hs : shr_fexp 53 1024 (Z.pos (Pos.iter xO m 52)) (e + -52) loc_Exact = (shr_record_of_loc (Z.pos m) loc_Exact, e)).
    { unfold shr_fexp. cbn [Zdigits2]. unfold canonical_mantissa in Hc. apply Zeq_bool_eq in Hc.
      assert (Hd : Z.pos (digits2_pos (Pos.iter xO m 52)) = Z.pos (digits2_pos m) + 52).
      { cbn [Pos.iter]. rewrite !digits2_xO. lia. }
      rewrite Hd. replace (Z.pos (digits2_pos m) + 52 + (e + -52)) with (Z.pos (digits2_pos m) + e) by lia. rewrite Hc.
      replace (e - (e + -52)) with 52 by lia. unfold shr. cbn [iter_pos Pos.iter shr_record_of_loc].
      cbn [shr_1 shr_m shr_r shr_s orb]. replace (e + -52 + 52) with e by lia. reflexivity. }
    rewrite Hs. pose proof (binary_round_aux_exact 53 1024 (negb s) m e Hc He) as HB. unfold binary_round_aux in HB.
    unfold canonical_mantissa in Hc. apply Zeq_bool_eq in Hc.
    assert (Hs2 : forall l, shr_fexp 53 1024 (Z.pos m) e l = (shr_record_of_loc (Z.pos m) l, e)).
    { intros l. unfold shr_fexp. cbn [Zdigits2]. rewrite Hc, Z.sub_diag. reflexivity. }
    rewrite Hs2 in HB. exact HB.
Qed.

(** ** Splitting at the point *)
Lemma Digits_no_dot : forall d, Digits d -> ~ In c_dot d.
Proof. intros d H Hin. specialize (H _ Hin). lia. Qed.
Lemma split_dot_nodot : forall w, ~ In c_dot w -> split_dot w = [w].
Proof.
  intros w. induction w as [|c w IH]; intros H; [reflexivity|]. cbn [split_dot]. rewrite IH by (intros Hi; apply H; right; exact Hi).
  destruct (N.eqb_spec c c_dot) as [->|_]; [destruct H; left; reflexivity|reflexivity].
Qed.
Lemma split_dot_one : forall w d, ~ In c_dot w -> ~ In c_dot d -> split_dot (w ++ c_dot :: d) = [w; d].
Proof.
  intros w d. induction w as [|c w IH]; intros Hw Hd.
  - cbn [app split_dot]. rewrite (split_dot_nodot d Hd). reflexivity.
  - cbn [app split_dot]. rewrite IH by (try assumption; intros Hi; apply Hw; right; exact Hi).
    destruct (N.eqb_spec c c_dot) as [->|_]; [destruct Hw; left; reflexivity|reflexivity].
Qed.
Lemma split_text : forall w f, Digits w -> match f with Some d => d <> [] /\ Digits d | None => True end ->
  nth_error (split_dot (text_of w f)) 0 = Some w /\ nth_error (split_dot (text_of w f)) 1 = f.
Proof.
  intros w [d|] Hw Hf; unfold text_of.
  - rewrite split_dot_one by (apply Digits_no_dot; tauto). split; reflexivity.
  - rewrite app_nil_r, split_dot_nodot by (apply Digits_no_dot, Hw). split; reflexivity.
Qed.
Lemma leb_zero_finite : forall s m e, SFleb (S754_zero false) (S754_finite s m e) = negb s.
Proof. intros [] m e; reflexivity. Qed.
(** The number made from a finite float, written out. *)
Lemma from_float_finite : forall p x show s m e w f, Format p x -> bounded p x m e = true -> ShowsFinite p x show m e w f ->
  from_float p x show (S754_finite s m e) =
  mk_number (Owned (sgn s (text_of w f))) (negb s) (Some (Owned w)) (option_map Owned f) None.
Proof.
  intros p x show s m e w f HF Hb HS. unfold from_float. rewrite leb_zero_finite, (mul_minus_one p x s m e HF Hb).
  destruct (split_text w f (proj2 (SF_whole _ _ _ _ _ _ _ HS)) (SF_frac _ _ _ _ _ _ _ HS)) as [H0 H1].
  destruct s; cbn [negb]; rewrite (SF_pos _ _ _ _ _ _ _ HS), ?(SF_neg _ _ _ _ _ _ _ HS), H0, H1; reflexivity.
Qed.

(** ** C81 *)
(** A number made from a finite float converts back to exactly that float, has its
    sign, prints as Rust prints the float, and is the number that the parser reads
    from this text. *)
Theorem C81_round_trip : forall p x show s m e w f, Format p x -> bounded p x m e = true -> ShowsFinite p x show m e w f ->
  let n := from_float p x show (S754_finite s m e) in
  as_float p x n = Some (S754_finite s m e) /\ num_positive n = negb s /\ cow_str (num_input n) = show (S754_finite s m e) /\
  forall U, exists n', expression_parse U (show (S754_finite s m e)) = OkR (ENumber n') /\ SameNumber n' n.
Proof.
  intros p x show s m e w f HF Hb HS n. subst n. rewrite (from_float_finite p x show s m e w f HF Hb HS).
  assert (Ht : show (S754_finite s m e) = sgn s (text_of w f)).
  { destruct s; [apply (SF_neg _ _ _ _ _ _ _ HS)|apply (SF_pos _ _ _ _ _ _ _ HS)]. }
  split; [|split; [reflexivity|]; split; [rewrite Ht; reflexivity|]].
  - unfold as_float. cbn [num_input cow_str]. destruct s; cbn [sgn]; [apply (SF_read_neg _ _ _ _ _ _ _ HS)|apply (SF_read _ _ _ _ _ _ _ HS)].
  - intros U. rewrite Ht. destruct (SF_whole _ _ _ _ _ _ _ HS) as [Hw1 Hw2]. pose proof (SF_frac _ _ _ _ _ _ _ HS) as Hf.
    assert (HM : Mantissa (Some w) f (text_of w f)).
    { destruct f as [d|]; unfold text_of; [apply M_dec; tauto|rewrite app_nil_r; apply M_int; assumption]. }
    destruct s.
    + pose proof (NL false (lit "-") (Some w) f _ None [] Sign_minus HM X_none) as HL. rewrite app_nil_r in HL.
      apply (C13_number_literal U) in HL as [HL _]. eexists. split; [exact HL|]. cbn. constructor; try reflexivity; [constructor; reflexivity|destruct f; constructor; reflexivity|constructor].
    + pose proof (NL true [] (Some w) f _ None [] Sign_none HM X_none) as HL. rewrite app_nil_r in HL. cbn [app] in HL.
      apply (C13_number_literal U) in HL as [HL _]. eexists. split; [exact HL|]. cbn. constructor; try reflexivity; [constructor; reflexivity|destruct f; constructor; reflexivity|constructor].
Qed.
(** It is classified as a float exactly if it is not a whole number ... *)
Theorem C81_classification : forall p x show s m e w f, Format p x -> bounded p x m e = true -> ShowsFinite p x show m e w f ->
  (is_float (from_float p x show (S754_finite s m e)) = true <-> ~ Whole m e) /\
  (is_unsigned (from_float p x show (S754_finite s m e)) = true <-> Whole m e /\ s = false).
Proof.
  intros p x show s m e w f HF Hb HS. rewrite (from_float_finite p x show s m e w f HF Hb HS).
  pose proof (SF_point _ _ _ _ _ _ _ HS) as [H1 H2]. unfold is_float, is_unsigned, is_signed. cbn [num_fraction num_exponent num_positive].
  destruct f as [d|]; cbn.
  - split; [split; [intros _ H; apply H2 in H; discriminate|reflexivity]|]. split; [discriminate|intros [H _]; apply H2 in H; discriminate].
  - split; [split; [discriminate|intros H; destruct H; apply H1; reflexivity]|]. rewrite Bool.negb_true_iff. split; [intros H; split; [apply H1; reflexivity|exact H]|tauto].
Qed.
(** ... so, REFUTED: numbers made from floats are floats.  [Number::from(1.0)] is an
    unsigned integer, and so is infinity, which no integer type can hold. *)
Definition ascii_show (f : spec_float) : str :=
  match f with
  | S754_finite false 6755399441055744 (-52) => lit "1.5"
  | S754_finite true 6755399441055744 (-52) => lit "-1.5"
  | S754_finite false 4503599627370496 (-52) => lit "1"
  | S754_finite true 4503599627370496 (-52) => lit "-1"
  | S754_infinity false => lit "inf"
  | S754_infinity true => lit "-inf"
  | S754_nan => lit "NaN"
  | _ => lit "0"
  end.
Lemma digits_one : Digits (lit "1").
Proof. intros c [<-|[]]. cbn. lia. Qed.
Lemma digits_five : Digits (lit "5").
Proof. intros c [<-|[]]. cbn. lia. Qed.
Lemma shows_one : ShowsFinite 53 1024 ascii_show 4503599627370496 (-52) (lit "1") None.
Proof.
  split; try (vm_compute; reflexivity); [split; [discriminate|exact digits_one]|].
  split; [intros _; right; reflexivity|reflexivity].
Qed.
Lemma shows_one_and_half : ShowsFinite 53 1024 ascii_show 6755399441055744 (-52) (lit "1") (Some (lit "5")).
Proof.
  split; try (vm_compute; reflexivity); [split; [discriminate|exact digits_one]|split; [discriminate|exact digits_five]|].
  split; [discriminate|intros [H|H]; [lia|vm_compute in H; discriminate]].
Qed.
Theorem C81_float_stays_float_refuted : exists show m e w f, bounded 53 1024 m e = true /\ ShowsFinite 53 1024 show m e w f /\
  is_unsigned (from_f64 show (S754_finite false m e)) = true.
Proof.
  exists ascii_show, 4503599627370496%positive, (-52), (lit "1"), None. split; [reflexivity|]. split; [exact shows_one|]. vm_compute. reflexivity.
Qed.
(** Infinities and NaN, which Rust prints [inf], [-inf] and [NaN], pass for integers
    but convert to no integer type; [as_f32] and [as_f64] give them back. *)
Theorem C81_nonfinite : forall p x show ty, (forall b, show (S754_infinity b) = sgn b (lit "inf")) -> show S754_nan = lit "NaN" ->
  (forall b, let n := from_float p x show (S754_infinity b) in
     is_signed n = true /\ is_float n = false /\ num_positive n = negb b /\ as_int ty n = None /\ as_float p x n = Some (S754_infinity b)) /\
  (let n := from_float p x show S754_nan in
     is_signed n = true /\ is_float n = false /\ num_positive n = false /\ as_int ty n = None /\ as_float p x n = Some S754_nan).
Proof.
  intros p x show ty Hi Hn. split.
  - intros b n. subst n. unfold from_float. destruct b; cbn [SFleb SFcompare SFmul minus_one xorb]; rewrite !Hi; repeat split; destruct ty; reflexivity.
  - intros n. subst n. unfold from_float. cbn [SFleb SFcompare SFmul]. rewrite !Hn. repeat split; destruct ty; reflexivity.
Qed.
(** Zeros: whatever Rust prints for the negative one ([-0] or [0], depending on its
    version), the number is positive and an unsigned integer, and reads as a zero. *)
Theorem C81_zero : forall p x show b, show (S754_zero false) = lit "0" ->
  (show (S754_zero true) = lit "0" \/ show (S754_zero true) = lit "-0") ->
  let n := from_float p x show (S754_zero b) in
  is_unsigned n = true /\ (exists b', as_float p x n = Some (S754_zero b')) /\ as_int I64 n = Some 0.
Proof.
  intros p x show b H0 H1 n. subst n. unfold from_float. cbn [SFleb SFcompare].
  destruct b; [destruct H1 as [H1|H1]|]; rewrite ?H0, ?H1; (split; [reflexivity|]); (split; [eexists; reflexivity|reflexivity]).
Qed.
Example C81_nonvacuous : bounded 53 1024 6755399441055744 (-52) = true /\
  ShowsFinite 53 1024 ascii_show 6755399441055744 (-52) (lit "1") (Some (lit "5")) /\
  from_f64 ascii_show (S754_finite true 6755399441055744 (-52)) =
    mk_number (Owned (lit "-1.5")) false (Some (Owned (lit "1"))) (Some (Owned (lit "5"))) None.
Proof. split; [reflexivity|]. split; [exact shows_one_and_half|]. vm_compute. reflexivity. Qed.
Print Assumptions C81_round_trip.
Print Assumptions C81_classification.
Print Assumptions C81_float_stays_float_refuted.
Print Assumptions C81_nonfinite.
Print Assumptions C81_zero.
