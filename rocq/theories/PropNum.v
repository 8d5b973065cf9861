(** * Property theorems: numbers (C14-C17) *)
From Coq Require Import SpecFloat.
From Verif Require Import Base Ast Grammar NomFacts Lex NumFacts Parser ExprProofs DocProofs MoreProofs IoSpec NumConv NumSpec NumProofs
  PropSyntax PropLex.
Open Scope Z_scope.

Lemma Sign_chars b sg c : Sign b sg -> In c sg -> c = 43%N \/ c = 45%N.
Proof. intros []; cbn; intuition. Qed.
Lemma signed_no_point n t : NumLit n t ->
  (is_signed n = true <-> (forall c, In c t -> c <> 46%N /\ c <> 101%N /\ c <> 69%N)).
Proof.
  intros H. split.
  - intros Hs. destruct (NumLit_integer n t H Hs) as (z & Hz & _). destruct Hz as [b sg d Hsg _ HD]. intros c Hc.
    apply in_app_iff in Hc as [Hc|Hc].
    + destruct (Sign_chars b sg c Hsg Hc); lia.
    + specialize (HD c Hc). lia.
  - intros Hc. destruct (is_signed n) eqn:E; [reflexivity|exfalso].
    destruct H as [b sg w f m x xt Hs Hm Hx]. unfold is_signed in E. cbn in E.
    destruct Hm as [d Hd HD|d f Hd HD HF|f Hf HF]; cbn in E.
    + destruct Hx as [|e b' sg' d' He Hs' Hd' HD']; [discriminate|].
      assert (Hi : In e (sg ++ d ++ [e] ++ sg' ++ d')) by (rewrite !in_app_iff; cbn; auto).
      specialize (Hc e Hi). destruct He; lia.
    + assert (Hi : In 46%N (sg ++ (d ++ [46%N] ++ f) ++ xt)) by (rewrite !in_app_iff; cbn; auto 6). specialize (Hc _ Hi). lia.
    + assert (Hi : In 46%N (sg ++ ([46%N] ++ f) ++ xt)) by (rewrite !in_app_iff; cbn; auto 6). specialize (Hc _ Hi). lia.
Qed.

(** C14: converting a number written [t] to an integer type gives exactly the integer
    written, if [t] is an integer literal (for unsigned types: without a minus
    sign) in the range of the type; otherwise the conversion is an error. *)
Theorem C14_integer_exact : forall n t ty z, NumLit n t ->
  (as_int ty n = Some z <-> IntegerText t z /\ InRange ty z /\ (Signed ty \/ NoMinus t)).
Proof. intros n t ty z H. unfold as_int. rewrite (NumLit_input n t H). rewrite <- signed_spec; apply int_from_str_spec. Qed.
(** The same for every number, parsed or not: its text decides. *)
Theorem C14_any_number_exact : forall n ty z, as_int ty n = Some z <->
   IntegerText (cow_str (num_input n)) z /\ InRange ty z /\ (Signed ty \/ NoMinus (cow_str (num_input n))).
Proof. intros n ty z. rewrite <- signed_spec. apply int_from_str_spec. Qed.
(** A literal with a fraction or an exponent is never an integer; the value of an
    integer literal is unique. *)
Theorem C14_not_integer : forall n t ty, NumLit n t -> (exists c, In c t /\ (c = 46%N \/ c = 101%N \/ c = 69%N)) ->
  as_int ty n = None.
Proof.
  intros n t ty H (c & Hc & Hp). destruct (as_int ty n) as [z|] eqn:E; [exfalso|reflexivity].
  apply (C14_integer_exact n t ty z H) in E as (Hz & _). destruct Hz as [b sg d Hs _ HD]. apply in_app_iff in Hc as [Hc|Hc].
  - destruct (Sign_chars b sg c Hs Hc); lia.
  - specialize (HD c Hc). lia.
Qed.
Theorem C14_value_unique : forall t z z', IntegerText t z -> IntegerText t z' -> z = z'.
Proof. exact IntegerText_unique. Qed.
Print Assumptions C14_integer_exact.
Print Assumptions C14_any_number_exact.
Print Assumptions C14_not_integer.
Print Assumptions C14_value_unique.
Ltac int_text b sg d := apply (IT b sg d); [constructor|discriminate|let c := fresh in let H := fresh in intros c H; cbn in H; lia].
Example C14_nonvacuous :
  NumLit (mk_number (Borrowed (lit "-128")) false (Some (Borrowed (lit "128"))) None None) (lit "-128") /\
  IntegerText (lit "-128") (-128) /\ InRange I8 (-128) /\
  int_from_str I8 (lit "-128") = Some (-128) /\ int_from_str I8 (lit "128") = None /\
  int_from_str U8 (lit "+255") = Some 255 /\ int_from_str U8 (lit "256") = None /\ int_from_str U8 (lit "-0") = None.
Proof.
  split; [|split; [|repeat split; cbn; lia]].
  - apply (NL false (lit "-") (Some (lit "128")) None (lit "128") None []); constructor; [discriminate|intros c Hc; cbn in Hc; lia].
  - int_text false (lit "-") (lit "128").
Qed.

(** C15: classification by the text of the literal. *)
Theorem C15_classification : forall n t, NumLit n t ->
  (is_signed n = true <-> (forall c, In c t -> c <> 46%N /\ c <> 101%N /\ c <> 69%N)) /\
  (is_float n = true <-> (exists c, In c t /\ (c = 46%N \/ c = 101%N \/ c = 69%N))) /\
  (is_unsigned n = true <-> is_signed n = true /\ NoMinus t) /\
  is_float n = negb (is_signed n).
Proof.
  intros n t H. pose proof (signed_no_point n t H) as Hs. split; [exact Hs|]. split; [|split; [|reflexivity]].
  - unfold is_float. rewrite negb_true_iff. split.
    + intros Hf. destruct (existsb (fun c => N.eqb c 46 || N.eqb c 101 || N.eqb c 69) t) eqn:E.
      * apply existsb_exists in E as (c & Hc & E). exists c. split; [exact Hc|]. lia.
      * exfalso. rewrite (proj2 Hs) in Hf; [discriminate|]. intros c Hc.
        assert (~ (exists x, In x t /\ (N.eqb x 46 || N.eqb x 101 || N.eqb x 69) = true)).
        { rewrite <- existsb_exists, E. discriminate. }
        assert ((N.eqb c 46 || N.eqb c 101 || N.eqb c 69) <> true) by eauto. lia.
    + intros (c & Hc & Hp). destruct (is_signed n); [|reflexivity]. exfalso. apply (proj1 Hs) in Hc; [lia|reflexivity].
  - unfold is_unsigned. rewrite andb_true_iff. destruct (is_signed n) eqn:E.
    + destruct (NumLit_integer n t H E) as (z & _ & Hp). tauto.
    + split; intros [? _]; discriminate.
Qed.
(** An integer literal is one that denotes an integer. *)
Theorem C15_signed_is_integer : forall n t, NumLit n t -> (is_signed n = true <-> exists z, IntegerText t z).
Proof.
  intros n t H. split.
  - intros E. destruct (NumLit_integer n t H E) as (z & Hz & _). eauto.
  - intros (z & Hz). destruct (is_signed n) eqn:E; [reflexivity|]. exfalso. exact (NumLit_float_not_integer n t z H E Hz).
Qed.
Print Assumptions C15_classification.
Print Assumptions C15_signed_is_integer.
Example C15_nonvacuous :
  NumLit (mk_number (Borrowed (lit "-1.")) false (Some (Borrowed (lit "1"))) (Some (Borrowed [])) None) (lit "-1.") /\
  is_float (mk_number (Borrowed (lit "-1.")) false (Some (Borrowed (lit "1"))) (Some (Borrowed [])) None) = true.
Proof.
  split; [|reflexivity].
  apply (NL false (lit "-") (Some (lit "1")) (Some []) (lit "1.") None []); [constructor| |constructor].
  apply (M_dec (lit "1") []); [discriminate|intros c Hc; cbn in Hc; lia|intros c []].
Qed.

(** C16: REFUTED: converting the smallest value of a signed type panics when
    overflow checks are on ([i8::MIN.abs()]). *)
Theorem C16_from_int_refuted : exists ty z, InRange ty z /\ number_from true ty z = None.
Proof. exists I8, (-128). split; [cbn; lia|reflexivity]. Qed.
Theorem C16_min_panics : forall ty, Signed ty -> number_from true ty (least ty) = None.
Proof. intros [] H; apply signed_spec in H; try discriminate H; reflexivity. Qed.
(** What holds: every other value converts, with any setting of overflow checks, to
    a number that converts back to exactly this value in every integer type that can
    represent it (and in no other type), and that is the number the parser returns
    for its text. *)
Theorem C16_round_trip_partial : forall checks ty z, InRange ty z -> (Signed ty -> z <> least ty) ->
  exists n, number_from checks ty z = Some n /\
    (forall ty', InRange ty' z -> as_int ty' n = Some z) /\
    (forall ty', ~ InRange ty' z -> as_int ty' n = None) /\
    (forall U, exists n', expression_parse U (cow_str (num_input n)) = OkR (ENumber n') /\ SameNumber n' n).
Proof.
  intros checks ty z Hr Hmin.
  assert (Hn : number_from checks ty z =
     Some (mk_number (Owned (int_to_string z)) (0 <=? z) (Some (Owned (int_to_string (Z.abs z)))) None None)).
  { unfold number_from, from_sint, int_abs, from_uint. rewrite least_spec. destruct (ty_signed ty) eqn:Et.
    - specialize (Hmin (proj1 (signed_spec _) Et)). rewrite (proj2 (Z.eqb_neq z _) Hmin). reflexivity.
    - apply (unsigned_range _ _ Et) in Hr. rewrite Z.abs_eq by lia. replace (0 <=? z) with true by (symmetry; lia). reflexivity. }
  eexists. split; [exact Hn|]. cbn [num_input cow_str]. unfold as_int. cbn [num_input cow_str].
  split; [|split].
  - intros ty' Hr'. apply int_from_str_spec. split; [apply int_to_string_text|]. split; [exact Hr'|].
    destruct (ty_signed ty') eqn:Et; [auto|]. right. apply int_to_string_nominus. apply (unsigned_range _ _ Et) in Hr'. lia.
  - intros ty' Hr'. destruct (int_from_str ty' (int_to_string z)) as [z'|] eqn:E; [exfalso|reflexivity].
    apply int_from_str_spec in E as (Hz' & Hr'' & _). rewrite (IntegerText_unique _ _ _ (int_to_string_text z) Hz') in Hr'. exact (Hr' Hr'').
  - intros U. destruct (dec_str_spec (Z.abs_N z)) as (H1 & H2 & _).
    assert (Habs : int_to_string (Z.abs z) = dec_str (Z.abs_N z)).
    { unfold int_to_string. replace (Z.abs z <? 0) with false by (symmetry; lia). f_equal. lia. }
    rewrite Habs. unfold int_to_string. destruct (z <? 0) eqn:Ez.
    + replace (0 <=? z) with false by (symmetry; lia).
      pose proof (NL false (lit "-") (Some (dec_str (Z.abs_N z))) None _ None [] Sign_minus (M_int _ H1 H2) X_none) as HL.
      rewrite app_nil_r in HL. apply (C13_number_literal U) in HL as [HL _]. eexists. split; [exact HL|].
      cbn. constructor; try reflexivity; constructor; reflexivity.
    + replace (0 <=? z) with true by (symmetry; lia).
      pose proof (NL true [] (Some (dec_str (Z.abs_N z))) None _ None [] Sign_none (M_int _ H1 H2) X_none) as HL.
      rewrite app_nil_r in HL. cbn [app] in HL. apply (C13_number_literal U) in HL as [HL _]. eexists. split; [exact HL|].
      cbn. constructor; try reflexivity; constructor; reflexivity.
Qed.
(** Without overflow checks the smallest value converts back, but its whole part is
    not the literal's (it keeps the sign). *)
Theorem C16_min_wraps : forall ty, Signed ty -> exists n, number_from false ty (least ty) = Some n /\
  as_int ty n = Some (least ty) /\ num_whole n = Some (num_input n).
Proof.
  intros ty Ht. apply signed_spec in Ht. eexists. split; [|split].
  - unfold number_from, from_sint, int_abs. rewrite least_spec, Ht, Z.eqb_refl. reflexivity.
  - unfold as_int. cbn [num_input cow_str]. apply int_from_str_spec. split; [apply int_to_string_text|]. split; [|auto].
    destruct ty; cbn; try discriminate Ht; lia.
  - reflexivity.
Qed.
Print Assumptions C16_from_int_refuted.
Print Assumptions C16_min_panics.
Print Assumptions C16_round_trip_partial.
Print Assumptions C16_min_wraps.
Example C16_nonvacuous :
  number_from true I16 (-300) = Some (mk_number (Owned (lit "-300")) false (Some (Owned (lit "300"))) None None) /\
  InRange I16 (-300) /\ number_from true U8 0 = Some (mk_number (Owned (lit "0")) true (Some (Owned (lit "0"))) None None).
Proof. split; [reflexivity|]. split; [cbn; lia|reflexivity]. Qed.

(** C17: REFUTED in four ways, each by number literals. *)
Definition parsed (s : string) (n : number_t) : Prop := expression_parse ascii_ucd (lit s) = OkR (ENumber n).
Theorem C17_reflexive_refuted : exists n, parsed "340282366920938463463374607431768211456" n /\ number_eq n n = false.
Proof. eexists. split; [vm_compute; reflexivity|vm_compute; reflexivity]. Qed.
Theorem C17_opposite_sign_refuted : exists a b, parsed "1.5" a /\ parsed "-1.5" b /\ number_eq a b = true.
Proof. do 2 eexists. repeat split; vm_compute; reflexivity. Qed.
Theorem C17_transitive_refuted : exists a b c, parsed "1" a /\ parsed "1.0" b /\ parsed "-1" c /\
  number_eq a b = true /\ number_eq b c = true /\ number_eq a c = false.
Proof. do 3 eexists. repeat split; vm_compute; reflexivity. Qed.
Theorem C17_hash_refuted : exists a b, parsed "1" a /\ parsed "+1" b /\
  number_eq a b = true /\ number_hash_input a <> number_hash_input b.
Proof. do 2 eexists. repeat split; try (vm_compute; reflexivity). vm_compute. congruence. Qed.
(** Distinct large integers compare equal to the same float. *)
Theorem C17_float_merges_integers_refuted : exists a b c, parsed "9007199254740993" a /\ parsed "9007199254740992.0" b /\
  parsed "9007199254740992" c /\ number_eq a b = true /\ number_eq b c = true /\ number_eq a c = false.
Proof. do 3 eexists. repeat split; vm_compute; reflexivity. Qed.

(** What holds. Equality is symmetric, for all numbers. *)
Theorem C17_symmetric_partial : forall a b, number_eq a b = number_eq b a.
Proof. exact number_eq_sym. Qed.
(** It is reflexive exactly on float literals and on integer literals that fit. *)
Theorem C17_reflexive_partial : forall n t, NumLit n t ->
  (number_eq n n = true <->
   is_float n = true \/ exists z, IntegerText t z /\ ((NoMinus t /\ InRange U128 z) \/ (~ NoMinus t /\ InRange I128 z))).
Proof.
  intros n t H. unfold number_eq. destruct (is_float n) eqn:Ef; cbn [orb].
  - destruct (as_f64_some n t H) as (f & -> & Hf). rewrite float_eq_refl by exact Hf. tauto.
  - assert (Es : is_signed n = true) by (unfold is_float in Ef; destruct (is_signed n); [reflexivity|discriminate]).
    destruct (NumLit_integer n t H Es) as (z & Hz & Hp). unfold is_unsigned. rewrite Es. cbn [andb].
    rewrite andb_diag. destruct (num_positive n).
    + destruct (as_int U128 n) as [z'|] eqn:E.
      * apply (C14_integer_exact n t U128 z' H) in E as (H1 & H2 & H3). rewrite Z.eqb_refl. split; [|reflexivity].
        intros _. right. exists z'. split; [exact H1|]. left. tauto.
      * split; [discriminate|]. intros [?|(z' & Hz' & [[Hn Hr]|[Hn Hr]])]; [discriminate| |tauto]. exfalso.
        rewrite (proj2 (C14_integer_exact n t U128 z' H)) in E; [discriminate|]. auto.
    + destruct (as_int I128 n) as [z'|] eqn:E.
      * apply (C14_integer_exact n t I128 z' H) in E as (H1 & H2 & H3). rewrite Z.eqb_refl. split; [|reflexivity].
        intros _. right. exists z'. split; [exact H1|]. right. split; [|exact H2]. intros Hn. apply Hp in Hn. discriminate.
      * split; [discriminate|]. intros [?|(z' & Hz' & [[Hn Hr]|[Hn Hr]])]; [discriminate|apply Hp in Hn; discriminate|]. exfalso.
        rewrite (proj2 (C14_integer_exact n t I128 z' H)) in E; [discriminate|]. auto.
Qed.
(** On integer literals it never identifies different integers, and it does identify
    literals of the same integer whenever that fits an i128 (or, both being written
    without minus sign, an u128); so there it is an equivalence. *)
Theorem C17_integer_equality_partial : forall n t z n' t' z', NumLit n t -> NumLit n' t' ->
  IntegerText t z -> IntegerText t' z' ->
  (number_eq n n' = true -> z = z') /\
  (z = z' -> InRange I128 z \/ (NoMinus t /\ NoMinus t' /\ InRange U128 z) -> number_eq n n' = true).
Proof.
  intros n t z n' t' z' H H' Hz Hz'.
  pose proof (proj2 (C15_signed_is_integer n t H) (ex_intro _ z Hz)) as Es.
  pose proof (proj2 (C15_signed_is_integer n' t' H') (ex_intro _ z' Hz')) as Es'.
  unfold number_eq, is_float, is_unsigned. rewrite Es, Es'. cbn [negb orb andb].
  destruct (NumLit_integer n t H Es) as (_ & _ & Hp). destruct (NumLit_integer n' t' H' Es') as (_ & _ & Hp').
  assert (Huse : forall ty, (as_int ty n = None \/ as_int ty n = Some z) /\ (as_int ty n' = None \/ as_int ty n' = Some z')).
  { intros ty. split.
    - destruct (as_int ty n) as [y|] eqn:E; [right|auto]. apply (C14_integer_exact n t ty y H) in E as (E & _).
      rewrite (IntegerText_unique _ _ _ Hz E). reflexivity.
    - destruct (as_int ty n') as [y|] eqn:E; [right|auto]. apply (C14_integer_exact n' t' ty y H') in E as (E & _).
      rewrite (IntegerText_unique _ _ _ Hz' E). reflexivity. }
  assert (Hiff : forall ty, (match as_int ty n, as_int ty n' with Some us, Some them => us =? them | _, _ => false end) = true ->
                            z = z').
  { intros ty. destruct (Huse ty) as [[E1|E1] [E2|E2]]; rewrite E1; try discriminate; rewrite E2; try discriminate. apply Z.eqb_eq. }
  split.
  - destruct (num_positive n && num_positive n'); apply Hiff.
  - intros <- Hr. destruct (num_positive n && num_positive n') eqn:Ep.
    + apply andb_true_iff in Ep as [E1 E2]. apply Hp in E1. apply Hp' in E2.
      assert (Hr2 : InRange U128 z).
      { destruct Hr as [Hr|(_ & _ & Hr)]; [|exact Hr].
        assert (0 <= z).
        { destruct Hz as [b sg d Hs Hd HD]. destruct Hs; try lia. exfalso. exact (E1 _ eq_refl). }
        unfold InRange in *. cbn in Hr |- *. lia. }
      rewrite (proj2 (C14_integer_exact n t U128 z H)) by auto.
      rewrite (proj2 (C14_integer_exact n' t' U128 z H')) by auto. apply Z.eqb_refl.
    + assert (Hr2 : InRange I128 z).
      { destruct Hr as [Hr|(H1 & H2 & Hr)]; [exact Hr|]. apply Hp in H1. apply Hp' in H2. rewrite H1, H2 in Ep. discriminate. }
      rewrite (proj2 (C14_integer_exact n t I128 z H)) by auto.
      rewrite (proj2 (C14_integer_exact n' t' I128 z H')) by auto. apply Z.eqb_refl.
Qed.
Print Assumptions C17_reflexive_refuted.
Print Assumptions C17_opposite_sign_refuted.
Print Assumptions C17_transitive_refuted.
Print Assumptions C17_hash_refuted.
Print Assumptions C17_float_merges_integers_refuted.
Print Assumptions C17_symmetric_partial.
Print Assumptions C17_reflexive_partial.
Print Assumptions C17_integer_equality_partial.
Example C17_nonvacuous : exists a b c, parsed "0.1" a /\ parsed "1e-1" b /\ parsed "0.2" c /\
  number_eq a b = true /\ number_eq a c = false.
Proof. do 3 eexists. repeat split; vm_compute; reflexivity. Qed.
