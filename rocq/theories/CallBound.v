(** * CallBound: how many calls [value::from_str] can make at most, whatever the text *)
From Verif Require Import Base Nom NomFacts Ast Lex Grammar WsFacts NumFacts StrFacts HeredocFacts Parser ParserFacts ExprProofs BodyProofs NumConv Utf8 Kvp Value OldParser OldFacts OldGrammar OldProofs CallCount CallProofs.
From Coq Require Import Lia Arith.
Local Open Scope nat_scope.

Section Bound.
Variable U : ucd.
(** A budget for each text: one call per character, and twice the budget of what follows a "{" *)
Variable P : str -> nat.
Hypothesis P0 : forall s, 1 <= P s.
Hypothesis P1 : forall r s, suffix r s -> P r + length s <= P s + length r.
Hypothesis P2 : forall t s, suffix (123%N :: t) s -> length t + 2 <= length s -> 1 + 2 * P t <= P s.
Hypothesis P3 : forall t s, suffix (123%N :: t) s -> length t + 3 <= length s -> 2 + 2 * P t <= P s.

Definition VB (pv : cparser Value.value) : Prop := forall s, snd (pv s) <= P s + 1 /\ forall t, ws_rest s = 123%N :: t -> snd (pv s) <= P t + 1.
Definition MB (pm : cparser mapvalues) : Prop := forall s, snd (pm s) <= P s.

Lemma P_ws s : P (ws_rest s) <= P s.
Proof. pose proof (P1 _ _ (ws_rest_suffix s)). pose proof (ws_len s). lia. Qed.
Lemma P_iws s : P (iws_rest s) <= P s.
Proof. pose proof (P1 _ _ (iws_rest_suffix s)). pose proof (iws_len s). lia. Qed.

Lemma map_bound pm s t : MB pm -> ws_rest s = 123%N :: t -> snd (cmap_expression pm s) <= P t.
Proof.
  intros Hm E. rewrite cmap_expression_eq, E, char_p_eq, cterminated_lift_snd, cws_m_snd.
  specialize (Hm (ws_rest t)). pose proof (P_ws t). lia.
Qed.
Lemma map_none pm s : (forall t, ws_rest s <> 123%N :: t) -> snd (cmap_expression pm s) = 0.
Proof. intros H. destruct (Nat.eq_dec (snd (cmap_expression pm s)) 0) as [E|E]; [exact E|]. apply cmap_expression_zero in E as [t E]. destruct (H t E). Qed.

Lemma sep_bound {A B} (sep : parser B) (p : cparser A) : wf sep -> (forall s r v, fst (p s) = Ok r v -> suffix r s) -> (forall s, PaidOk (p s) s) -> (forall s, snd (p s) <= P s + 1) ->
  forall f s, snd (csep_loop f sep p s) <= P s + 1.
Proof.
  intros Ws Wp Hp Hb. induction f as [|f IH]; intros s; cbn [csep_loop]; [cbn; lia|].
  pose proof (Ws s) as Hs. destruct (sep s) as [s2 w| | | |]; cbn [fst snd]; try lia.
  pose proof (P1 _ _ Hs) as H1. apply suffix_len in Hs. destruct (length s2 =? length s); cbn [snd]; [lia|].
  pose proof (Hb s2) as H2. pose proof (Hp s2) as H3. pose proof (Wp s2) as H4. unfold PaidOk in H3. destruct (p s2) as [[r v| | | |] n]; cbn [fst snd] in *; try lia.
  destruct (length r =? length s2); cbn [snd]; [lia|]. specialize (H3 _ _ eq_refl). specialize (IH r). specialize (H4 _ _ eq_refl). pose proof (P1 _ _ H4). apply suffix_len in H4. lia.
Qed.
Lemma separated_bound {A B} (sep : parser B) (p : cparser A) : wf sep -> (forall s r v, fst (p s) = Ok r v -> suffix r s) -> (forall s, PaidOk (p s) s) -> (forall s, snd (p s) <= P s + 1) ->
  forall s, snd (cseparated_list sep p s) <= P s + 1.
Proof.
  intros Ws Wp Hp Hb s. unfold cseparated_list. pose proof (Hb s) as H2. pose proof (Hp s) as H3. pose proof (Wp s) as H4. unfold PaidOk in H3.
  destruct (p s) as [[r v| | | |] n]; cbn [fst snd] in *; try lia. destruct (length r =? length s); cbn [snd]; [lia|].
  specialize (H3 _ _ eq_refl). specialize (H4 _ _ eq_refl). pose proof (sep_bound sep p Ws Wp Hp Hb (S (length r)) r). pose proof (P1 _ _ H4). apply suffix_len in H4. lia.
Qed.
Lemma many0_bound {A} (p : cparser A) : (forall s r v, fst (p s) = Ok r v -> suffix r s) -> (forall s, PaidOk (p s) s) -> (forall s, snd (p s) + 1 <= P s) ->
  forall f s, snd (cmany0_loop f p s) + 1 <= P s.
Proof.
  intros Wp Hp Hb. induction f as [|f IH]; intros s; cbn [cmany0_loop]; [cbn; apply P0|].
  pose proof (Hb s) as H2. pose proof (Hp s) as H3. pose proof (Wp s) as H4. unfold PaidOk in H3.
  destruct (p s) as [[r v| | | |] n]; cbn [fst snd] in *; try lia. destruct (str_eqb r s); cbn [snd]; [lia|].
  specialize (H3 _ _ eq_refl). specialize (IH r). specialize (H4 _ _ eq_refl). pose proof (P1 _ _ H4). apply suffix_len in H4. lia.
Qed.

(** What the counted parsers leave is an end of what they were given *)
Lemma sv_suffix f s r v : fst (fst (cold_f U f) s) = Ok r v -> suffix r s.
Proof.
  rewrite (proj1 (er_old_f U f) s). intros H. pose proof (proj1 (ple_old U f) s) as Hp. rewrite H in Hp. destruct Hp as [Hp|Hp]; [discriminate|].
  pose proof (wf_single_value U s) as Hg. rewrite <- Hp in Hg. exact Hg.
Qed.

Lemma list_bound f s : VB (fst (cold_f U f)) -> snd (cvlist (fst (cold_f U f)) s) <= P s /\ ((forall t, s <> 91%N :: t) -> snd (cvlist (fst (cold_f U f)) s) = 0).
Proof.
  intros Hv. rewrite cvlist_eq. destruct (char_p c_lbracket s) as [t b| | | |] eqn:E; cbn [snd]; try (split; [lia|reflexivity]).
  apply char_p_ok in E as [-> _]. split; [|intros H; destruct (H t eq_refl)]. rewrite cterminated_lift_snd, cws_m_snd.
  assert (Ht : P t + 1 <= P (c_lbracket :: t)) by (assert (X : suffix t (c_lbracket :: t)) by (exists [c_lbracket]; reflexivity); pose proof (P1 _ _ X); cbn [length] in *; lia).
  enough (snd (cseparated_list (wrap whitespace (char_p c_comma)) (cwrap whitespace (fst (cold_f U f))) t) <= P t + 1) by lia.
  apply separated_bound.
  - apply wf_wrap_ws, wf_char.
  - intros s r v. rewrite cwrap_ws. intros H. eapply suffix_trans; [eapply sv_suffix, H|apply ws_rest_suffix].
  - intros s. rewrite cwrap_ws. pose proof (proj1 (proj1 (cold_paid U f)) (ws_rest s)) as H. pose proof (ws_len s). intros r v Hr. specialize (H _ _ Hr). lia.
  - intros s. rewrite cwrap_ws. pose proof (proj1 (Hv (ws_rest s))). pose proof (P_ws s). lia.
Qed.
Lemma value_bound f : VB (fst (cold_f U f)) -> MB (snd (cold_f U f)) -> VB (fst (cold_f U (S f))).
Proof.
  intros Hv Hm s. rewrite cold_f_S. cbn [fst]. unfold tick, csingle_value_step, add. rewrite !calt_lift.
  set (pv := fst (cold_f U f)) in *. set (pm := snd (cold_f U f)) in *.
  repeat match goal with |- context[match ?y s with _ => _ end] => destruct (y s) end; cbn [fst snd]; try (split; intros; lia).
  destruct (list_bound f s Hv) as [L1 L2]. fold pv in L1, L2.
  assert (HL : snd (cvlist pv s) <> 0 -> exists t, s = 91%N :: t).
  { intros H. destruct s as [|c t]; [destruct H; apply L2; discriminate|]. destruct (N.eq_dec c 91) as [->|Hc]; [eauto|]. destruct H. apply L2. congruence. }
  assert (HM : snd (cmap_expression pm s) + 1 <= P s \/ snd (cmap_expression pm s) = 0).
  { destruct (Nat.eq_dec (snd (cmap_expression pm s)) 0) as [E|E]; [auto|]. left. apply cmap_expression_zero in E as [t Et].
    pose proof (map_bound pm s t Hm Et). assert (X : suffix t s). { eapply suffix_trans; [|apply ws_rest_suffix]. rewrite Et. exists [123%N]. reflexivity. }
    pose proof (P1 _ _ X). pose proof (ws_len s) as Hl. rewrite Et in Hl. cbn [length] in Hl. lia. }
  unfold calt, cpmap. split.
  - destruct (Nat.eq_dec (snd (cvlist pv s)) 0) as [E|E].
    + destruct (cvlist pv s) as [[| | | |] n1]; cbn [fst snd map_res bind add] in *; lia.
    + apply HL in E as [t ->]. assert (Z : snd (cmap_expression pm (91%N :: t)) = 0) by (apply map_none; intros u; rewrite ws_rest_stop by discriminate; discriminate).
      destruct (cvlist pv (91%N :: t)) as [[| | | |] n1]; cbn [fst snd map_res bind add] in *; lia.
  - intros t Et. pose proof (map_bound pm s t Hm Et) as B.
    assert (E : snd (cvlist pv s) = 0) by (apply L2; intros u ->; rewrite ws_rest_stop in Et by discriminate; discriminate).
    destruct (cvlist pv s) as [[| | | |] n1]; cbn [fst snd map_res bind add] in *; lia.
Qed.
Lemma map_suffix x t : ws_rest x = 123%N :: t -> suffix (123%N :: t) x.
Proof. intros <-. apply ws_rest_suffix. Qed.
Lemma attr_bound f s : VB (fst (cold_f U f)) -> MB (snd (cold_f U f)) -> snd (cold_attribute U (fst (cold_f U f)) (snd (cold_f U f)) s) + 1 <= P s.
Proof.
  intros Hv Hm. set (pv := fst (cold_f U f)) in *. set (pm := snd (cold_f U f)) in *. unfold cold_attribute. rewrite ciws_m_snd.
  pose proof (iws_len s) as Hl. pose proof (iws_rest_suffix s) as Sl. pose proof (P0 s) as H0. unfold calt, lift. rewrite !wrap_iws.
  assert (EK : literal_key U (iws_rest s) = match identifier U (iws_rest s) with
    | Ok r1 i => Ok r1 (KeyIdent (cow_str i)) | Err => pmap KeyString string_literal (iws_rest s) | Fail q => Fail q | Panic => Panic | OutOfFuel => OutOfFuel end).
  { unfold literal_key, alt, pmap. destruct (identifier U (iws_rest s)); reflexivity. }
  rewrite EK. clear EK. pose proof (wf_identifier U (iws_rest s)) as S1.
  destruct (identifier U (iws_rest s)) as [r1 i| | | |] eqn:Ei; cbn [cbind fst snd]; try lia.
  2:{ (* only a string key *)
    clear S1. destruct (pmap KeyString string_literal (iws_rest s)) as [r1 k| | | |] eqn:Ek; cbn [cbind fst snd add]; try lia.
    apply pmap_inv in Ek as (x & Ek & ->). pose proof (wf_string_literal (iws_rest s)) as S1. rewrite Ek in S1. cbn in S1. apply string_literal_consumes in Ek. rewrite wrap_iws. pose proof (iws_len r1) as Hl1.
    destruct (char_p c_eq (iws_rest r1)) as [r2 q| | | |] eqn:Eq; cbn [cbind fst snd add]; try lia. apply char_p_ok in Eq as [Eq _]. rewrite cwrap_iws.
    destruct (Hv (iws_rest r2)) as [B _]. pose proof (P_iws r2).
    assert (X : suffix r2 s). { eapply suffix_trans; [|exact Sl]. eapply suffix_trans; [|exact S1]. eapply suffix_trans; [|apply iws_rest_suffix]. rewrite Eq. exists [c_eq]. reflexivity. }
    apply P1 in X. rewrite Eq in Hl1. cbn [length] in Hl1.
    destruct (pv (iws_rest r2)) as [[r3 y| | | |] n]; cbn [cbind add fst snd] in *; lia. }
  cbn in S1. apply identifier_consumes in Ei. rewrite !wrap_iws. pose proof (iws_len r1) as Hl1. unfold opt.
  assert (S2 : suffix (iws_rest r1) s) by (eapply suffix_trans; [apply iws_rest_suffix|eapply suffix_trans; [exact S1|exact Sl]]).
  destruct (char_p c_eq (iws_rest r1)) as [r2 q| | | |] eqn:Eq; cbn [cbind fst snd add].
  - apply char_p_ok in Eq as [Eq _]. rewrite !cwrap_iws. pose proof (iws_len r2) as Hl2. rewrite Eq in Hl1, S2. cbn [length] in Hl1.
    assert (S3 : suffix (iws_rest r2) s). { eapply suffix_trans; [apply iws_rest_suffix|]. eapply suffix_trans; [|exact S2]. exists [c_eq]. reflexivity. }
    destruct (Hv (iws_rest r2)) as [B1 B2]. pose proof (P1 _ _ S3) as B3.
    rewrite (strings_none r1 61%N r2) by (assumption || discriminate). cbn [cbind]. rewrite cwrap_iws, Eq.
    assert (Z : cmap_expression pm (c_eq :: r2) = (Err, 0)) by (rewrite cmap_expression_eq, ws_rest_stop by discriminate; reflexivity). rewrite Z.
    assert (C : snd (cmap_expression pm (iws_rest r2)) = 0 \/ snd (pv (iws_rest r2)) + snd (cmap_expression pm (iws_rest r2)) + 1 <= P s).
    { destruct (Nat.eq_dec (snd (cmap_expression pm (iws_rest r2))) 0) as [E|E]; [auto|]. right. apply cmap_expression_zero in E as [t Et].
      pose proof (map_bound pm _ t Hm Et). specialize (B2 t Et). pose proof (ws_len (iws_rest r2)) as Hl3. rewrite Et in Hl3. cbn [length] in Hl3.
      assert (X : 2 + 2 * P t <= P s) by (apply P3; [eapply suffix_trans; [apply map_suffix, Et|exact S3]|lia]). lia. }
    destruct (pv (iws_rest r2)) as [[r3 y| | | |] n]; cbn [cbind add fst snd] in *; try lia.
    destruct (cmap_expression pm (iws_rest r2)) as [[r4 y| | | |] n']; cbn [cbind add fst snd] in *; lia.
  - rewrite !cwrap_iws, iws_rest_idem. cbn [add fst snd].
    pose proof (map_bound pm (iws_rest r1)) as M. pose proof (cmap_expression_zero pm (iws_rest r1)) as Z.
    destruct (Nat.eq_dec (snd (cmap_expression pm (iws_rest r1))) 0) as [En|En].
    + assert (T : snd (cbind (many0 (wrap inline_whitespace string_literal) r1, 0) (fun r2 (keys : list str) =>
         let+ (r3, m) := cwrap inline_whitespace (cmap_expression pm) r2 in (Ok r3 (KeyIdent (cow_str i), VBlock (Unmerged [(keys, m)])), 0))) + 1 <= P s).
      { pose proof (wf_many0 _ (wf_wrap_iws _ wf_string_literal) r1) as S4. destruct (many0 (wrap inline_whitespace string_literal) r1) as [r2 ks| | | |]; cbn [cbind add fst snd]; try lia.
        cbn in S4. rewrite cwrap_iws. assert (S5 : suffix (iws_rest r2) s) by (eapply suffix_trans; [apply iws_rest_suffix|eapply suffix_trans; [exact S4|eapply suffix_trans; [exact S1|exact Sl]]]).
        assert (B : snd (cmap_expression pm (iws_rest r2)) + 1 <= P s).
        { destruct (Nat.eq_dec (snd (cmap_expression pm (iws_rest r2))) 0) as [E|E]; [lia|]. apply cmap_expression_zero in E as [t Et].
          pose proof (map_bound pm _ t Hm Et). pose proof (P1 _ _ S5). assert (X : suffix t (iws_rest r2)). { eapply suffix_trans; [|apply (map_suffix _ _ Et)]. exists [123%N]. reflexivity. }
          pose proof (P1 _ _ X). pose proof (ws_len (iws_rest r2)) as Hl3. rewrite Et in Hl3. cbn [length] in Hl3. apply suffix_len in S5. lia. }
        destruct (cmap_expression pm (iws_rest r2)) as [[r3 y| | | |] n']; cbn [cbind add fst snd] in *; lia. }
      destruct (cmap_expression pm (iws_rest r1)) as [[r3 y| | | |] n']; cbn [cbind add fst snd] in *; lia.
    + destruct (Z En) as [t Et]. specialize (M t Hm Et).
      assert (X : 1 + 2 * P t <= P s). { apply P2; [eapply suffix_trans; [apply map_suffix, Et|exact S2]|]. pose proof (ws_len (iws_rest r1)) as Hl3. rewrite Et in Hl3. cbn [length] in Hl3. lia. }
      destruct (iws_rest r1) as [|c q'] eqn:Er; [rewrite ws_rest_nil in Et; discriminate|].
      rewrite (strings_none r1 c q') by (try assumption; intros ->; rewrite ws_rest_stop in Et by discriminate; discriminate).
      cbn [cbind]. rewrite cwrap_iws, Er.
      destruct (cmap_expression pm (c :: q')) as [[r3 y| | | |] n']; cbn [cbind add fst snd] in *; lia.
  - exfalso. revert Eq. unfold char_p. destruct (iws_rest r1) as [|c q']; [discriminate|]. destruct (_ =? _)%N; discriminate.
  - lia.
  - lia.
Qed.
Lemma values_bound f : VB (fst (cold_f U f)) -> MB (snd (cold_f U f)) -> MB (snd (cold_f U (S f))).
Proof.
  intros Hv Hm s. rewrite cold_f_S. cbn [snd]. unfold tick, cmap_values_step, add. cbn [snd]. set (m := cwrap whitespace _).
  assert (E : forall x : res (list (key * Value.value)) * nat, snd (cbind x (fun r values => (Ok r (Unmerged values), 0)) : res mapvalues * nat) = snd x).
  { intros [[| | | |] n]; cbn; lia. }
  rewrite E, cws_m_snd. pose proof (many0_bound m) as B. unfold cmany0.
  enough (snd (cmany0_loop (S (length s)) m s) + 1 <= P s) by lia. apply B.
  - intros s0 r v. unfold m. rewrite cwrap_ws. intros H. apply cterminated_lift_ok in H as (r3 & w & H1 & H2).
    eapply suffix_trans; [|apply ws_rest_suffix]. pose proof (wf_old_separator r3) as X. rewrite H2 in X. cbn in X. eapply suffix_trans; [exact X|].
    rewrite (er_old_attribute U _ _ _ _ (proj1 (er_old_f U f)) (proj2 (er_old_f U f)) (ws_rest s0)) in H1.
    pose proof (ple_old_attribute U _ _ _ _ (proj1 (ple_old U f)) (proj2 (ple_old U f)) (ws_rest s0)) as Y. rewrite H1 in Y. destruct Y as [Y|Y]; [discriminate|].
    pose proof (wf_old_attribute U (ws_rest s0)) as Z. rewrite <- Y in Z. exact Z.
  - intros s0 r0 v0. unfold m. rewrite cwrap_ws, cterminated_lift_snd. pose proof (cattr_paid U f (ws_rest s0) (proj1 (cold_paid U f)) (proj2 (cold_paid U f))) as Q. pose proof (ws_len s0) as Hl0.
    intros H. apply cterminated_lift_ok in H as (r3 & w & H1 & H2). specialize (Q _ _ H1). apply (wf_len old_separator) in H2; [lia|apply wf_old_separator].
  - intros s0. unfold m. rewrite cwrap_ws, cterminated_lift_snd. pose proof (attr_bound f (ws_rest s0) Hv Hm). pose proof (P_ws s0). lia.
Qed.
Lemma cold_bound f : VB (fst (cold_f U f)) /\ MB (snd (cold_f U f)).
Proof.
  induction f as [|f [IHv IHm]]; [split; [intros s; cbn; split; intros; lia|intros s; cbn; lia]|].
  split; [apply value_bound|apply values_bound]; assumption.
Qed.
Theorem calls_bound s : value_from_str_calls U s <= P s.
Proof. unfold value_from_str_calls, cold_body. rewrite cterminated_lift_snd. apply cold_bound. Qed.
End Bound.

(** ** Two budgets *)
Definition braces (s : str) : nat := count_occ N.eq_dec s 123%N.
Lemma suffix_braces r s : suffix r s -> braces r <= braces s.
Proof. intros [p ->]. unfold braces. rewrite count_occ_app. lia. Qed.
Lemma pow2_pos n : 1 <= 2 ^ n.
Proof. apply Nat.le_succ_l, Nat.neq_0_lt_0, Nat.pow_nonzero; discriminate. Qed.
Theorem calls_braces U s : value_from_str_calls U s <= (length s + 1) * 2 ^ braces s.
Proof.
  assert (B : forall t s, suffix (123%N :: t) s -> S (braces t) <= braces s).
  { intros t s' H. apply suffix_braces in H. unfold braces in *. cbn [count_occ] in H. destruct (N.eq_dec 123 123); [exact H|congruence]. }
  apply (calls_bound U (fun s => (length s + 1) * 2 ^ braces s)).
  - intros s'. pose proof (pow2_pos (braces s')). nia.
  - intros r s' H. pose proof (suffix_len _ _ H) as L. apply suffix_braces in H. apply (Nat.pow_le_mono_r 2) in H; [|lia]. pose proof (pow2_pos (braces r)). nia.
  - intros t s' H L. apply B in H. apply (Nat.pow_le_mono_r 2) in H; [|lia]. rewrite Nat.pow_succ_r' in H. pose proof (pow2_pos (braces t)). nia.
  - intros t s' H L. apply B in H. apply (Nat.pow_le_mono_r 2) in H; [|lia]. rewrite Nat.pow_succ_r' in H. pose proof (pow2_pos (braces t)). nia.
Qed.
Fixpoint best (n : nat) : nat := match n with O => 1 | S O => 2 | S (S k) => 1 + 2 * best k end.
Lemma best_S n : best n + 1 <= best (S n) /\ best (S n) + 1 <= best (S (S n)).
Proof. induction n as [|n [I1 I2]]; [cbn; lia|]. split; [exact I2|]. change (best (S (S (S n)))) with (1 + 2 * best (S n)). change (best (S (S n))) with (1 + 2 * best n). lia. Qed.
Lemma best_grows d : forall n, best n + d <= best (d + n).
Proof. induction d as [|d IH]; intros n; [cbn; lia|]. specialize (IH n). destruct (best_S (d + n)). cbn [Nat.add]. lia. Qed.
Lemma best_mono n m : n <= m -> best n + (m - n) <= best m.
Proof. intros H. pose proof (best_grows (m - n) n). replace (m - n + n) with m in * by lia. exact H0. Qed.
Lemma best_even n : best (2 * n) = 2 ^ (n + 1) - 1.
Proof.
  induction n as [|n IH]; [reflexivity|]. replace (2 * S n) with (S (S (2 * n))) by lia. change (best (S (S (2 * n)))) with (1 + 2 * best (2 * n)). rewrite IH.
  replace (S n + 1) with (S (n + 1)) by lia. rewrite (Nat.pow_succ_r' 2 (n + 1)). pose proof (pow2_pos (n + 1)). lia.
Qed.
Theorem calls_length U s : value_from_str_calls U s <= best (length s).
Proof.
  apply (calls_bound U (fun s => best (length s))).
  - intros s'. pose proof (best_mono 0 (length s') ltac:(lia)). cbn in *. lia.
  - intros r s' H. apply suffix_len in H. pose proof (best_mono _ _ H). lia.
  - intros t s' _ L. pose proof (best_mono _ _ L) as B. rewrite (Nat.add_comm (length t)) in B. change (best (2 + length t)) with (1 + 2 * best (length t)) in B. lia.
  - intros t s' _ L. pose proof (best_mono _ _ L) as B. rewrite (Nat.add_comm (length t)) in B. change (best (3 + length t)) with (1 + 2 * best (S (length t))) in B. pose proof (best_S (length t)). lia.
Qed.

(** ** The worst text *)
Section Worst.
Variable U : ucd.
Definition blocks_of (n : nat) : str := concat (repeat (lit "a{") n).
Lemma blocks_of_ws n : ws_rest (blocks_of n) = blocks_of n.
Proof. destruct n as [|n]; [reflexivity|]. apply (ws_rest_stop 97); discriminate. Qed.
Lemma worst_level f Y r v m : ws_rest Y = Y -> snd (cold_f U f) Y = (Ok r v, m) -> (forall q w, char_p c_rbrace (ws_rest r) <> Ok q w) ->
  snd (cold_f U (S f)) (lit "a{" ++ Y) = (Ok (lit "a{" ++ Y) (Unmerged []), 2 * m + 1).
Proof.
  intros HY Hf Hr. pose proof (cmap_expression_stuck _ _ _ _ _ HY Hf Hr) as E1.
  rewrite cold_f_S. cbn [snd]. set (pm := snd (cold_f U f)) in *. set (pv := fst (cold_f U f)). clearbody pv pm.
  change (lit "a{" ++ Y) with (97%N :: 123%N :: Y).
  assert (Ea : cold_attribute U pv pm (97%N :: 123%N :: Y) = (Err, 2 * m)).
  { unfold cold_attribute, cinline_whitespace_m, cterminated. set (a := calt _ _).
    enough (Ha : a (97%N :: 123%N :: Y) = (Err, 2 * m)) by (rewrite Ha; reflexivity).
    unfold a, calt, lift. rewrite !wrap_iws, !(iws_rest_stop 97) by discriminate.
    assert (K : literal_key U (97%N :: 123%N :: Y) = Ok (123%N :: Y) (KeyIdent [97%N])) by reflexivity.
    assert (I : identifier U (97%N :: 123%N :: Y) = Ok (123%N :: Y) (Borrowed [97%N])) by reflexivity.
    rewrite K, I. cbn [cbind]. rewrite !wrap_iws, !(iws_rest_stop 123) by discriminate. unfold opt. rewrite char_p_neq by discriminate. cbn [cbind add fst snd].
    rewrite !cwrap_iws, !(iws_rest_stop 123) by discriminate. rewrite E1. cbn [cbind add fst snd].
    rewrite (strings_none (123%N :: Y) 123%N Y) by (discriminate || (apply iws_rest_stop; discriminate)).
    cbn [cbind]. rewrite cwrap_iws, (iws_rest_stop 123) by discriminate. rewrite E1. cbn [cbind add fst snd]. unfold add. cbn [fst snd]. f_equal. lia. }
  unfold tick, cmap_values_step. set (it := cwrap _ _).
  assert (Ei : it (97%N :: 123%N :: Y) = (Err, 2 * m)).
  { unfold it. rewrite cwrap_ws, ws_rest_stop by discriminate. unfold cterminated. rewrite Ea. reflexivity. }
  unfold cwhitespace_m, cterminated, cmany0. cbn [cmany0_loop]. rewrite Ei. cbn [cbind]. unfold lift.
  destruct (whitespace_eq (97%N :: 123%N :: Y)) as [x ->]. rewrite ws_rest_stop by discriminate. unfold add. cbn [cbind fst snd]. unfold add. cbn [fst snd]. f_equal. lia.
Qed.
Lemma worst_calls n : forall f, S n <= f -> exists r v, snd (cold_f U f) (blocks_of n) = (Ok r v, 2 ^ (n + 1) - 1) /\ forall q w, char_p c_rbrace (ws_rest r) <> Ok q w.
Proof.
  induction n as [|n IH]; intros f Hf; (destruct f as [|f]; [lia|]).
  - exists [], (Unmerged []). split; [|discriminate]. cbn [cold_f]. destruct (cold_f U f). reflexivity.
  - destruct (IH f ltac:(lia)) as (r & v & H & Hr). exists (blocks_of (S n)), (Unmerged []). split.
    + change (blocks_of (S n)) with (lit "a{" ++ blocks_of n). rewrite (worst_level f _ r v _ (blocks_of_ws n) H Hr). f_equal.
      replace (S n + 1) with (S (n + 1)) by lia. rewrite (Nat.pow_succ_r' 2 (n + 1)). pose proof (pow2_pos (n + 1)). lia.
    + intros q w. rewrite blocks_of_ws. discriminate.
Qed.
Lemma blocks_of_length n : length (blocks_of n) = 2 * n.
Proof. induction n as [|n IH]; [reflexivity|]. change (blocks_of (S n)) with (97%N :: 123%N :: blocks_of n). cbn [length]. rewrite IH. lia. Qed.
Theorem worst_exact n : value_from_str_calls U (blocks_of n) = 2 ^ (n + 1) - 1.
Proof.
  unfold value_from_str_calls, cold_body, cmap_values. rewrite cterminated_lift_snd.
  destruct (worst_calls n (S (length (blocks_of n)))) as (r & v & H & _); [rewrite blocks_of_length; lia|]. rewrite H. reflexivity.
Qed.
End Worst.
