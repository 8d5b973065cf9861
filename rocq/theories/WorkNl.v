(** * WorkNl: what line ends cost *)
From Coq Require Import Lia.
From Verif Require Import Base Nom NomFacts Ast Lex Grammar WsFacts NumFacts StrFacts HeredocFacts Parser ParserFacts ExprProofs BodyProofs CallCount CallProofs WorkCount WorkProofs WorkTokens WorkLex.
Open Scope nat_scope.
Local Notation ln := (@length N).

Lemma ws_stuck s c t : s = c :: t -> c = 47%N \/ c = 35%N -> hash_comment s = Err -> slash_comment s = Err -> inline_comment s = Err -> jam s = 3 * ln s + 30.
Proof.
  intros Hs Hc H1 H2 H3. apply jam_stuck; [subst s; destruct Hc as [-> | ->]; reflexivity|]. rewrite ws_rest_step. unfold ws_item, alt. rewrite H1, H2, H3. subst s.
  destruct Hc as [-> | ->]; cbn [eat_separator take_while span existsb]; unfold eat_separator, take_while; cbn; rewrite ?N.eqb_refl, ?str_eqb_refl; reflexivity.
Qed.
Lemma calt_snd {A} (p q : cparser A) s a b : snd (p s) <= a -> snd (q s) <= b -> snd (calt p q s) <= a + b.
Proof. intros H1 H2. unfold calt. destruct (p s) as [[| | | |] n]; cbn in *; lia. Qed.
Lemma nl_other c t : c <> 35%N -> c <> 47%N -> wnewline_item (c :: t) = add 6 (weol (c :: t)).
Proof.
  intros A B. unfold wnewline_item. rewrite calt_err with (n := 2) by (apply hash_neq, A). rewrite calt_err with (n := 2) by (apply slash_neq, B).
  rewrite calt_err with (n := 2). 2:{ unfold cterminated. rewrite inline_neq by exact B. reflexivity. }
  unfold add. cbn. reflexivity.
Qed.
Lemma weol_lf t : weol (c_lf :: t) = (Ok t [c_lf], 2). Proof. reflexivity. Qed.
Lemma weol_paid s r v : fst (weol s) = Ok r v -> 6 + snd (weol s) + 8 * ln r <= 8 * ln s.
Proof.
  pose proof (eol_cost s) as C. intros H. pose proof H as H'. rewrite (we_eol s) in H. apply eol_ok in H as [He ->]. destruct He; cbn [app] in *.
  - change 10%N with c_lf in *. rewrite weol_lf. cbn [snd length]. lia.
  - cbn [length]. lia.
Qed.
Lemma nl_item_paid s r v : fst (wnewline_item s) = Ok r v -> snd (wnewline_item s) + 8 * ln r <= 8 * ln s.
Proof.
  intros H. destruct s as [|c s]; [discriminate|].
  destruct (N.eq_dec c 35) as [->|H35]; [|destruct (N.eq_dec c 47) as [->|H47]].
  - unfold wnewline_item in *. destruct (calt_cases whash_comment (calt wslash_comment (calt (cterminated winline_comment weol) weol)) (35%N :: s)) as [[E1 E]|[E1 E]]; rewrite E in *.
    + rewrite fst_add in H. rewrite calt_err with (n := 2) in H by (apply slash_neq; discriminate). rewrite fst_add in H. rewrite calt_err with (n := 2) in H by (unfold cterminated; rewrite inline_neq by discriminate; reflexivity). discriminate.
    + apply line_ok in H as [H1 H2]. unfold whash_comment. cbn [lit length] in *. lia.
  - revert H. unfold wnewline_item. rewrite calt_err with (n := 2) by (apply hash_neq; discriminate). rewrite fst_add, snd_add.
    destruct (calt_cases wslash_comment (calt (cterminated winline_comment weol) weol) (47%N :: s)) as [[E1 ->]|[E1 ->]].
    2:{ intros H. apply line_ok in H as [H1 H2]. unfold wslash_comment. cbn [lit length] in *. lia. }
    rewrite fst_add, snd_add. destruct (calt_cases (cterminated winline_comment weol) weol (47%N :: s)) as [[E2 ->]|[E2 ->]]; [rewrite fst_add; discriminate|].
    assert (S3 : snd (wslash_comment (47%N :: s)) <= 3 \/ exists t, s = 47%N :: t).
    { destruct s as [|d s]; [left; cbn; lia|]. destruct (N.eq_dec d 47) as [->|Hd]; [right; eauto|left; apply slash_second, Hd]. }
    destruct S3 as [S3|[t ->]].
    2:{ destruct (inline_second 47%N t) as [X _]; [discriminate|]. unfold cterminated. destruct (winline_comment _) as [[| | | |] n]; discriminate. }
    unfold cterminated. pose proof (inline_ok (47%N :: s)) as I. destruct (winline_comment (47%N :: s)) as [[r1 v1| | | |] n]; cbn [fst snd cbind add] in *; try discriminate.
    destruct (I _ _ eq_refl) as [I1 I2]. pose proof (eol_cost r1) as C. pose proof (weol_ok r1) as W. destruct (weol r1) as [[r2 v2| | | |] m]; cbn [fst snd cbind add] in *; try discriminate.
    destruct (W _ _ eq_refl) as [_ W2]. intros [= <- <-]. lia.
  - rewrite nl_other in * by assumption. rewrite fst_add in H. rewrite snd_add. apply weol_paid in H. exact H.
Qed.
Lemma nl_item_pos s : 0 < snd (wnewline_item s).
Proof. unfold wnewline_item, calt at 1, whash_comment, cdelimited. unfold w_tag at 1, prim. destruct (tag (lit "#") s) as [r v| | | |]; cbn [cbind snd add]; try lia. destruct (cbind _ _) as [[| | | |] n]; cbn; lia. Qed.
Lemma nl_item_stop s : (forall r v, fst (wnewline_item s) = Ok r v -> r = s) -> snd (wnewline_item s) <= 8 * gap s + 30 + jam (ws_rest s).
Proof.
  intros H. destruct s as [|c s]; [cbn; lia|].
  assert (H0 : forall r v, fst (wnewline_item (c :: s)) <> Ok r v).
  { intros r v E. pose proof (H _ _ E) as X. apply nl_item_paid in E. subst r. pose proof (nl_item_pos (c :: s)). lia. }
  clear H. destruct (N.eq_dec c 35) as [->|H35]; [|destruct (N.eq_dec c 47) as [->|H47]].
  - assert (E : hash_comment (35%N :: s) = Err).
    { destruct (simple_hash_comment (35%N :: s)) as [(r & v & E)|E]; [|exact E]. exfalso. rewrite <- (we_hash_comment (35%N :: s)) in E. apply (H0 r v). unfold wnewline_item, calt. destruct (whash_comment _) as [x n]. cbn in E. subst x. reflexivity. }
    assert (Jm : jam (35%N :: s) = 3 * ln (35%N :: s) + 30).
    { apply (ws_stuck (35%N :: s) 35%N s eq_refl); [right; reflexivity|exact E|apply slash_comment_first; discriminate|apply inline_comment_first; discriminate]. }
    pose proof (proj1 (jam_pos (35%N :: s) ltac:(lia))) as Hw. rewrite Hw, Jm. pose proof (hash_cost (35%N :: s)) as C.
    unfold wnewline_item. enough (X : snd (calt wslash_comment (calt (cterminated winline_comment weol) weol) (35%N :: s)) <= 2 + (2 + 5)) by (pose proof (calt_snd _ _ _ _ _ C X); lia). apply calt_snd; [rewrite slash_neq by discriminate; reflexivity|]. apply calt_snd; [unfold cterminated; rewrite inline_neq by discriminate; reflexivity|apply eol_cost].
  - unfold wnewline_item in *. rewrite calt_err with (n := 2) in * by (apply hash_neq; discriminate). rewrite snd_add.
    assert (E0 : forall r v, fst (wslash_comment (47%N :: s)) <> Ok r v).
    { intros r v E. apply (H0 r v). rewrite fst_add. unfold calt. destruct (wslash_comment _) as [x n]. cbn in E. subst x. reflexivity. }
    assert (E : slash_comment (47%N :: s) = Err).
    { destruct (simple_slash_comment (47%N :: s)) as [(r & v & E)|E]; [|exact E]. exfalso. rewrite <- (we_slash_comment (47%N :: s)) in E. exact (E0 _ _ E). }
    assert (Hd : snd (weol (47%N :: s)) <= 5) by apply eol_cost.
    destruct (inline_comment (47%N :: s)) as [r v| | | |] eqn:Ei.
    + assert (Hs : snd (wslash_comment (47%N :: s)) <= 3).
      { destruct s as [|d s]; [cbn; lia|]. destruct (N.eq_dec d 47) as [->|Hd']; [|apply slash_second, Hd'].
        exfalso. pose proof (inline_second 47%N s ltac:(discriminate)) as [X _]. rewrite (we_inline_comment _), Ei in X. discriminate. }
      assert (Hi : snd (cterminated winline_comment weol (47%N :: s)) <= 3 + 3 * S (ln v) + 3 + 5 /\ 4 + ln v + ln r <= S (ln s)).
      { rewrite <- (we_inline_comment (47%N :: s)) in Ei. destruct (inline_ok _ _ _ Ei) as [X1 X2]. cbn [length] in X2. split; [|exact X2]. unfold cterminated. destruct (winline_comment (47%N :: s)) as [x n]. cbn in Ei, X1. subst x. cbn [cbind]. pose proof (eol_cost r) as C. destruct (weol r) as [[| | | |] m]; cbn in *; lia. }
      assert (Hg : gap (47%N :: s) = S (ln s) - ln (ws_rest r)).
      { unfold gap. rewrite (ws_rest_item (47%N :: s) r v); [reflexivity|]. unfold ws_item. rewrite alt_err by (apply hash_comment_first; discriminate). rewrite alt_err by exact E. unfold alt. rewrite Ei. reflexivity. }
      pose proof (ws_len r) as Hl. pose proof (calt_snd _ _ _ _ _ Hs (calt_snd _ _ _ _ _ (proj1 Hi) Hd)). lia.
    + assert (Jm : jam (47%N :: s) = 3 * ln (47%N :: s) + 30).
      { apply (ws_stuck (47%N :: s) 47%N s eq_refl); [left; reflexivity|apply hash_comment_first; discriminate|exact E|exact Ei]. }
      pose proof (proj1 (jam_pos (47%N :: s) ltac:(lia))) as Hw. rewrite Hw, Jm.
      assert (A : snd (wslash_comment (47%N :: s)) <= 3 \/ snd (winline_comment (47%N :: s)) <= 3).
      { destruct s as [|d s]; [left; cbn; lia|]. destruct (N.eq_dec d 47) as [->|Hd']; [right; apply inline_second; discriminate|left; apply slash_second, Hd']. }
      pose proof (slash_cost (47%N :: s)) as C1. pose proof (inline_cost (47%N :: s)) as C2.
      assert (C3 : snd (cterminated winline_comment weol (47%N :: s)) <= snd (winline_comment (47%N :: s))).
      { unfold cterminated. pose proof (we_inline_comment (47%N :: s)) as X. rewrite Ei in X. destruct (winline_comment (47%N :: s)) as [x n]. cbn in X. subst x. reflexivity. }
      pose proof (calt_snd wslash_comment _ _ _ _ (Nat.le_refl _) (calt_snd _ _ _ _ _ C3 Hd)). cbn [length] in *. lia.
    + destruct (simple_inline_comment (47%N :: s)) as [(? & ? & X)|X]; rewrite X in Ei; discriminate.
    + destruct (simple_inline_comment (47%N :: s)) as [(? & ? & X)|X]; rewrite X in Ei; discriminate.
    + destruct (simple_inline_comment (47%N :: s)) as [(? & ? & X)|X]; rewrite X in Ei; discriminate.
  - rewrite nl_other by assumption. rewrite snd_add. pose proof (eol_cost (c :: s)). lia.
Qed.
Lemma nl_loop f s : snd (cmany0_loop f wnewline_item s) <= 8 * ln s + (3 * ln s + 60) /\ forall r v, fst (cmany0_loop f wnewline_item s) = Ok r v ->
  snd (cmany0_loop f wnewline_item s) + 8 * ln r <= 8 * ln s + (8 * gap r + 30 + jam (ws_rest r)).
Proof.
  (* the bound on the failing item is not linear in [8 * ln] alone *)
  revert s. induction f as [|f IH]; intros s; cbn [cmany0_loop]; [split; [cbn; lia|discriminate]|].
  pose proof (nl_item_paid s) as H1. pose proof (nl_item_stop s) as H2. pose proof (gap_eq s) as G. pose proof (jam_le (ws_rest s)) as Jl.
  destruct (wnewline_item s) as [[r v| | | |] n]; cbn [fst snd] in *.
  2-5: specialize (H2 ltac:(intros; discriminate)); split; [lia|]; first [discriminate|intros ? ? [= <- <-]; lia].
  specialize (H1 _ _ eq_refl). destruct (str_eqb r s) eqn:E; cbn [fst snd].
  - apply str_eqb_eq in E. subst r. split; [lia|]. intros ? ? [= <- <-]. lia.
  - destruct (IH r) as [I1 I2]. split; [lia|].
    intros r0 v0 H. unfold map_res in H. apply bind_ok in H as (r1 & v1 & H & [= <- <-]). specialize (I2 _ _ H). lia.
Qed.
Lemma newline_ws s r v : newline s = Ok r v -> ws_rest r = ws_rest s /\ ln r < ln s.
Proof.
  unfold newline. rewrite many1_eq. intros H. apply bind_ok in H as (r1 & v1 & H1 & H). apply map_res_ok in H as (v2 & H & _).
  pose proof (newline_item_sound _ _ _ H1) as (w1 & Hw1 & E1). apply newline_many_sound in H as (w2 & Hw2 & E2).
  pose proof (nl_item_paid s r1 v1) as P. rewrite (we_newline_item s) in P. specialize (P H1). pose proof (nl_item_pos s).
  split; [rewrite E1, E2, !ws_rest_ws by assumption; reflexivity|]. assert (ln r1 = ln w2 + ln r) by (rewrite E2; apply app_length). lia.
Qed.
Lemma newline_cost s : snd (wnewline s) <= 8 * gap s + 30 + jam (ws_rest s).
Proof.
  unfold wnewline, cmany1. pose proof (nl_item_paid s) as H1. pose proof (nl_item_stop s) as H2. pose proof (we_newline_item s) as W.
  destruct (wnewline_item s) as [[r v| | | |] n]; cbn [fst snd cbind add] in *.
  2-5: apply H2; intros; discriminate.
  clear H2. specialize (H1 _ _ eq_refl). symmetry in W. pose proof (newline_item_sound _ _ _ W) as (w1 & Hw1 & E1).
  destruct (nl_loop (S (ln r)) r) as [I1 I2]. pose proof (we_many0_loop _ _ we_newline_item (S (ln r)) r) as W2.
  change (many0_loop (S (ln r)) newline_item r) with (many0 newline_item r) in W2.
  destruct (many0_total newline_item wf_newline_item simple_newline_item r) as (r2 & v2 & E).
  rewrite E in W2. specialize (I2 _ _ W2). apply newline_many_sound in E as (w2 & Hw2 & E2).
  assert (X : ws_rest r2 = ws_rest s) by (rewrite E1, E2, !ws_rest_ws by assumption; reflexivity). rewrite X in I2.
  pose proof (gap_eq s). pose proof (gap_eq r2) as G2. rewrite X in G2. assert (ln r = ln w2 + ln r2) by (rewrite E2; apply app_length). lia.
Qed.
