(** * WorkTokens: what white space and the tokens cost *)
From Coq Require Import Lia.
From Verif Require Import Base Nom NomFacts Ast Lex Grammar WsFacts NumFacts StrFacts HeredocFacts Parser ParserFacts ExprProofs BodyProofs CallCount CallProofs WorkCount WorkProofs.
Open Scope nat_scope.
Local Notation ln := (@length N).

(** ** Primitives *)
Lemma compared_le t s : compared t s <= ln t /\ compared t s <= ln s.
Proof. revert s. induction t as [|x t IH]; intros [|y s]; cbn; try lia. destruct (x =? y)%N; [|lia]. destruct (IH s). lia. Qed.
Lemma compared_neq x t c s : c <> x -> compared (x :: t) (c :: s) = 1.
Proof. intros H. cbn. destruct (N.eqb_spec x c) as [->|]; [congruence|reflexivity]. Qed.
Lemma tag_cost t s : snd (w_tag t s) <= S (ln t).
Proof. cbn. destruct (compared_le t s). lia. Qed.
Lemma tag_cost_neq x t c s : c <> x -> w_tag (x :: t) (c :: s) = (Err, 2).
Proof. intros H. unfold w_tag, prim. rewrite compared_neq by exact H. rewrite tag_first by exact H. reflexivity. Qed.
Lemma searched_le t s : searched t s <= S (ln t) * S (ln s).
Proof.
  induction s as [|c s IH]; cbn [searched]; destruct (compared_le t []) as [A _]; [destruct (strip_prefix t []); nia|].
  destruct (compared_le t (c :: s)) as [B _]. destruct (strip_prefix t (c :: s)); cbn [length]; nia.
Qed.
Lemma searched_found t s a b : find_split t s = Some (a, b) -> searched t s <= S (ln t) * S (ln a).
Proof.
  revert a b. induction s as [|c s IH]; intros a b; cbn [searched find_split].
  - destruct (compared_le t []) as [A _]. destruct (strip_prefix t []); [|discriminate]. intros _. nia.
  - destruct (compared_le t (c :: s)) as [B _]. destruct (strip_prefix t (c :: s)).
    + intros _. nia.
    + destruct (find_split t s) as [[a' b']|] eqn:E; [|discriminate]. intros [= <- <-]. specialize (IH _ _ eq_refl). cbn [length]. nia.
Qed.
Lemma run_le p s : run p s <= ln s.
Proof. unfold run. destruct (span p s) as [a b] eqn:E. apply span_app in E. subst s. cbn. rewrite app_length. lia. Qed.
Lemma eol_cost s : snd (weol s) <= 5.
Proof.
  unfold weol, calt. pose proof (tag_cost [c_lf] s) as A. pose proof (tag_cost [c_cr; c_lf] s) as B. destruct (w_tag [c_lf] s) as [[| | | |] n]; cbn [add snd length] in *; lia.
Qed.

(** ** [many0!] *)
Lemma many0_cost {A} (p : cparser A) (P F : str -> nat) k :
  (forall s r v, fst (p s) = Ok r v -> r <> s -> snd (p s) + P r <= P s) ->
  (forall s, (forall r v, fst (p s) = Ok r v -> r = s) -> snd (p s) <= F s) ->
  (forall s, F s <= P s + k) ->
  forall f s, snd (cmany0_loop f p s) <= P s + k /\
    forall r v, fst (cmany0_loop f p s) = Ok r v -> snd (cmany0_loop f p s) + P r <= P s + F r.
Proof.
  intros Hp Hf Hk. induction f as [|f IH]; intros s; cbn [cmany0_loop]; [split; [cbn; lia|discriminate]|].
  pose proof (Hp s) as H1. pose proof (Hf s) as H2. pose proof (Hk s) as H3.
  destruct (p s) as [[r v| | | |] n]; cbn [fst snd] in *.
  2-5: specialize (H2 ltac:(intros; discriminate)); split; [lia|]; first [discriminate|intros ? ? [= <- <-]; lia].
  destruct (str_eqb r s) eqn:E; cbn [fst snd].
  - apply str_eqb_eq in E. subst r. specialize (H2 ltac:(intros ? ? [= <- <-]; reflexivity)). split; [lia|]. intros ? ? [= <- <-]. lia.
  - apply str_eqb_neq in E. specialize (H1 _ _ eq_refl E). destruct (IH r) as [I1 I2]. split; [lia|].
    intros r0 v0 H. unfold map_res in H. apply bind_ok in H as (r1 & v1 & H & [= <- <-]). specialize (I2 _ _ H). lia.
Qed.

(** ** Comments *)
Lemma cdelimited_cost {A B C} (p : cparser A) (q : cparser B) (t : cparser C) s a b c :
  snd (p s) <= a -> (forall r v, fst (p s) = Ok r v -> snd (q r) <= b /\ forall r' v', fst (q r) = Ok r' v' -> snd (t r') <= c) -> snd (cdelimited p q t s) <= a + b + c.
Proof.
  intros H1 H2. unfold cdelimited. destruct (p s) as [[r v| | | |] n]; cbn [fst snd cbind] in *; try lia. destruct (H2 _ _ eq_refl) as [H3 H4].
  destruct (q r) as [[r' v'| | | |] m]; cbn [fst snd cbind add] in *; try lia. specialize (H4 _ _ eq_refl). destruct (t r') as [[| | | |] o]; cbn [fst snd cbind add] in *; lia.
Qed.
Lemma hash_cost s : snd (whash_comment s) <= 2 + S (ln s) + 5.
Proof.
  unfold whash_comment. apply cdelimited_cost; [apply (tag_cost (lit "#"))|]. intros r v H. rewrite (we_tag _ s) in H. apply tag_ok in H as [-> _].
  split; [cbn [w_take_while prim snd]; pose proof (run_le not_eol r); cbn [lit app length]; lia|]. intros. apply eol_cost.
Qed.
Lemma line_ok (m : str) (s r v : str) : fst (cdelimited (w_tag m) (w_take_while not_eol) weol s) = Ok r v ->
  snd (cdelimited (w_tag m) (w_take_while not_eol) weol s) <= S (ln m) + S (ln v) + 5 /\ ln m + ln v + 1 + ln r <= ln s.
Proof.
  rewrite (we_delimited _ _ _ _ _ _ (we_tag m) (we_tw not_eol) we_eol s). unfold delimited. intros H.
  apply bind_ok in H as (r1 & v1 & H1 & H). apply bind_ok in H as (r2 & v2 & H2 & H). apply bind_ok in H as (r3 & v3 & H3 & [= <- <-]).
  pose proof (tag_ok _ _ _ _ H1) as [-> ->]. unfold take_while in H2. destruct (span not_eol r1) as [a b] eqn:E. injection H2 as -> ->. apply eol_ok in H3 as [Hv ->].
  pose proof (span_app _ _ _ _ E) as ->. split; [|rewrite !app_length; destruct Hv as [-> | ->]; cbn [length]; lia].
  apply cdelimited_cost; [apply tag_cost|]. intros r' v' H'. rewrite (we_tag m _) in H'. rewrite H1 in H'. injection H' as <- <-.
  split; [cbn [w_take_while prim snd]; unfold run; rewrite E; cbn; lia|]. intros. apply eol_cost.
Qed.
Lemma hash_neq c s : c <> 35%N -> whash_comment (c :: s) = (Err, 2).
Proof. intros H. unfold whash_comment, cdelimited. change (lit "#") with [35%N]. rewrite tag_cost_neq by exact H. reflexivity. Qed.
Lemma slash_neq c s : c <> 47%N -> wslash_comment (c :: s) = (Err, 2).
Proof. intros H. unfold wslash_comment, cdelimited. change (lit "//") with [47; 47]%N. rewrite tag_cost_neq by exact H. reflexivity. Qed.
Lemma inline_neq c s : c <> 47%N -> winline_comment (c :: s) = (Err, 2).
Proof. intros H. unfold winline_comment, cdelimited. change (lit "/*") with [47; 42]%N. rewrite tag_cost_neq by exact H. reflexivity. Qed.
Lemma slash_second c s : c <> 47%N -> fst (wslash_comment (47%N :: c :: s)) = Err /\ snd (wslash_comment (47%N :: c :: s)) <= 3.
Proof.
  intros H. unfold wslash_comment, cdelimited. change (lit "//") with [47; 47]%N. pose proof (tag_cost [47; 47]%N (47%N :: c :: s)) as T.
  assert (E : fst (w_tag [47; 47]%N (47%N :: c :: s)) = Err).
  { rewrite (we_tag _ _). destruct (tag_cases [47; 47]%N (47%N :: c :: s)) as [(r & X & _)|X]; [injection X as X _; congruence|exact X]. }
  destruct (w_tag _ _) as [[| | | |] n]; try discriminate. cbn [cbind fst snd length] in *. split; [reflexivity|lia].
Qed.
Lemma inline_second c s : c <> 42%N -> fst (winline_comment (47%N :: c :: s)) = Err /\ snd (winline_comment (47%N :: c :: s)) <= 3.
Proof.
  intros H. unfold winline_comment, cdelimited. change (lit "/*") with [47; 42]%N. pose proof (tag_cost [47; 42]%N (47%N :: c :: s)) as T.
  assert (E : fst (w_tag [47; 42]%N (47%N :: c :: s)) = Err).
  { rewrite (we_tag _ _). destruct (tag_cases [47; 42]%N (47%N :: c :: s)) as [(r & X & _)|X]; [injection X as X _; congruence|exact X]. }
  destruct (w_tag _ _) as [[| | | |] n]; try discriminate. cbn [cbind fst snd length] in *. split; [reflexivity|lia].
Qed.
Lemma slash_cost s : snd (wslash_comment s) <= 3 + S (ln s) + 5.
Proof.
  unfold wslash_comment. apply cdelimited_cost; [apply (tag_cost (lit "//"))|]. intros r v H. rewrite (we_tag _ s) in H. apply tag_ok in H as [-> _].
  split; [cbn [w_take_while prim snd]; pose proof (run_le not_eol r); cbn [lit app length]; lia|]. intros. apply eol_cost.
Qed.
Lemma inline_cost s : snd (winline_comment s) <= 3 + 3 * S (ln s) + 3.
Proof.
  unfold winline_comment. apply cdelimited_cost; [apply (tag_cost (lit "/*"))|]. intros r v H. rewrite (we_tag _ s) in H. apply tag_ok in H as [-> _].
  split; [cbn [w_take_until prim snd]; pose proof (searched_le (lit "*/") r); cbn [lit app length] in *; lia|]. intros. apply (tag_cost (lit "*/")).
Qed.
Lemma inline_ok s r v : fst (winline_comment s) = Ok r v -> snd (winline_comment s) <= 3 + 3 * S (ln v) + 3 /\ 4 + ln v + ln r <= ln s.
Proof.
  rewrite (we_inline_comment s). unfold inline_comment, delimited. intros H.
  apply bind_ok in H as (r1 & v1 & H1 & H). apply bind_ok in H as (r2 & v2 & H2 & H). apply bind_ok in H as (r3 & v3 & H3 & [= <- <-]).
  pose proof (tag_ok _ _ _ _ H1) as [-> _]. unfold take_until in H2. destruct (find_split (lit "*/") r1) as [[a b]|] eqn:E; [|discriminate]. injection H2 as -> ->.
  pose proof (tag_ok _ _ _ _ H3) as [Hb _]. pose proof (find_split_no _ _ _ _ eq_refl E) as X.
  assert (Hr : ln r1 = ln v2 + ln r2).
  { clear - E. revert v2 r2 E. induction r1 as [|c r1 IH]; intros a b; cbn [find_split]; destruct (strip_prefix _ _); try discriminate; try (intros [= <- <-]; reflexivity).
    destruct (find_split (lit "*/") r1) as [[a' b']|]; [|discriminate]. intros [= <- <-]. cbn [length]. rewrite (IH _ _ eq_refl). lia. }
  split; [|rewrite Hb in Hr; cbn [lit app length] in *; lia].
  apply cdelimited_cost; [apply (tag_cost (lit "/*"))|]. intros r' v' H'. rewrite (we_tag _ _), H1 in H'. injection H' as <- <-.
  split; [exact (searched_found (lit "*/") _ _ _ E)|]. intros. apply (tag_cost (lit "*/")).
Qed.

(** ** White space *)
(** A place white space cannot get past although it looked far ahead: before a comment that
    is not closed *)
Definition opens_comment (s : str) : bool := match s with c :: _ => ((c =? 47) || (c =? 35))%N | [] => false end.
Definition jam (s : str) : nat := if opens_comment s && Nat.eqb (ln (ws_rest s)) (ln s) then 3 * ln s + 30 else 0.
Lemma jam_le s : jam s <= 3 * ln s + 30.
Proof. unfold jam. destruct (_ && _); lia. Qed.
Lemma jam_pos s : 0 < jam s -> ws_rest s = s /\ exists c t, s = c :: t /\ (c = 47%N \/ c = 35%N).
Proof.
  unfold jam. destruct (opens_comment s) eqn:E1; cbn [andb]; [|lia]. destruct (Nat.eqb_spec (ln (ws_rest s)) (ln s)) as [E2|]; [|lia]. intros _.
  split; [apply suffix_len_eq; [apply ws_rest_suffix|exact E2]|]. destruct s as [|c t]; [discriminate|]. exists c, t. split; [reflexivity|].
  cbn in E1. apply Bool.orb_true_iff in E1 as [E1|E1]; apply N.eqb_eq in E1; auto.
Qed.
Lemma jam_nil : jam [] = 0. Proof. reflexivity. Qed.
Lemma jam_other c s : c <> 47%N -> c <> 35%N -> jam (c :: s) = 0.
Proof. intros H1 H2. unfold jam. cbn [opens_comment]. apply N.eqb_neq in H1, H2. rewrite H1, H2. reflexivity. Qed.
Lemma jam_stuck s : opens_comment s = true -> ws_rest s = s -> jam s = 3 * ln s + 30.
Proof. intros H1 H2. unfold jam. rewrite H1, H2, Nat.eqb_refl. reflexivity. Qed.

Definition wws_item : cparser str := calt whash_comment (calt wslash_comment (calt winline_comment (weat_separator [c_space; c_tab; c_cr; c_lf]))).
Definition wiws_item : cparser str := calt winline_comment (weat_separator [c_space; c_tab]).
Lemma we_ws_item : Erases wws_item ws_item.
Proof. unfold wws_item, ws_item. repeat (apply er_alt; [first [apply we_hash_comment|apply we_slash_comment|apply we_inline_comment]|]). apply we_eat. Qed.
Lemma we_iws_item : Erases wiws_item iws_item.
Proof. apply er_alt; [apply we_inline_comment|apply we_eat]. Qed.
Lemma eat_cost l s : snd (weat_separator l s) = S (ln s) - ln (match fst (weat_separator l s) with Ok r _ => r | _ => s end) /\ exists r v, fst (weat_separator l s) = Ok r v /\ ln r <= ln s.
Proof.
  unfold weat_separator, w_take_while, prim, take_while, run. cbn [fst snd]. destruct (span _ s) as [a b] eqn:E. apply span_app in E. subst s. cbn [fst]. rewrite app_length. split; [lia|]. eexists _, _. split; [reflexivity|lia].
Qed.
Lemma eat_stop l c s : existsb (N.eqb c) l = false -> weat_separator l (c :: s) = (Ok (c :: s) [], 1).
Proof. intros H. unfold weat_separator, w_take_while, prim, take_while, run. cbn [span]. rewrite H. reflexivity. Qed.
Lemma calt_err {A} (p q : cparser A) s n : p s = (Err, n) -> calt p q s = add n (q s).
Proof. intros H. unfold calt. rewrite H. reflexivity. Qed.
Lemma calt_cases {A} (p q : cparser A) s : (fst (p s) = Err /\ calt p q s = add (snd (p s)) (q s)) \/ (fst (p s) <> Err /\ calt p q s = p s).
Proof. unfold calt. destruct (p s) as [[| | | |] n]; cbn; auto; right; split; congruence. Qed.
Lemma fst_add {A} n (x : res A * nat) : fst (add n x) = fst x. Proof. reflexivity. Qed.
Lemma snd_add {A} n (x : res A * nat) : snd (add n x) = n + snd x. Proof. reflexivity. Qed.
(** An item of white space that is read pays for itself; one that is not is dear only
    before an unclosed comment *)
Lemma ws_item_paid s r v : fst (wws_item s) = Ok r v -> r <> s -> snd (wws_item s) + 8 * ln r <= 8 * ln s.
Proof.
  intros H Hn. pose proof (wf_ws_item s) as Hs. rewrite <- (we_ws_item s), H in Hs. cbn in Hs. pose proof (suffix_neq_len _ _ Hs Hn) as Hl. clear Hs. revert H. unfold wws_item.
  destruct (calt_cases whash_comment (calt wslash_comment (calt winline_comment (weat_separator [c_space; c_tab; c_cr; c_lf]))) s) as [[E1 ->]|[E1 ->]].
  2:{ intros H. apply line_ok in H as [H1 H2]. unfold whash_comment. cbn [lit length] in *. lia. }
  rewrite fst_add, snd_add. destruct s as [|c s]; [cbn in Hl; lia|].
  destruct (N.eq_dec c 35) as [->|H35].
  { pose proof (hash_cost (35%N :: s)) as _. rewrite calt_err with (n := 2) by (apply slash_neq; discriminate). rewrite fst_add, (calt_err winline_comment) with (n := 2) by (apply inline_neq; discriminate).
    rewrite fst_add, eat_stop by reflexivity. intros [= <- <-]. congruence. }
  rewrite (hash_neq c) by exact H35. cbn [snd].
  destruct (calt_cases wslash_comment (calt winline_comment (weat_separator [c_space; c_tab; c_cr; c_lf])) (c :: s)) as [[E2 ->]|[E2 ->]].
  2:{ intros H. apply line_ok in H as [H1 H2]. unfold wslash_comment. cbn [lit length] in *. lia. }
  rewrite fst_add, snd_add. destruct (N.eq_dec c 47) as [->|H47].
  - destruct s as [|c2 s]. { intros H. exfalso. revert H. cbn. intros [= <- <-]. congruence. }
    destruct (N.eq_dec c2 42) as [->|H42].
    + destruct (slash_second 42%N s) as [_ X]; [discriminate|]. destruct (calt_cases winline_comment (weat_separator [c_space; c_tab; c_cr; c_lf]) (47%N :: 42%N :: s)) as [[E3 ->]|[E3 ->]].
      * rewrite fst_add, eat_stop by reflexivity. intros [= <- <-]. congruence.
      * intros H. apply inline_ok in H as [H1 H2]. lia.
    + destruct (inline_second c2 s H42) as [E3 _]. destruct (calt_cases winline_comment (weat_separator [c_space; c_tab; c_cr; c_lf]) (47%N :: c2 :: s)) as [[_ ->]|[E4 ->]]; [|congruence].
      rewrite fst_add, eat_stop by reflexivity. intros [= <- <-]. congruence.
  - rewrite slash_neq by exact H47. rewrite (calt_err winline_comment) with (n := 2) by (apply inline_neq; exact H47). rewrite fst_add, snd_add. cbn [snd].
    pose proof (eat_cost [c_space; c_tab; c_cr; c_lf] (c :: s)) as [Ec _]. intros H. rewrite H in Ec. rewrite Ec. lia.
Qed.
Lemma ws_item_stop s : (forall r v, fst (wws_item s) = Ok r v -> r = s) -> snd (wws_item s) <= 7 + (if opens_comment s then 3 * ln s + 20 else 0).
Proof.
  unfold wws_item. destruct s as [|c s]; [intros _; cbn; lia|].
  intros H. destruct (N.eq_dec c 35) as [->|H35].
  { change (opens_comment (35%N :: s)) with true. cbn iota. destruct (calt_cases whash_comment (calt wslash_comment (calt winline_comment (weat_separator [c_space; c_tab; c_cr; c_lf]))) (35%N :: s)) as [[E1 E]|[E1 E]]; rewrite E.
    - rewrite snd_add, calt_err with (n := 2) by (apply slash_neq; discriminate). rewrite snd_add, (calt_err winline_comment) with (n := 2) by (apply inline_neq; discriminate).
      rewrite snd_add, eat_stop by reflexivity. pose proof (hash_cost (35%N :: s)). cbn [snd]. lia.
    - pose proof (hash_cost (35%N :: s)). lia. }
  rewrite (calt_err whash_comment) with (n := 2) in * by (apply hash_neq; exact H35). rewrite snd_add. rewrite fst_add in H.
  destruct (N.eq_dec c 47) as [->|H47].
  2:{ rewrite (calt_err wslash_comment) with (n := 2) in * by (apply slash_neq; exact H47). rewrite snd_add. rewrite fst_add in H. rewrite (calt_err winline_comment) with (n := 2) in * by (apply inline_neq; exact H47).
      rewrite snd_add. rewrite fst_add in H. destruct (eat_cost [c_space; c_tab; c_cr; c_lf] (c :: s)) as (Ec & r & v & Er & Hl). rewrite Er in Ec. rewrite Ec. rewrite (H _ _ Er). lia. }
  change (opens_comment (47%N :: s)) with true. cbn iota.
  pose proof (slash_cost (47%N :: s)) as S1. pose proof (inline_cost (47%N :: s)) as I1.
  assert (X : snd (wslash_comment (47%N :: s)) <= 3 \/ snd (winline_comment (47%N :: s)) <= 3).
  { destruct s as [|c2 s]; [left; cbn; lia|]. destruct (N.eq_dec c2 42) as [->|]; [left; apply slash_second; discriminate|right; apply inline_second; assumption]. }
  destruct (calt_cases wslash_comment (calt winline_comment (weat_separator [c_space; c_tab; c_cr; c_lf])) (47%N :: s)) as [[_ ->]|[_ ->]]; [|lia]. rewrite snd_add.
  destruct (calt_cases winline_comment (weat_separator [c_space; c_tab; c_cr; c_lf]) (47%N :: s)) as [[_ ->]|[_ ->]]; [|lia]. rewrite snd_add, eat_stop by reflexivity. cbn [snd]. lia.
Qed.
Lemma ws_stopped s r v f : fst (cmany0_loop f wws_item s) = Ok r v -> snd (cmany0_loop f wws_item s) + 8 * ln r <= 8 * ln s + (7 + (if opens_comment r then 3 * ln r + 20 else 0)).
Proof.
  apply (many0_cost wws_item (fun s => 8 * ln s) (fun s => 7 + (if opens_comment s then 3 * ln s + 20 else 0)) 27).
  - intros s0 r0 v0 H Hn. apply ws_item_paid with (v := v0); assumption.
  - apply ws_item_stop.
  - intros s0. destruct (opens_comment s0); lia.
Qed.
(** What lies between [s] and the end of its white space *)
Definition gap (s : str) : nat := ln s - ln (ws_rest s).
Definition igap (s : str) : nat := ln s - ln (iws_rest s).
Lemma gap_eq s : ln s = gap s + ln (ws_rest s). Proof. unfold gap. pose proof (ws_len s). lia. Qed.
Lemma igap_eq s : ln s = igap s + ln (iws_rest s). Proof. unfold igap. pose proof (iws_len s). lia. Qed.
Lemma ws_run s : exists v n, wwhitespace s = (Ok (ws_rest s) v, n) /\ n <= 8 * gap s + 7 + jam (ws_rest s).
Proof.
  destruct (whitespace_eq s) as [v E]. pose proof (we_whitespace s) as W. rewrite E in W. destruct (wwhitespace s) as [x n] eqn:Ew. cbn in W. subst x. exists v, n. split; [reflexivity|].
  change (wwhitespace s) with (cmany0_loop (S (ln s)) wws_item s) in Ew. pose proof (ws_stopped s (ws_rest s) v (S (ln s))) as H. rewrite Ew in H. specialize (H eq_refl). cbn [snd] in H.
  pose proof (gap_eq s). destruct (opens_comment (ws_rest s)) eqn:Eo; [rewrite (jam_stuck _ Eo (ws_rest_idem s))|]; lia.
Qed.
Lemma iws_item_paid s r v : fst (wiws_item s) = Ok r v -> r <> s -> snd (wiws_item s) + 8 * ln r <= 8 * ln s.
Proof.
  intros H Hn. pose proof (wf_iws_item s) as Hs. rewrite <- (we_iws_item s), H in Hs. cbn in Hs. pose proof (suffix_neq_len _ _ Hs Hn) as Hl. clear Hs. revert H. unfold wiws_item.
  destruct (calt_cases winline_comment (weat_separator [c_space; c_tab]) s) as [[E1 ->]|[E1 ->]].
  2:{ intros H. apply inline_ok in H as [H1 H2]. lia. }
  rewrite fst_add, snd_add. destruct s as [|c s]; [cbn in Hl; lia|].
  destruct (N.eq_dec c 47) as [->|H47].
  - rewrite eat_stop by reflexivity. intros [= <- <-]. congruence.
  - rewrite inline_neq by exact H47. cbn [snd]. pose proof (eat_cost [c_space; c_tab] (c :: s)) as [Ec _]. intros H. rewrite H in Ec. rewrite Ec. lia.
Qed.
Definition opens_inline (s : str) : bool := match s with c :: d :: _ => ((c =? 47) && (d =? 42))%N | _ => false end.
Lemma iws_item_stop s : (forall r v, fst (wiws_item s) = Ok r v -> r = s) -> snd (wiws_item s) <= 5 + (if opens_inline s then 3 * ln s + 20 else 0).
Proof.
  unfold wiws_item. destruct s as [|c s]; [intros _; cbn; lia|].
  intros H. destruct (N.eq_dec c 47) as [->|H47].
  2:{ rewrite (calt_err winline_comment) with (n := 2) in * by (apply inline_neq; exact H47).
      rewrite snd_add. rewrite fst_add in H. destruct (eat_cost [c_space; c_tab] (c :: s)) as (Ec & r & v & Er & Hl). rewrite Er in Ec. rewrite Ec. rewrite (H _ _ Er). lia. }
  pose proof (inline_cost (47%N :: s)) as I1.
  assert (X : snd (winline_comment (47%N :: s)) <= 3 \/ opens_inline (47%N :: s) = true).
  { destruct s as [|c2 s]; [left; cbn; lia|]. destruct (N.eq_dec c2 42) as [->|]; [right; reflexivity|left; apply inline_second; assumption]. }
  destruct (calt_cases winline_comment (weat_separator [c_space; c_tab]) (47%N :: s)) as [[_ ->]|[_ ->]].
  - rewrite snd_add, eat_stop by reflexivity. cbn [snd]. destruct X as [X| ->]; lia.
  - destruct X as [X| ->]; lia.
Qed.
Lemma iws_stopped s r v f : fst (cmany0_loop f wiws_item s) = Ok r v -> snd (cmany0_loop f wiws_item s) + 8 * ln r <= 8 * ln s + (5 + (if opens_inline r then 3 * ln r + 20 else 0)).
Proof.
  apply (many0_cost wiws_item (fun s => 8 * ln s) (fun s => 5 + (if opens_inline s then 3 * ln s + 20 else 0)) 25).
  - intros s0 r0 v0 H Hn. apply iws_item_paid with (v := v0); assumption.
  - apply iws_item_stop.
  - intros s0. destruct (opens_inline s0); lia.
Qed.
Lemma iws_stuck s : iws_rest s = s -> opens_inline s = true -> ws_rest s = s.
Proof.
  intros H Ho. destruct s as [|c [|d s]]; try discriminate. cbn in Ho. apply andb_prop in Ho as [H1 H2]. apply N.eqb_eq in H1, H2. subst c d.
  destruct (inline_comment (47%N :: 42%N :: s)) as [r v| | | |] eqn:E.
  - exfalso. assert (Ei : iws_item (47%N :: 42%N :: s) = Ok r v) by (unfold iws_item, alt; rewrite E; reflexivity). apply iws_rest_item in Ei. rewrite H in Ei.
    apply inline_comment_ok in E as (w & Hw & E). pose proof (iws_len r) as Hl. rewrite <- Ei in Hl. rewrite E, app_length in Hl. destruct Hw as [t Hw]. cbn [app length] in Hl. lia.
  - rewrite ws_rest_step. assert (X : ws_item (47%N :: 42%N :: s) = Ok (47%N :: 42%N :: s) []).
    { unfold ws_item. rewrite alt_err by (apply hash_comment_first; discriminate). rewrite alt_err by (apply slash_comment_second; discriminate). rewrite alt_err by exact E. reflexivity. }
    rewrite X. rewrite str_eqb_refl. reflexivity.
  - pose proof (simple_inline_comment (47%N :: 42%N :: s)) as X. rewrite E in X. destruct X as [(? & ? & X)|X]; discriminate.
  - pose proof (simple_inline_comment (47%N :: 42%N :: s)) as X. rewrite E in X. destruct X as [(? & ? & X)|X]; discriminate.
  - pose proof (simple_inline_comment (47%N :: 42%N :: s)) as X. rewrite E in X. destruct X as [(? & ? & X)|X]; discriminate.
Qed.
Lemma iws_run s : exists v n, winline_whitespace s = (Ok (iws_rest s) v, n) /\ n <= 8 * igap s + 5 + jam (iws_rest s).
Proof.
  destruct (inline_whitespace_eq s) as [v E]. pose proof (we_inline_whitespace s) as W. rewrite E in W. destruct (winline_whitespace s) as [x n] eqn:Ew. cbn in W. subst x. exists v, n. split; [reflexivity|].
  change (winline_whitespace s) with (cmany0_loop (S (ln s)) wiws_item s) in Ew. pose proof (iws_stopped s (iws_rest s) v (S (ln s))) as H. rewrite Ew in H. specialize (H eq_refl). cbn [snd] in H.
  pose proof (igap_eq s). destruct (opens_inline (iws_rest s)) eqn:Eo; [|lia]. rewrite (jam_stuck _); [lia| |apply iws_stuck; [apply iws_rest_idem|exact Eo]].
  destruct (iws_rest s) as [|c [|d t]]; try discriminate. cbn in *. apply andb_prop in Eo as [Eo _]. rewrite Eo. reflexivity.
Qed.
(** Skipping white space before and after a parser *)
Lemma wwrap_ws {A} (p : cparser A) s : exists n, wwrap wwhitespace p s = add n (p (ws_rest s)) /\ n <= 8 * gap s + 7 + jam (ws_rest s).
Proof. destruct (ws_run s) as (v & n & E & H). exists n. split; [|exact H]. unfold wwrap, cpreceded. rewrite E. reflexivity. Qed.
Lemma wwrap_iws {A} (p : cparser A) s : exists n, wwrap winline_whitespace p s = add n (p (iws_rest s)) /\ n <= 8 * igap s + 5 + jam (iws_rest s).
Proof. destruct (iws_run s) as (v & n & E & H). exists n. split; [|exact H]. unfold wwrap, cpreceded. rewrite E. reflexivity. Qed.
