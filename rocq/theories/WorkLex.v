(** * WorkLex: what the tokens cost *)
From Coq Require Import Lia.
From Verif Require Import Base Nom NomFacts Ast Lex Grammar WsFacts NumFacts StrFacts HeredocFacts Parser ParserFacts Locality CallCount CallProofs WorkCount WorkProofs WorkTokens.
Open Scope nat_scope.
Local Notation ln := (@length N).

(** [J a k e p]: read, [p] costs at most [a] for each character read and [k]; not read, [e] *)
Definition J {A} (a k e : nat) (p : cparser A) : Prop :=
  forall s, match fst (p s) with Ok r _ => snd (p s) + a * ln r <= a * ln s + k | Err => snd (p s) <= e | _ => False end.
(** [T a k p]: [p] always succeeds *)
Definition T {A} (a k : nat) (p : cparser A) : Prop :=
  forall s, match fst (p s) with Ok r _ => snd (p s) + a * ln r <= a * ln s + k | _ => False end.
Lemma J_weak {A} (p : cparser A) a k e k' e' : J a k e p -> k <= k' -> e <= e' -> J a k' e' p.
Proof. intros H Hk He s. specialize (H s). destruct (fst (p s)); lia || exact H. Qed.
Lemma T_weak {A} (p : cparser A) a k k' : T a k p -> k <= k' -> T a k' p.
Proof. intros H Hk s. specialize (H s). destruct (fst (p s)); lia || exact H. Qed.
Lemma J_alt {A} (p q : cparser A) a k e k' e' : J a k e p -> J a k' e' q -> J a (k + (e + k')) (e + e') (calt p q).
Proof.
  intros H1 H2 s. specialize (H1 s). specialize (H2 s). unfold calt. destruct (p s) as [[r v| | | |] n]; cbn [fst snd] in *; try lia.
  unfold add. cbn [fst snd]. destruct (fst (q s)); lia.
Qed.
Lemma T_opt {A} (p : cparser A) a k e : J a k e p -> T a (k + e) (copt p).
Proof. intros H s. specialize (H s). unfold copt. destruct (p s) as [[r v| | | |] n]; cbn [fst snd] in *; lia. Qed.
Lemma J_pmap {A B} (f : A -> B) (p : cparser A) a k e : J a k e p -> J a k e (wpmap f p).
Proof. intros H s. specialize (H s). unfold wpmap. destruct (p s) as [[r v| | | |] n]; cbn in *; auto. Qed.
Lemma T_pmap {A B} (f : A -> B) (p : cparser A) a k : T a k p -> T a k (wpmap f p).
Proof. intros H s. specialize (H s). unfold wpmap. destruct (p s) as [[r v| | | |] n]; cbn in *; auto. Qed.
Lemma J_bind_T {A B} (p : cparser A) (q : A -> cparser B) a k e k' : J a k e p -> (forall v, T a k' (q v)) -> J a (k + k') e (fun s => let+ (r, v) := p s in q v r).
Proof.
  intros H1 H2 s. specialize (H1 s). destruct (p s) as [[r v| | | |] n]; cbn [cbind fst snd add] in *; try lia.
  specialize (H2 v r). unfold add. cbn [fst snd]. destruct (fst (q v r)); lia.
Qed.
Lemma T_bind_T {A B} (p : cparser A) (q : A -> cparser B) a k k' : T a k p -> (forall v, T a k' (q v)) -> T a (k + k') (fun s => let+ (r, v) := p s in q v r).
Proof.
  intros H1 H2 s. specialize (H1 s). destruct (p s) as [[r v| | | |] n]; cbn [cbind fst snd add] in *; try lia.
  specialize (H2 v r). unfold add. cbn [fst snd]. destruct (fst (q v r)); lia.
Qed.
(** what comes first is cheap whatever it reads *)
Lemma J_bind {A B} (p : cparser A) (q : A -> cparser B) a k e c k' e' : J a k e p -> (forall s, snd (p s) <= c) -> (forall v, J a k' e' (q v)) ->
  J a (k + k') (e + c + e') (fun s => let+ (r, v) := p s in q v r).
Proof.
  intros H1 Hc H2 s. specialize (H1 s). specialize (Hc s). destruct (p s) as [[r v| | | |] n]; cbn [cbind fst snd add] in *; try lia.
  specialize (H2 v r). unfold add. cbn [fst snd]. destruct (fst (q v r)); lia.
Qed.
Lemma T_ret {A} (v : A) a : T a 0 (fun s => (Ok s v, 0)).
Proof. intros s. cbn. lia. Qed.
Lemma J_T {A} (p : cparser A) a k : T a k p -> J a k 0 p.
Proof. intros H s. specialize (H s). destruct (fst (p s)); lia. Qed.
(** the primitives *)
Lemma J_tag t : t <> [] -> J 1 1 (S (ln t)) (w_tag t).
Proof.
  intros Ht s. pose proof (tag_cost t s) as C. rewrite (we_tag t s). destruct (tag_cases t s) as [(r & -> & E)|E]; rewrite E; [|exact C].
  rewrite app_length. lia.
Qed.
Lemma J_char c : J 1 0 1 (w_char c).
Proof. intros s. cbn. destruct s as [|d s]; [cbn; lia|]. cbn. destruct (d =? c)%N; cbn; lia. Qed.
Lemma span_len p s a b : span p s = (a, b) -> ln s = ln a + ln b /\ run p s = ln a.
Proof. intros H. unfold run. rewrite H. split; [|reflexivity]. apply span_app in H as ->. apply app_length. Qed.
Lemma J_tw1 p : J 1 1 1 (w_take_while1 p).
Proof.
  intros s. cbn [w_take_while1 prim fst snd]. unfold take_while1. destruct (span p s) as [a b] eqn:E. pose proof (span_len _ _ _ _ E) as [H1 H2]. rewrite H2. destruct a as [|c a]; cbn [length] in *; lia.
Qed.
Lemma T_tw p : T 1 1 (w_take_while p).
Proof. intros s. cbn [w_take_while prim fst snd]. unfold take_while. destruct (span p s) as [a b] eqn:E. pose proof (span_len _ _ _ _ E) as [H1 H2]. lia. Qed.

(** ** Literals and numbers *)
Lemma wnull_cost : J 1 1 5 wnull. Proof. apply J_pmap. apply J_tag. discriminate. Qed.
Lemma wboolean_cost : J 1 7 11 wboolean.
Proof. eapply J_weak; [apply J_alt; apply J_pmap; apply J_tag; discriminate| |]; cbn; lia. Qed.
Lemma wdigit_cost : J 1 1 1 wdigit. Proof. apply J_tw1. Qed.
Lemma wsign_cost : J 1 1 2 wsign_char. Proof. eapply J_weak; [apply J_alt; apply J_char| |]; lia. Qed.
Lemma wsign_any s : snd (wsign_char s) <= 2. Proof. unfold wsign_char, calt, w_char, prim. destruct (char_p c_plus s); cbn; lia. Qed.
Lemma wopt_sign_any s : snd (copt wsign_char s) <= 2. Proof. pose proof (wsign_any s) as H. unfold copt. destruct (wsign_char s) as [[| | | |] n]; cbn in *; lia. Qed.
Lemma wexponent_cost : T 1 20 wexponent.
Proof.
  unfold wexponent. eapply T_weak; [eapply T_opt|].
  - apply (J_bind (calt (w_char 101%N) (w_char 69%N)) (fun _ s => let+ (r2, sign) := copt wsign_char s in let+ (r3, d) := wdigit r2 in (Ok r3 (mk_exponent (sign_positive sign) (Borrowed d)), 0)) 1 (0 + (1 + 0)) (1 + 1) 2 (3 + (1 + 0)) (0 + 2 + 1)).
    + apply J_alt; apply J_char.
    + intros s. unfold calt, w_char, prim. destruct (char_p 101%N s); cbn; lia.
    + intros _. apply (J_bind (copt wsign_char) (fun sign s => let+ (r3, d) := wdigit s in (Ok r3 (mk_exponent (sign_positive sign) (Borrowed d)), 0)) 1 3 0 2 (1 + 0) 1).
      * apply J_T. eapply T_weak; [apply T_opt, wsign_cost|lia].
      * apply wopt_sign_any.
      * intros sign. apply (J_bind_T wdigit (fun d s => (Ok s (mk_exponent (sign_positive sign) (Borrowed d)), 0))); [apply wdigit_cost|intros; apply T_ret].
  - lia.
Qed.
Lemma wmantissa_cost : J 1 20 20 wmantissa.
Proof.
  unfold wmantissa. eapply J_weak; [apply J_alt with (k := 1 + 5) (e := 1) (k' := 0 + (1 + 0)) (e' := 1 + 1 + 1)| |]; [| |lia|lia].
  - apply (J_bind_T wdigit (fun d s => let+ (r2, dec) := copt (fun s1 => let+ (q1, _dot) := w_char c_dot s1 in copt wdigit q1) s in
        (Ok r2 (Some d, match dec with None => None | Some None => Some [] | Some (Some f) => Some f end), 0))); [apply wdigit_cost|].
    intros d. eapply T_weak; [apply (T_bind_T (copt (fun s1 => let+ (q1, _dot) := w_char c_dot s1 in copt wdigit q1)) (fun dec s =>
        (Ok s (Some d, match dec with None => None | Some None => Some [] | Some (Some f) => Some f end), 0)) 1 ((0 + (1 + 1)) + 1) 0)|lia].
    + apply T_opt. apply (J_bind_T (w_char c_dot) (fun _ s => copt wdigit s)); [apply J_char|]. intros _. apply T_opt, wdigit_cost.
    + intros dec. apply T_ret.
  - apply (J_bind (w_char c_dot) (fun _ s => let+ (r2, d) := wdigit s in (Ok r2 (None, Some d), 0)) 1 0 1 1 (1 + 0) 1); [apply J_char|intros; cbn; lia|].
    intros _. apply (J_bind_T wdigit (fun d s => (Ok s (None, Some d), 0))); [apply wdigit_cost|intros; apply T_ret].
Qed.
Lemma wnumber_cost : J 1 50 30 wnumber.
Proof.
  intros s. unfold wnumber. pose proof (T_opt _ _ _ _ wsign_cost s) as H1. pose proof (wopt_sign_any s) as H2.
  destruct (copt wsign_char s) as [[r v| | | |] n]; cbn [fst snd cbind add] in *; try lia. pose proof (wmantissa_cost r) as H3.
  destruct (wmantissa r) as [[r1 v1| | | |] n1]; cbn [fst snd cbind add] in *; try lia. pose proof (wexponent_cost r1) as H4.
  destruct (wexponent r1) as [[r2 v2| | | |] n2]; cbn [fst snd cbind add] in *; lia.
Qed.

Section Tokens.
Context (U : ucd).

(** ** Identifiers *)
Lemma widentifier_any s : snd (widentifier U s) <= run (id_char U) s + 2.
Proof.
  unfold widentifier, wpmap, cverify, w_take_while1, prim. destruct (take_while1 (id_char U) s) as [r v| | | |]; cbn; try lia.
Qed.
Lemma widentifier_ok s r v : fst (widentifier U s) = Ok r v -> snd (widentifier U s) + ln r <= ln s + 2 /\ ln r < ln s /\ run (id_char U) r = 0 /\ 0 < run (id_char U) s.
Proof.
  intros H. pose proof (widentifier_any s) as C. rewrite (we_identifier U s) in H. unfold identifier in H. unfold pmap, verify, take_while1 in H.
  destruct (span (id_char U) s) as [a b] eqn:E. pose proof (span_len _ _ _ _ E) as [H1 H2]. destruct a as [|c a]; [discriminate|]. cbn [bind] in H.
  destruct (id_first U c); [|discriminate]. injection H as -> _. rewrite H2 in *. cbn [length] in *. repeat split; try lia.
  apply span_spec in E as (_ & _ & E). unfold run. destruct r as [|x r]; [reflexivity|]. cbn in E |- *. rewrite E. reflexivity.
Qed.
Lemma run_zero c s : id_char U c = false -> run (id_char U) (c :: s) = 0.
Proof. intros H. unfold run. cbn. rewrite H. reflexivity. Qed.

(** ** Strings *)
Lemma run_span p s : ln (fst (span p s)) <= ln s. Proof. apply run_le. Qed.
Lemma wunescape_any s : snd (wunescape s) <= 90.
Proof.
  assert (A : forall {A} (p q : cparser A) m n, (forall s, snd (p s) <= m) -> (forall s, snd (q s) <= n) -> forall s, snd (calt p q s) <= m + n).
  { intros B p q m n H1 H2 s0. specialize (H1 s0). specialize (H2 s0). unfold calt. destruct (p s0) as [[| | | |] k]; cbn in *; lia. }
  assert (Tg : forall {B} (v : B) t, forall s, snd (wpmap (fun _ => v) (w_tag t) s) <= S (ln t)).
  { intros B v t s0. pose proof (tag_cost t s0). unfold wpmap. destruct (w_tag t s0) as [x n]. cbn in *. lia. }
  assert (Mn : forall m n p s r v, take_while_m_n m n p s = Ok r v -> ln v <= n).
  { intros m n p s0 r v H. unfold take_while_m_n in H. repeat match type of H with context [match ?x with _ => _ end] => destruct x eqn:?; try discriminate end; injection H as _ <-; pose proof (firstn_length n s0); try rewrite firstn_length in *; try lia. }
  assert (Hx : forall c n s, snd (whex_escape c n s) <= 4 + 2 * n).
  { intros c n s0. unfold whex_escape, cmap_opt, cpreceded. pose proof (tag_cost [c] s0) as X. destruct (w_tag [c] s0) as [[r v| | | |] k]; cbn [cbind fst snd add length] in *; try lia.
    unfold w_take_while_m_n, prim. pose proof (Nat.le_min_l n (run is_hex_digit r)). destruct (take_while_m_n 1 n is_hex_digit r) as [r' v'| | | |] eqn:E; cbn [cbind fst snd add]; try lia.
    apply Mn in E. lia. }
  assert (Oc : forall s, snd (woctal_escape s) <= 8).
  { intros s0. unfold woctal_escape, cmap_opt. unfold w_take_while_m_n, prim. pose proof (Nat.le_min_l 3 (run is_oct_digit s0)). destruct (take_while_m_n 1 3 is_oct_digit s0) as [r' v'| | | |] eqn:E; cbn [cbind fst snd add]; try lia.
    apply Mn in E. lia. }
  assert (Re : forall s, snd (whex_to_unicode s) <= 6 + (4 + 2 * 4) + (4 + 2 * 8) + 4).
  { intros s0. unfold whex_to_unicode, creturn_error.
    pose proof (A _ _ _ _ _ (Hx 120%N 2) (A _ _ _ _ _ (Hx 117%N 4) (Hx 85%N 8)) s0) as X. destruct (calt _ _ s0) as [[| | | |] k]; cbn in *; lia. }
  assert (U0 : forall k p, (forall s, snd (p s) <= k) -> forall (v : str) t, ln t = 1 -> forall s, snd (calt (wpmap (fun _ => v) (w_tag t)) p s) <= 2 + k).
  { intros k p H v t Ht s0. pose proof (A _ _ _ _ _ (Tg _ v t) H s0). lia. }
  unfold wunescape. refine (Nat.le_trans _ _ _ (U0 _ _ (U0 _ _ (U0 _ _ (U0 _ _ (U0 _ _ (U0 _ _ (U0 _ _ (U0 _ _ (U0 _ _ (U0 _ _ (A _ _ _ _ _ Oc Re) _ _ _) _ _ _) _ _ _) _ _ _) _ _ _) _ _ _) _ _ _) _ _ _) _ _ _) _ _ _ s) _); try reflexivity; lia.
Qed.
Lemma wescaped_cost normal : forall f s, snd (wescaped_loop f normal wunescape s) <= 100 * ln s + 2 /\
  forall r v, fst (wescaped_loop f normal wunescape s) = Ok r v -> snd (wescaped_loop f normal wunescape s) + 100 * ln r <= 100 * ln s + 2.
Proof.
  induction f as [|f IH]; intros s; cbn [wescaped_loop]; [split; [cbn; lia|discriminate]|].
  destruct s as [|c s']; [split; [cbn; lia|intros ? ? [= <- <-]; cbn; lia]|].
  destruct (span normal (c :: s')) as [a b] eqn:E. pose proof (span_len _ _ _ _ E) as [H1 _].
  destruct a as [|a0 a].
  - destruct (c =? c_backslash)%N; [|split; [cbn; lia|intros ? ? [= <- <-]; cbn [snd]; lia]].
    destruct s' as [|d s'']; [split; [cbn; lia|discriminate]|].
    pose proof (wunescape_any (d :: s'')) as C. pose proof (wf_unescape (d :: s'')) as W. rewrite <- (we_unescape (d :: s'')) in W.
    destruct (wunescape (d :: s'')) as [[r o| | | |] n]; cbn [fst snd cbind add] in *; try (split; [cbn [length] in *; lia|discriminate]).
    cbn in W. apply suffix_len in W. destruct (IH r) as [I1 I2]. destruct (wescaped_loop f normal wunescape r) as [x m]. cbn [fst snd] in *. split; [cbn [length] in *; lia|].
    intros r1 v1 H. unfold map_res in H. apply bind_ok in H as (r2 & v2 & H & [= <- <-]). specialize (I2 _ _ H). cbn [length] in *. lia.
  - destruct (IH b) as [I1 I2]. destruct (wescaped_loop f normal wunescape b) as [x m]. cbn [fst snd] in *. split; [cbn [length] in *; lia|].
    intros r1 v1 H. unfold map_res in H. apply bind_ok in H as (r2 & v2 & H & [= <- <-]). specialize (I2 _ _ H). cbn [length] in *. lia.
Qed.
Lemma wquoted_gen normal (q := cdelimited (w_tag [c_dquote]) (wescaped_transform normal wunescape) (w_tag [c_dquote])) s :
  snd (q s) <= 100 * ln s + 10 /\ (forall r v, fst (q s) = Ok r v -> snd (q s) + 100 * ln r + 150 <= 100 * ln s) /\ (forall c t, s = c :: t -> c <> c_dquote -> q s = (Err, 2)) /\ (s = [] -> snd (q s) = 1).
Proof.
  subst q. unfold cdelimited. pose proof (J_tag [c_dquote] ltac:(discriminate) s) as H1. pose proof (tag_cost [c_dquote] s) as C1.
  assert (L1 : forall r v, fst (w_tag [c_dquote] s) = Ok r v -> S (ln r) = ln s).
  { intros r v H. rewrite (we_tag _ s) in H. apply tag_ok in H as [-> _]. reflexivity. }
  split; [|split; [|split]].
  - destruct (w_tag [c_dquote] s) as [[r v| | | |] n]; cbn [fst snd cbind add length] in *; try lia. specialize (L1 _ _ eq_refl).
    unfold wescaped_transform. destruct (wescaped_cost normal (S (ln r)) r) as [E1 E2]. destruct (wescaped_loop _ _ _ r) as [[r1 v1| | | |] m]; cbn [fst snd cbind add] in *; try lia.
    specialize (E2 _ _ eq_refl). pose proof (tag_cost [c_dquote] r1) as C2. destruct (w_tag [c_dquote] r1) as [[r2 v2| | | |] o]; cbn [fst snd cbind add length] in *; lia.
  - intros r0 v0.
    destruct (w_tag [c_dquote] s) as [[r v| | | |] n]; cbn [fst snd cbind add length] in *; try discriminate. specialize (L1 _ _ eq_refl).
    unfold wescaped_transform. destruct (wescaped_cost normal (S (ln r)) r) as [E1 E2]. destruct (wescaped_loop _ _ _ r) as [[r1 v1| | | |] m]; cbn [fst snd cbind add] in *; try discriminate.
    specialize (E2 _ _ eq_refl). pose proof (tag_cost [c_dquote] r1) as C2. assert (L2 : forall r v, fst (w_tag [c_dquote] r1) = Ok r v -> S (ln r) = ln r1).
    { intros r2 v2 H. rewrite (we_tag _ r1) in H. apply tag_ok in H as [-> _]. reflexivity. }
    destruct (w_tag [c_dquote] r1) as [[r2 v2| | | |] o]; cbn [fst snd cbind add length] in *; try discriminate. specialize (L2 _ _ eq_refl). intros [= <- <-]. lia.
  - intros c t -> Hc. rewrite tag_cost_neq by congruence. reflexivity.
  - intros ->. reflexivity.
Qed.

(** ** Here documents *)
Lemma run_app p a s : forallb p a = true -> run p (a ++ s) = ln a + run p s.
Proof.
  intros H. unfold run. induction a as [|c a IH]; [reflexivity|]. cbn in H |- *. apply andb_prop in H as [-> H]. specialize (IH H).
  destruct (span p (a ++ s)) as [x y]. cbn in *. lia.
Qed.
Lemma run_cons p c s : run p (c :: s) = if p c then S (run p s) else 0.
Proof. unfold run. cbn. destruct (p c); [|reflexivity]. destruct (span p s). reflexivity. Qed.
Lemma compared_run m s : forallb not_eol m = true -> compared m s <= run not_eol s + 1.
Proof.
  revert s. induction m as [|x m IH]; intros [|y s] H; cbn [compared]; try lia. cbn in H. apply andb_prop in H as [Hx H].
  destruct (N.eqb_spec x y) as [<-|]; [|lia]. rewrite run_cons, Hx. specialize (IH s H). lia.
Qed.
Definition line (s : str) : nat :=
  match s with
  | c :: t => if (c =? c_lf)%N then run not_eol t else if (c =? c_cr)%N then match t with d :: t' => if (d =? c_lf)%N then run not_eol t' else 0 | [] => 0 end else 0
  | [] => 0
  end.
Lemma weol_ok s r v : fst (weol s) = Ok r v -> line s = run not_eol r /\ ln r < ln s.
Proof. rewrite (we_eol s). intros H. apply eol_ok in H as [[|] ->]; cbn; split; reflexivity || lia. Qed.
Lemma line_le s : line s <= ln s.
Proof.
  unfold line. destruct s as [|c t]; [lia|]. pose proof (run_le not_eol t). destruct (_ =? _)%N; [cbn [length]; lia|]. destruct (_ =? _)%N; [|lia]. destruct t as [|d t']; [lia|].
  pose proof (run_le not_eol t'). destruct (_ =? _)%N; cbn [length]; lia.
Qed.
Lemma marker_line m : MarkerText U m -> forallb not_eol m = true.
Proof. intros [_ H]. apply forallb_forall. intros c Hc. apply H, marker_spec, marker_not in Hc. unfold not_eol. change c_cr with 13%N. change c_lf with 10%N. lia. Qed.
Lemma wheredoc_end_any h s : MarkerText U (hd_ident h) -> snd (wheredoc_end h s) <= 13 + line s.
Proof.
  intros Hm. apply marker_line in Hm. unfold wheredoc_end. pose proof (eol_cost s) as C. pose proof (weol_ok s) as W.
  destruct (weol s) as [[r v| | | |] n]; cbn [fst snd cbind add] in *; try lia. destruct (W _ _ eq_refl) as [-> _].
  unfold wspace0, w_take_while, prim, take_while. destruct (span _ r) as [a b] eqn:E. pose proof (span_len _ _ _ _ E) as [_ ->]. apply span_spec in E as (-> & Ha & _).
  rewrite run_app. 2:{ apply forallb_forall. intros c Hc. rewrite forallb_forall in Ha. apply Ha in Hc. unfold not_eol. change c_space with 32%N in Hc. change c_tab with 9%N in Hc. change c_cr with 13%N. change c_lf with 10%N. lia. }
  cbn [fst snd cbind add]. pose proof (compared_run _ b Hm) as K. unfold w_tag, prim. destruct (tag (hd_ident h) b) as [r2 v2| | | |]; cbn [fst snd cbind add]; try lia.
  unfold cpeek. pose proof (eol_cost r2) as C2. destruct (weol r2) as [[| | | |] o]; cbn [fst snd cbind add] in *; lia.
Qed.
Lemma wheredoc_end_line h s r v : MarkerText U (hd_ident h) -> fst (wheredoc_end h s) = Ok r v -> line s + ln r < ln s.
Proof.
  intros Hm. rewrite (we_hend h s). intros H. apply (proj1 (heredoc_end_ok U h s r v Hm)) in H as (b & (e & e' & r' & He & Hb & He' & -> & ->) & _).
  assert (X : forall t, line (e ++ t) = run not_eol t) by (intros; destruct He; reflexivity). rewrite X.
  rewrite run_app. 2:{ apply forallb_forall. intros c Hc. apply Hb in Hc. unfold not_eol. change c_cr with 13%N. change c_lf with 10%N. lia. }
  rewrite run_app by (apply marker_line, Hm). assert (Y : run not_eol (e' ++ r') = 0) by (destruct He'; reflexivity). rewrite Y.
  rewrite !app_length. assert (0 < ln e) by (destruct He; cbn; lia). lia.
Qed.
Definition next_line (s : str) : nat := match s with c :: t => if (c =? c_lf)%N then run not_eol t else 0 | [] => 0 end.
Lemma wtake_till_cost h : MarkerText U (hd_ident h) -> forall s,
  snd (wtake_till_match (wheredoc_end h) s) + 2 * run not_eol s + next_line s + 18 * (match fst (wtake_till_match (wheredoc_end h) s) with Ok r _ => ln r | _ => 0 end) <= 18 * ln s + 20.
Proof.
  intros Hm. induction s as [|c s IH]; [cbn; lia|]. cbn [wtake_till_match].
  pose proof (wheredoc_end_any h (c :: s) Hm) as C. pose proof (wheredoc_end_line h (c :: s)) as O. pose proof (run_le not_eol (c :: s)) as R.
  assert (Z : 0 < line (c :: s) -> run not_eol (c :: s) = 0 /\ next_line (c :: s) <= line (c :: s)).
  { unfold line, next_line. rewrite run_cons. unfold not_eol. destruct (N.eqb_spec c c_lf) as [->|]; [cbn; lia|]. destruct (N.eqb_spec c c_cr) as [->|]; [cbn; lia|]. lia. }
  assert (N0 : next_line (c :: s) <= line (c :: s)) by (unfold line, next_line; destruct (_ =? _)%N; lia).
  assert (Step : line (c :: s) + 2 * run not_eol (c :: s) + next_line (c :: s) <= 2 + 2 * run not_eol s + next_line s).
  { unfold line, next_line. rewrite run_cons. unfold not_eol. destruct (N.eqb_spec c c_lf) as [->|]; [cbn; lia|]. destruct (N.eqb_spec c c_cr) as [->|]; [|cbn; lia]. cbn.
    destruct s as [|d s]; [lia|]. destruct (N.eqb_spec d c_lf) as [->|]; lia. }
  destruct (wheredoc_end h (c :: s)) as [[r v| | | |] n] eqn:E; cbn [fst snd length] in *.
  2-3: destruct (wtake_till_match (wheredoc_end h) s) as [x m]; cbn [fst snd] in *; replace (match map_res _ x with Ok r _ => ln r | _ => 0 end) with (match x with Ok r _ => ln r | _ => 0 end) by (destruct x; reflexivity); lia.
  - specialize (O _ _ Hm eq_refl). destruct (Nat.eq_dec (line (c :: s)) 0) as [Z0|Z0]; [|lia].
    assert (run not_eol (c :: s) = 0).
    { pose proof (we_hend h (c :: s)) as X. rewrite E in X. cbn in X. symmetry in X. apply (proj1 (heredoc_end_ok U h _ _ _ Hm)) in X as (b & (e & e' & r' & He & _ & _ & _ & X) & _). clear - He X. destruct He; cbn [app] in X; apply (f_equal (hd_error (A := N))) in X; cbn in X; injection X as ->; reflexivity. }
    lia.
  - lia.
  - lia.
Qed.
Lemma wheredoc_begin_cost s : snd (wheredoc_begin U s) <= ln s + 12 /\ (forall r h, fst (wheredoc_begin U s) = Ok r h -> snd (wheredoc_begin U s) + ln r <= ln s + 12 /\ 3 + ln r <= ln s /\ MarkerText U (hd_ident h)) /\
  (forall c t, s = c :: t -> c <> 60%N -> wheredoc_begin U s = (Err, 2)) /\ (s = [] -> snd (wheredoc_begin U s) = 1).
Proof.
  split; [|split; [|split]].
  - unfold wheredoc_begin. assert (C1 : snd (w_tag (lit "<<") s) <= 3) by apply tag_cost. pose proof (J_tag (lit "<<") ltac:(discriminate) s) as H1. assert (L1 : forall r v, fst (w_tag (lit "<<") s) = Ok r v -> ln r <= ln s).
    { intros r v H. rewrite (we_tag _ s) in H. apply tag_ok in H as [-> _]. rewrite app_length. lia. }
    destruct (w_tag (lit "<<") s) as [[r v| | | |] n]; cbn [fst snd cbind add] in *; try lia. specialize (L1 _ _ eq_refl).
    assert (C2 : snd (w_tag (lit "-") r) <= 2) by apply tag_cost. assert (L2 : forall r1 v, fst (w_tag (lit "-") r) = Ok r1 v -> ln r1 <= ln r).
    { intros r1 v1 H. rewrite (we_tag _ r) in H. apply tag_ok in H as [-> _]. rewrite app_length. lia. }
    assert (C3 : forall q v k, snd (add k (let+ (r3, i) := w_take_while1 (marker_char U) q in let+ (r4, _e) := cpeek weol r3 in (Ok r4 (mk_heredoc i v), 0))) <= k + S (ln q) + 5).
    { intros q v' k. unfold w_take_while1, prim. pose proof (run_le (marker_char U) q). destruct (take_while1 _ q) as [q1 w| | | |]; cbn [fst snd cbind add]; try lia.
      unfold cpeek. pose proof (eol_cost q1). destruct (weol q1) as [[| | | |] o]; cbn [fst snd cbind add] in *; lia. }
    unfold copt. destruct (w_tag (lit "-") r) as [[r1 v1| | | |] n1]; cbn [fst snd cbind] in *; rewrite ?snd_add; try lia.
    + specialize (L2 _ _ eq_refl). specialize (C3 r1 true n1). rewrite snd_add in C3. cbn [fst snd cbind] in *. lia.
    + specialize (C3 r false n1). rewrite snd_add in C3. cbn [fst snd cbind] in *. lia.
  - intros r h H. pose proof H as H0. rewrite (we_hbegin U s) in H0. apply heredoc_begin_ok in H0 as (d & m & e & r' & Hm & Hd & He & Hr & Hs & ->).
    assert (Hl : 3 + ln r <= ln s). { rewrite Hs, !app_length. destruct Hm as [Hm _]. destruct m; [congruence|]. cbn. lia. }
    split; [|split; [exact Hl|exact Hm]].
    unfold wheredoc_begin in *. assert (C1 : snd (w_tag (lit "<<") s) <= 3) by apply tag_cost.
    assert (L1 : forall r v, fst (w_tag (lit "<<") s) = Ok r v -> 2 + ln r = ln s).
    { intros r1 v H1. rewrite (we_tag _ s) in H1. apply tag_ok in H1 as [-> _]. rewrite app_length. reflexivity. }
    destruct (w_tag (lit "<<") s) as [[r0 v| | | |] n]; cbn [fst snd cbind add] in *; try discriminate. specialize (L1 _ _ eq_refl).
    assert (C2 : snd (w_tag (lit "-") r0) <= 2) by apply tag_cost. assert (L2 : forall r1 v, fst (w_tag (lit "-") r0) = Ok r1 v -> 1 + ln r1 = ln r0).
    { intros r1 v1 H1. rewrite (we_tag _ r0) in H1. apply tag_ok in H1 as [-> _]. rewrite app_length. reflexivity. }
    assert (C3 : forall q v k w, fst (add k (let+ (r3, i) := w_take_while1 (marker_char U) q in let+ (r4, _e) := cpeek weol r3 in (Ok r4 (mk_heredoc i v), 0))) = Ok r w ->
       snd (add k (let+ (r3, i) := w_take_while1 (marker_char U) q in let+ (r4, _e) := cpeek weol r3 in (Ok r4 (mk_heredoc i v), 0))) + ln r <= k + 1 + ln q + 5).
    { intros q v' k w. pose proof (J_tw1 (marker_char U) q) as X. destruct (w_take_while1 _ q) as [[q1 w1| | | |] o1]; cbn [fst snd cbind add] in *; try discriminate.
      unfold cpeek. pose proof (eol_cost q1). destruct (weol q1) as [[| | | |] o]; cbn [fst snd cbind add] in *; try discriminate. intros [= <- _]. lia. }
    unfold copt in *. destruct (w_tag (lit "-") r0) as [[r1 v1| | | |] n1]; cbn [fst snd cbind] in *; rewrite ?snd_add; try discriminate.
    + specialize (L2 _ _ eq_refl). specialize (C3 r1 true n1 _ H). rewrite snd_add in C3. cbn [fst snd cbind] in *. lia.
    + specialize (C3 r0 false n1 _ H). rewrite snd_add in C3. cbn [fst snd cbind] in *. lia.
  - intros c t -> Hc. unfold wheredoc_begin. change (lit "<<") with [60; 60]%N. rewrite tag_cost_neq by congruence. reflexivity.
  - intros ->. reflexivity.
Qed.
Lemma wtake_till_content h : forall s r c n, fst (wtake_till_match (wheredoc_end h) s) = Ok r (c, n) -> ln c + ln r <= ln s.
Proof.
  induction s as [|x s IH]; intros r c n; cbn [wtake_till_match]; [discriminate|].
  pose proof (wf_heredoc_end h (x :: s)) as W. rewrite <- (we_hend h (x :: s)) in W.
  destruct (wheredoc_end h (x :: s)) as [[r0 v| | | |] m] eqn:E; cbn [fst]; try discriminate.
  - intros [= <- <- <-]. cbn in W. apply suffix_len in W. cbn [length] in *. lia.
  - intros H. unfold map_res in H. apply bind_ok in H as (r1 & [c1 n1] & H & [= <- <- <-]). apply IH in H. cbn [length]. lia.
  - intros H. unfold map_res in H. apply bind_ok in H as (r1 & [c1 n1] & H & [= <- <- <-]). apply IH in H. cbn [length]. lia.
Qed.
Lemma inner_cost h (q := calt (wpmap (fun _ => ([] : str, O)) (wheredoc_end h)) (fun s1 => let+ (q1, _e) := weol s1 in wtake_till_match (wheredoc_end h) q1)) s : MarkerText U (hd_ident h) ->
  snd (q s) <= 40 * ln s + 60 /\ forall r c n, fst (q s) = Ok r (c, n) -> snd (q s) + 40 * ln r <= 40 * ln s + 60 /\ ln c + ln r <= ln s.
Proof.
  intros Hm. subst q. cbv beta. pose proof (wheredoc_end_any h s Hm) as C. pose proof (line_le s) as L. pose proof (wheredoc_end_line h s) as O.
  pose proof (wf_heredoc_end h s) as W. rewrite <- (we_hend h s) in W.
  unfold calt, wpmap. destruct (wheredoc_end h s) as [[r v| | | |] k]; cbn [fst snd map_res] in *; try (split; [lia|discriminate]).
  - specialize (O _ _ Hm eq_refl). split; [unfold map_res, bind; cbn; lia|]. intros r0 c n H. unfold map_res, bind in H. injection H as <- <- <-. cbn. lia.
  - change (map_res (fun _ : nat => ([] : str, O)) (@Err nat)) with (@Err (str * nat)) in *. cbn [map_res bind] in *. cbv iota. rewrite ?fst_add, ?snd_add. pose proof (eol_cost s) as C1. pose proof (weol_ok s) as W1. destruct (weol s) as [[r1 v1| | | |] m]; cbn [fst snd cbind add] in *; try (split; [lia|discriminate]).
    destruct (W1 _ _ eq_refl) as [Hr Hl]. pose proof (wtake_till_cost h Hm r1) as T1. pose proof (wtake_till_content h r1) as T2. destruct (wtake_till_match (wheredoc_end h) r1) as [[r2 [c n]| | | |] o]; cbn [fst snd] in *; try (split; [lia|discriminate]).
    split; [lia|]. intros r0 c0 n0 [= <- <- <-]. specialize (T2 _ _ _ eq_refl). lia.
  - split; [cbn; lia|intros ? ? ? X; cbn in X; discriminate].
  - split; [cbn; lia|intros ? ? ? X; cbn in X; discriminate].
  - split; [cbn; lia|intros ? ? ? X; cbn in X; discriminate].
Qed.
Lemma wheredoc_cost s : snd (wheredoc_string U s) <= 50 * ln s + 100 /\ (forall r v, fst (wheredoc_string U s) = Ok r v -> snd (wheredoc_string U s) + 50 * ln r + 50 <= 50 * ln s) /\
  (forall c t, s = c :: t -> c <> 60%N -> wheredoc_string U s = (Err, 2)) /\ (s = [] -> snd (wheredoc_string U s) = 1).
Proof.
  destruct (wheredoc_begin_cost s) as (B1 & B2 & B3 & B4).
  assert (P : forall c n, unindent_price c n <= 4 * ln c + 4) by (intros c [|n]; cbn; lia).
  unfold wheredoc_string. split; [|split; [|split]].
  - destruct (wheredoc_begin U s) as [[r h| | | |] n]; cbn [fst snd cbind add] in *; try lia. destruct (B2 _ _ eq_refl) as (B5 & B6 & Hm).
    destruct (inner_cost h r Hm) as [I1 I2]. destruct (calt _ _ r) as [[r1 [c k]| | | |] m]; cbn [fst snd cbind add] in *; try lia. specialize (I2 _ _ _ eq_refl). specialize (P c k). lia.
  - intros r0 v0. destruct (wheredoc_begin U s) as [[r h| | | |] n]; cbn [fst snd cbind add] in *; try discriminate. destruct (B2 _ _ eq_refl) as (B5 & B6 & Hm).
    destruct (inner_cost h r Hm) as [I1 I2]. destruct (calt _ _ r) as [[r1 [c k]| | | |] m]; cbn [fst snd cbind add] in *; try discriminate. specialize (I2 _ _ _ eq_refl). specialize (P c k).
    destruct (unindent_heredoc c k); [|discriminate]. intros [= <- <-]. lia.
  - intros c t Hs Hc. rewrite (B3 _ _ Hs Hc). reflexivity.
  - intros Hs. specialize (B4 Hs). subst s. reflexivity.
Qed.
Lemma wstring_cost s : snd (wstring_p U s) <= 150 * ln s + 110 /\ (forall r v, fst (wstring_p U s) = Ok r v -> snd (wstring_p U s) + 100 * ln r + 40 <= 100 * ln s) /\
  (forall c t, s = c :: t -> c <> 34%N -> c <> 60%N -> wstring_p U s = (Err, 4)) /\ (s = [] -> snd (wstring_p U s) <= 3).
Proof.
  destruct (wquoted_gen legal_string_literal_character s) as (Q1 & Q2 & Q3 & Q4). destruct (wheredoc_cost s) as (H1 & H2 & H3 & H4). fold wquoted_string in Q1, Q2, Q3, Q4.
  unfold wstring_p, calt, wpmap. split; [|split; [|split]].
  - destruct (wquoted_string s) as [[| | | |] n]; cbn [map_res bind fst snd add] in *; try lia.
  - intros r v. destruct (wquoted_string s) as [[r0 v0| | | |] n]; cbn [map_res bind fst snd add] in *; try discriminate.
    + unfold map_res, bind. intros [= <- <-]. specialize (Q2 _ _ eq_refl). lia.
    + intros H. specialize (H2 _ _ H). assert (Hn : n <= 2).
      { destruct s as [|c t]; [specialize (Q4 eq_refl); cbn in Q4; lia|]. destruct (N.eq_dec c c_dquote) as [->|Hc]; [rewrite (H3 c_dquote t eq_refl) in H by discriminate; discriminate|].
        specialize (Q3 _ _ eq_refl Hc). injection Q3 as ->. lia. }
      lia.
  - intros c t Hs A B. rewrite (Q3 _ _ Hs A). cbn [map_res bind]. rewrite (H3 _ _ Hs B). reflexivity.
  - intros ->. cbn. lia.
Qed.
End Tokens.
