(** * WorkExpr: reading an expression costs a bounded number of steps for each character *)
From Coq Require Import Lia.
From Verif Require Import Base Nom NomFacts Ast Lex Grammar WsFacts NumFacts StrFacts HeredocFacts Parser ParserFacts ExprProofs BodyProofs CallCount CallProofs WorkCount WorkProofs WorkTokens WorkLex WorkNl.
Open Scope nat_scope.
Local Notation ln := (@length N).

(** [tot x q]: what [x] costs and, if it is a success, what going on with [q] costs *)
Definition tot {A B} (x : res A * nat) (q : cparser B) : nat := snd x + match fst x with Ok r _ => snd (q r) | _ => 0 end.
Lemma tot_bind {A B D} (x : res A * nat) (q : cparser B) (k : str -> A -> res D * nat) : (forall r v, snd (k r v) = snd (q r)) -> snd (cbind x k) = tot x q.
Proof. intros H. unfold tot. destruct x as [[r v| | | |] n]; cbn [cbind fst snd add]; rewrite ?H; lia. Qed.
Lemma tot_map {A B D} (f : A -> D) (x : res A) n m (q : cparser B) : tot (map_res f x, n + m) q = n + tot (x, m) q.
Proof. unfold tot. destruct x; cbn; lia. Qed.
Lemma wsm_eq {A} (p : cparser A) s : match fst (p s) with
  | Ok r v => exists n, wwhitespace_m p s = (Ok (ws_rest r) v, snd (p s) + n) /\ n <= 8 * gap r + 7 + jam (ws_rest r)
  | _ => wwhitespace_m p s = p s end.
Proof.
  unfold wwhitespace_m, cterminated. destruct (p s) as [[r v| | | |] n]; cbn [fst snd cbind]; try reflexivity.
  destruct (ws_run r) as (w & m & E & H). rewrite E. cbn [cbind add fst snd]. exists (m + 0). split; [reflexivity|lia].
Qed.
Lemma iwsm_eq {A} (p : cparser A) s : match fst (p s) with
  | Ok r v => exists n, winline_whitespace_m p s = (Ok (iws_rest r) v, snd (p s) + n) /\ n <= 8 * igap r + 5 + jam (iws_rest r)
  | _ => winline_whitespace_m p s = p s end.
Proof.
  unfold winline_whitespace_m, cterminated. destruct (p s) as [[r v| | | |] n]; cbn [fst snd cbind]; try reflexivity.
  destruct (iws_run r) as (w & m & E & H). rewrite E. cbn [cbind add fst snd]. exists (m + 0). split; [reflexivity|lia].
Qed.
Lemma gap_rest s : gap (ws_rest s) = 0. Proof. unfold gap. rewrite ws_rest_idem. lia. Qed.
Lemma igap_rest s : igap (iws_rest s) = 0. Proof. unfold igap. rewrite iws_rest_idem. lia. Qed.
Lemma jam_char c t : c <> 47%N -> c <> 35%N -> jam (c :: t) = 0. Proof. apply jam_other. Qed.

(** Where no expression begins *)
Definition dead (s : str) : bool := match s with [] => true | c :: _ => ((c =? 44) || (c =? 93) || (c =? 125))%N end.
Definition hopeless (s : str) : Prop := dead s = true \/ 0 < jam s.
Lemma hopeless_dec s : {hopeless s} + {dead s = false /\ jam s = 0}.
Proof. unfold hopeless. destruct (dead s); [left; auto|]. destruct (jam s); [right; auto|left; right; lia]. Qed.

Section Expr.
Context (U : ucd).

Lemma id_char_plain c : id_char U c = true -> ws_char c = false /\ c <> 34%N /\ c <> 60%N /\ c <> 91%N /\ c <> 123%N /\ c <> 40%N /\ c <> 61%N /\ c <> 44%N /\ c <> 93%N /\ c <> 125%N /\ c <> 47%N /\ c <> 35%N.
Proof.
  unfold id_char, is_id_continue, is_ascii_alpha, is_dec_digit, ws_char. change c_minus with 45%N. change c_underscore with 95%N. destruct (N.ltb_spec c 128) as [H|H]; lia.
Qed.

(** What is proved of the expression parser, by induction on its depth *)
Definition EX (p : cparser expr) : Prop :=
  (forall s r v, fst (p s) = Ok r v -> snd (p s) + 1000 * ln r + 100 <= 1000 * ln s) /\
  (forall s, snd (p s) <= 1000 * ln s + 300) /\
  (forall s, hopeless s -> (forall r v, fst (p s) <> Ok r v) /\ snd (p s) <= 3 * jam s + 150) /\
  (forall c t, id_char U c = true -> snd (p (c :: t)) <= ln (c :: t) + 200 /\ forall r v, fst (p (c :: t)) = Ok r v -> snd (p (c :: t)) + ln r <= ln (c :: t) + 200).

(** ** Tuples *)
Definition tpost : cparser unit := fun r =>
  let+ (r1, _a) := wwhitespace r in
  let+ (r2, _b) := wwhitespace_m (wwrap wwhitespace (copt (w_char c_comma))) r1 in
  let+ (r3, _c) := w_char c_rbracket r2 in (Ok r3 tt, 0).
Lemma w_char_eq c s : w_char c s = (char_p c s, 1). Proof. reflexivity. Qed.
Lemma char_no c s : (forall t, s <> c :: t) -> char_p c s = Err.
Proof. intros H. destruct s as [|d s]; [reflexivity|]. cbn. destruct (N.eqb_spec d c) as [->|]; [exfalso; apply (H s); reflexivity|reflexivity]. Qed.
Lemma char_yes c t : char_p c (c :: t) = Ok t c. Proof. cbn. rewrite N.eqb_refl. reflexivity. Qed.
Lemma starts_dec c (s : str) : {t | s = c :: t} + {forall t, s <> c :: t}.
Proof. destruct s as [|d s]; [right; discriminate|]. destruct (N.eq_dec d c) as [->|]; [left; eauto|right; congruence]. Qed.
Lemma copt_yes c t : copt (w_char c) (c :: t) = (Ok t (Some c), 1). Proof. unfold copt. rewrite w_char_eq, char_yes. reflexivity. Qed.
Lemma copt_no c s : (forall t, s <> c :: t) -> copt (w_char c) s = (Ok s None, 1). Proof. intros H. unfold copt. rewrite w_char_eq, char_no by exact H. reflexivity. Qed.
Lemma tpost_comma r t : ws_rest r = c_comma :: t -> snd (tpost r) <= 8 * gap r + 8 * gap t + 30 + jam (ws_rest t) /\ forall r' v, fst (tpost r) = Ok r' v -> ws_rest t = c_rbracket :: r'.
Proof.
  intros H. unfold tpost. destruct (ws_run r) as (v1 & n1 & E1 & B1). rewrite E1. cbn [cbind]. rewrite H in *.
  assert (J0 : jam (c_comma :: t) = 0) by (apply jam_char; discriminate). assert (W0 : ws_rest (c_comma :: t) = c_comma :: t) by (rewrite <- H; apply ws_rest_idem).
  pose proof (wsm_eq (wwrap wwhitespace (copt (w_char c_comma))) (c_comma :: t)) as M. destruct (wwrap_ws (copt (w_char c_comma)) (c_comma :: t)) as (n2 & E2 & B2). rewrite W0 in E2, B2.
  rewrite E2, copt_yes in M. cbn [add fst snd] in M. destruct M as (n3 & M & B3). rewrite M. cbn [cbind].
  assert (G0 : gap (c_comma :: t) = 0) by (unfold gap; rewrite W0; lia). rewrite w_char_eq.
  destruct (starts_dec c_rbracket (ws_rest t)) as [[q Eq]|Hq]; [rewrite Eq in *; rewrite char_yes|rewrite char_no by exact Hq]; cbn [cbind add fst snd]; (split; [lia|]).
  - intros r' v [= <- _]. reflexivity.
  - discriminate.
Qed.
Lemma tpost_other r : (forall t, ws_rest r <> c_comma :: t) -> snd (tpost r) <= 8 * gap r + 40 + 3 * jam (ws_rest r) /\ forall r' v, fst (tpost r) = Ok r' v -> ws_rest r = c_rbracket :: r'.
Proof.
  intros H. unfold tpost. destruct (ws_run r) as (v1 & n1 & E1 & B1). rewrite E1. cbn [cbind]. remember (ws_rest r) as p eqn:Ep.
  assert (W0 : ws_rest p = p) by (subst p; apply ws_rest_idem). assert (G0 : gap p = 0) by (unfold gap; rewrite W0; lia).
  pose proof (wsm_eq (wwrap wwhitespace (copt (w_char c_comma))) p) as M. destruct (wwrap_ws (copt (w_char c_comma)) p) as (n2 & E2 & B2). rewrite W0 in E2, B2.
  rewrite E2, copt_no in M by exact H. cbn [add fst snd] in M. destruct M as (n3 & M & B3). rewrite M, W0 in *. cbn [cbind]. rewrite w_char_eq.
  destruct (starts_dec c_rbracket p) as [[q Eq]|Hq]; [rewrite Eq in *; rewrite char_yes|rewrite char_no by exact Hq]; cbn [cbind add fst snd]; (split; [lia|]).
  - intros r' v [= <- _]. reflexivity.
  - discriminate.
Qed.
Section Step.
Context (p : cparser expr) (Hp : EX p).
Local Notation item := (wwrap wwhitespace p).
Lemma item_eq s : exists n, item s = add n (p (ws_rest s)) /\ n <= 8 * gap s + 7 + jam (ws_rest s).
Proof. apply wwrap_ws. Qed.
(** an item that cannot be read, and the rest of the tuple from there *)
Local Notation sep := (wwrap wwhitespace (w_char c_comma)).
Lemma sep_eq s : exists n, sep s = add n (char_p c_comma (ws_rest s), 1) /\ n <= 8 * gap s + 7 + jam (ws_rest s).
Proof. apply wwrap_ws. Qed.
(** after an item that fails: with a comma before it, or none *)
Lemma stop_first s : (forall r v, fst (item s) <> Ok r v) ->
  snd (item s) + snd (tpost s) <= 1000 * ln s + 600 /\ forall r v, fst (tpost s) = Ok r v -> snd (item s) + snd (tpost s) + 1000 * ln r + 500 <= 1000 * ln s.
Proof.
  destruct Hp as (P1 & P2 & P3 & _). intros H. destruct (item_eq s) as (n & E & Hn). rewrite E, snd_add. pose proof (gap_eq s) as G. pose proof (jam_le (ws_rest s)) as Jl.
  pose proof (P2 (ws_rest s)) as A. destruct (starts_dec c_comma (ws_rest s)) as [[t Et]|Hc].
  - destruct (tpost_comma s t Et) as [B1 B2]. rewrite Et in *. rewrite jam_char in * by discriminate. pose proof (gap_eq t) as Gt. pose proof (jam_le (ws_rest t)) as Jt.
    destruct (P3 (c_comma :: t)) as [_ D]; [left; reflexivity|]. rewrite jam_char in D by discriminate. cbn [length] in *. split; [lia|].
    intros r v Hr. specialize (B2 _ _ Hr). rewrite B2 in *. rewrite jam_char in * by discriminate. cbn [length] in *. lia.
  - destruct (tpost_other s Hc) as [B1 B2]. destruct (hopeless_dec (ws_rest s)) as [Hh|[Hd Hj]].
    + destruct (P3 _ Hh) as [_ D]. split.
      * destruct (ws_rest s) as [|c0 s0]; [rewrite jam_nil in *; lia|]. cbn [length] in *. lia.
      * intros r v Hr. specialize (B2 _ _ Hr). rewrite B2 in *. rewrite jam_char in * by discriminate. cbn [length] in *. lia.
    + split; [lia|]. intros r v Hr. specialize (B2 _ _ Hr). rewrite B2 in Hd. discriminate.
Qed.
Lemma stop_comma s t n : ws_rest s = c_comma :: t -> n <= 8 * gap s + 8 -> (forall r v, fst (item t) <> Ok r v) ->
  n + snd (item t) + snd (tpost s) <= 1000 * ln s + 600 /\ forall r v, fst (tpost s) = Ok r v -> n + snd (item t) + snd (tpost s) + 1000 * ln r + 500 <= 1000 * ln s.
Proof.
  destruct Hp as (P1 & P2 & P3 & _). intros Et Hn0 H. destruct (item_eq t) as (m & E & Hm). rewrite E, snd_add. pose proof (gap_eq s) as G. pose proof (gap_eq t) as Gt. pose proof (jam_le (ws_rest t)) as Jt.
  pose proof (P2 (ws_rest t)) as A. destruct (tpost_comma s t Et) as [B1 B2]. rewrite Et in G. cbn [length] in G.
  destruct (hopeless_dec (ws_rest t)) as [Hh|[Hd Hj]].
  - destruct (P3 _ Hh) as [_ D]. split; [lia|]. intros r v Hr. specialize (B2 _ _ Hr). rewrite B2 in *. rewrite jam_char in * by discriminate. cbn [length] in *. lia.
  - split; [lia|]. intros r v Hr. specialize (B2 _ _ Hr). rewrite B2 in Hd. discriminate.
Qed.
Lemma stop_plain s n : (forall t, ws_rest s <> c_comma :: t) -> n <= 8 * gap s + 8 + jam (ws_rest s) ->
  n + snd (tpost s) <= 1000 * ln s + 600 /\ forall r v, fst (tpost s) = Ok r v -> n + snd (tpost s) + 1000 * ln r + 500 <= 1000 * ln s.
Proof.
  intros Hc Hn. pose proof (gap_eq s) as G. pose proof (jam_le (ws_rest s)) as Jl. destruct (tpost_other s Hc) as [B1 B2]. split.
  - lia.
  - intros r v Hr. specialize (B2 _ _ Hr). rewrite B2 in *. rewrite jam_char in * by discriminate. cbn [length] in *. lia.
Qed.
Lemma item_paid s r v : fst (item s) = Ok r v -> snd (item s) + 1000 * ln r + 90 <= 1000 * ln s.
Proof.
  destruct Hp as (P1 & P2 & P3 & _). destruct (item_eq s) as (n & -> & Hn). rewrite fst_add, snd_add. intros H. pose proof (P1 _ _ _ H). pose proof (gap_eq s).
  destruct (hopeless_dec (ws_rest s)) as [Hh|[_ Hj]]; [exfalso; destruct (P3 _ Hh) as [X _]; exact (X _ _ H)|]. lia.
Qed.
Lemma tloop : forall f s, tot (wsep_loop f sep item s) tpost <= 1000 * ln s + 600 /\
  forall r v r' v', fst (wsep_loop f sep item s) = Ok r v -> fst (tpost r) = Ok r' v' -> tot (wsep_loop f sep item s) tpost + 1000 * ln r' + 500 <= 1000 * ln s.
Proof.
  induction f as [|f IH]; intros s; cbn [wsep_loop]; [split; [cbn; lia|discriminate]|].
  destruct (sep_eq s) as (n & E & Hn). rewrite E. clear E. destruct (starts_dec c_comma (ws_rest s)) as [[t Et]|Hc].
  - rewrite Et in *. rewrite char_yes. cbn [add fst snd]. rewrite jam_char in Hn by discriminate. pose proof (gap_eq s) as G. rewrite Et in G. cbn [length] in G.
    destruct (Nat.eqb_spec (ln t) (ln s)) as [X|_]; [lia|].
    pose proof (stop_comma s t (n + 1) Et ltac:(lia)) as F. pose proof (item_paid t) as P. destruct (item t) as [[s3 v3| | | |] m]; cbn [fst snd] in *.
    + specialize (P _ _ eq_refl). destruct (Nat.eqb_spec (ln s3) (ln t)) as [X|_]; [lia|].
      destruct (IH s3) as [I1 I2]. cbn zeta. rewrite tot_map. rewrite <- surjective_pairing in *. split; [lia|].
      intros r v r' v' H H'. unfold map_res in H. cbn [fst] in H. apply bind_ok in H as (r2 & v2 & H & [= <- <-]). specialize (I2 _ _ _ _ H H'). lia.
    + destruct F as [F1 F2]; [intros; discriminate|]. unfold tot. cbn [fst snd]. split; [lia|]. intros r v r' v' [= <- <-] H'. specialize (F2 _ _ H'). lia.
    + destruct F as [F1 F2]; [intros; discriminate|]. unfold tot. cbn [fst snd]. split; [lia|discriminate].
    + destruct F as [F1 F2]; [intros; discriminate|]. unfold tot. cbn [fst snd]. split; [lia|discriminate].
    + destruct F as [F1 F2]; [intros; discriminate|]. unfold tot. cbn [fst snd]. split; [lia|discriminate].
  - rewrite char_no by exact Hc. cbn [add fst snd]. destruct (stop_plain s (n + 1) Hc ltac:(lia)) as [F1 F2]. unfold tot. cbn [fst snd]. split; [lia|].
    intros r v r' v' [= <- <-] H'. specialize (F2 _ _ H'). lia.
Qed.
Lemma tlist s : tot (wseparated_list sep item s) tpost <= 1000 * ln s + 600 /\
  forall r v r' v', fst (wseparated_list sep item s) = Ok r v -> fst (tpost r) = Ok r' v' -> tot (wseparated_list sep item s) tpost + 1000 * ln r' + 500 <= 1000 * ln s.
Proof.
  unfold wseparated_list. pose proof (stop_first s) as F. pose proof (item_paid s) as P. destruct (item s) as [[s3 v3| | | |] m]; cbn [fst snd] in *.
  - specialize (P _ _ eq_refl). destruct (Nat.eqb_spec (ln s3) (ln s)) as [X|_]; [lia|].
    destruct (tloop (S (ln s3)) s3) as [I1 I2]. cbn zeta. rewrite tot_map. rewrite <- surjective_pairing in *. split; [lia|].
    intros r v r' v' H H'. unfold map_res in H. cbn [fst] in H. apply bind_ok in H as (r2 & v2 & H & [= <- <-]). specialize (I2 _ _ _ _ H H'). lia.
  - destruct F as [F1 F2]; [intros; discriminate|]. unfold tot. cbn [fst snd]. split; [lia|]. intros r v r' v' [= <- <-] H'. specialize (F2 _ _ H'). lia.
  - destruct F as [F1 F2]; [intros; discriminate|]. unfold tot. cbn [fst snd]. split; [lia|discriminate].
  - destruct F as [F1 F2]; [intros; discriminate|]. unfold tot. cbn [fst snd]. split; [lia|discriminate].
  - destruct F as [F1 F2]; [intros; discriminate|]. unfold tot. cbn [fst snd]. split; [lia|discriminate].
Qed.
Lemma wtuple_tot s1 : snd (wtuple p (c_lbracket :: s1)) = 1 + tot (wseparated_list sep item s1) tpost /\
  forall r' v', fst (wtuple p (c_lbracket :: s1)) = Ok r' v' -> exists r v w, fst (wseparated_list sep item s1) = Ok r v /\ fst (tpost r) = Ok r' w.
Proof.
  set (Q := wwhitespace_m (wwrap wwhitespace (copt (w_char c_comma)))) in *.
  assert (X : wtuple p (c_lbracket :: s1) = add 1 (cbind (cbind (wseparated_list sep item s1) (fun r v => cbind (wwhitespace r) (fun r' _ => (Ok r' v, 0))))
     (fun r v => cbind (cbind (Q r) (fun r' w => cbind (w_char c_rbracket r') (fun r'' _ => (Ok r'' w, 0)))) (fun r' _ => (Ok r' v, 0))))).
  { unfold wtuple, cpreceded. rewrite w_char_eq, char_yes. reflexivity. }
  rewrite X. clear X. rewrite fst_add, snd_add. unfold tot.
  destruct (wseparated_list sep item s1) as [[r v| | | |] n]; cbn [cbind add fst snd]; try (split; [lia|discriminate]).
  assert (T : tpost r = cbind (wwhitespace r) (fun r1 _ => cbind (Q r1) (fun r2 _ => cbind (w_char c_rbracket r2) (fun r3 _ => (Ok r3 tt, 0))))) by reflexivity.
  rewrite T. destruct (wwhitespace r) as [[r1 v1| | | |] n1]; cbn [cbind add fst snd] in *; try (split; [lia|discriminate]).
  destruct (Q r1) as [[r2 v2| | | |] n2]; cbn [cbind add fst snd] in *; try (split; [lia|discriminate]).
  destruct (w_char c_rbracket r2) as [[r3 v3| | | |] n3]; cbn [cbind add fst snd] in *; try (split; [lia|discriminate]).
  split; [lia|]. intros r' v' [= <- <-]. exists r, v, tt. split; [reflexivity|]. rewrite T. reflexivity.
Qed.
Lemma wtuple_cost s : snd (wtuple p s) <= 1000 * ln s + 1 /\ (forall r v, fst (wtuple p s) = Ok r v -> snd (wtuple p s) + 1000 * ln r + 400 <= 1000 * ln s) /\
  ((forall t, s <> c_lbracket :: t) -> wtuple p s = (Err, 1)).
Proof.
  destruct (starts_dec c_lbracket s) as [[s1 ->]|H].
  - destruct (wtuple_tot s1) as [T1 T2]. destruct (tlist s1) as [L1 L2]. rewrite T1. cbn [length]. split; [lia|]. split; [|intros H; exfalso; apply (H s1); reflexivity].
    intros r v Hr. destruct (T2 _ _ Hr) as (r0 & v0 & w & A & B). specialize (L2 _ _ _ _ A B). lia.
  - assert (E : wtuple p s = (Err, 1)). { unfold wtuple, cpreceded. rewrite w_char_eq, char_no by exact H. reflexivity. }
    rewrite E. cbn [fst snd]. split; [lia|]. split; [discriminate|reflexivity].
Qed.

(** ** Objects *)
Lemma hopeless_not_id s : hopeless s -> run (id_char U) s = 0.
Proof.
  intros H. destruct s as [|c t]; [reflexivity|]. rewrite run_cons. destruct (id_char U c) eqn:E; [|reflexivity]. exfalso. apply id_char_plain in E.
  destruct H as [H|H]; [cbn in H; lia|]. apply jam_pos in H as [_ (c' & t' & [= <- <-] & H)]. lia.
Qed.
Lemma run_pos_cons s : 0 < run (id_char U) s -> exists c t, s = c :: t /\ id_char U c = true.
Proof. destruct s as [|c t]; [cbn; lia|]. rewrite run_cons. destruct (id_char U c) eqn:E; [eauto|lia]. Qed.
Lemma run_suffix s r : suffix r s -> run (id_char U) r = 0 -> run (id_char U) s + ln r <= ln s.
Proof.
  intros [w ->] H. rewrite app_length. induction w as [|c w IH]; [cbn [app length]; lia|]. cbn [app length]. rewrite run_cons. destruct (id_char U c); lia.
Qed.
Context (Wp : forall s r v, fst (p s) = Ok r v -> suffix r s).
Local Notation key := (wobject_element_identifier U p).
Lemma key_cost s : (hopeless s -> (forall r v, fst (key s) <> Ok r v) /\ snd (key s) <= 3 * jam s + 160) /\
  snd (key s) <= 1000 * ln s + 310 /\
  (forall r v, fst (key s) = Ok r v -> snd (key s) + 1000 * ln r + 90 <= 1000 * ln s \/ (0 < run (id_char U) r /\ snd (key s) <= 2 * ln s + 210)).
Proof.
  destruct Hp as (P1 & P2 & P3 & P4). unfold wobject_element_identifier, calt, wpmap, crecognize.
  pose proof (widentifier_any U s) as I1. pose proof (widentifier_ok U s) as I2. pose proof (run_le (id_char U) s) as Rl.
  assert (I3 : fst (widentifier U s) = Err \/ exists r v, fst (widentifier U s) = Ok r v).
  { rewrite (we_identifier U s). destruct (simple_identifier U s) as [(r & v & E)|E]; eauto. }
  destruct (widentifier U s) as [[r0 v0| | | |] n]; cbn [fst snd map_res bind] in *; try (destruct I3 as [I3|(? & ? & I3)]; discriminate).
  - destruct (I2 _ _ eq_refl) as (I4 & I5 & I6 & I7). split; [|split].
    + intros Hh. exfalso. pose proof (hopeless_not_id s Hh) as Z. lia.
    + unfold map_res, bind. cbn. lia.
    + unfold map_res, bind. intros r v [= <- <-]. left. cbn. lia.
  - unfold map_res, bind. pose proof (P2 s) as A. pose proof (P1 s) as B. pose proof (P3 s) as D. pose proof (Wp s) as W. destruct (Nat.eq_dec (run (id_char U) s) 0) as [Z|Z].
    + destruct (p s) as [[r v| | | |] m]; cbn [cbind add fst snd] in *.
      2-5: split; [intros Hh; destruct (D Hh); split; [discriminate|lia]|]; split; [lia|discriminate].
      split; [intros Hh; destruct (D Hh) as [X _]; exfalso; exact (X _ _ eq_refl)|]. split; [lia|]. intros r1 v1 [= <- <-]. specialize (B _ _ eq_refl). left. lia.
    + destruct (run_pos_cons s ltac:(lia)) as (c & t & -> & Hc). destruct (P4 c t Hc) as [Q1 Q2].
      assert (NH : ~ hopeless (c :: t)) by (intros Hh; apply hopeless_not_id in Hh; lia).
      destruct (p (c :: t)) as [[r v| | | |] m]; cbn [cbind add fst snd] in *.
      2-5: split; [intros Hh; contradiction|]; split; [lia|discriminate].
      split; [intros Hh; contradiction|]. split; [lia|]. intros r1 v1 [= <- <-]. specialize (Q2 _ _ eq_refl). specialize (W _ _ eq_refl). specialize (B _ _ eq_refl).
      destruct (Nat.eq_dec (run (id_char U) r) 0) as [Zr|Zr]; [|right; lia]. left. pose proof (run_suffix _ _ W Zr). lia.
Qed.
(** What is left over for the white space at [s] and what follows it *)
Definition pot (s : str) : nat := 32 * gap s + 1000 * ln (ws_rest s) - 5 * jam (ws_rest s).
Lemma jam_small s : 20 * jam s <= 660 * ln s.
Proof. destruct s as [|c t]; [cbn; lia|]. pose proof (jam_le (c :: t)). cbn [length] in *. lia. Qed.
Lemma pot_le s : pot s <= 1000 * ln s. Proof. unfold pot. pose proof (gap_eq s). lia. Qed.
Lemma wobject_separator_cost s : snd (wobject_separator s) <= 8 * gap s + 35 + jam (ws_rest s) /\
  forall r v, fst (wobject_separator s) = Ok r v -> snd (wobject_separator s) + pot r <= 40 * gap s + 1000 * ln (ws_rest s) + 50 - 4 * jam (ws_rest s) + 0 /\ (0 < jam s -> False).
Proof.
  unfold wobject_separator. assert (H1 : snd (w_tag (lit ",") s) <= 2) by apply tag_cost. pose proof (newline_cost s) as H2.
  assert (H1' : forall r v, fst (w_tag (lit ",") s) = Ok r v -> s = c_comma :: r) by (intros r v H; rewrite (we_tag _ s) in H; apply tag_ok in H as [-> _]; reflexivity).
  assert (H2' : forall r v, fst (wnewline s) = Ok r v -> ws_rest r = ws_rest s /\ ln r < ln s) by (intros r v H; rewrite (we_newline s) in H; apply newline_ws in H; exact H).
  pose proof (gap_eq s) as G. pose proof (jam_small (ws_rest s)) as Js.
  unfold calt, wpmap. destruct (w_tag (lit ",") s) as [[r v| | | |] n]; cbn [fst snd] in *; try (split; [lia|discriminate]).
  - split; [lia|]. intros r1 v1 [= <- <-]. specialize (H1' _ _ eq_refl). subst s. pose proof (pot_le r). assert (W : ws_rest (c_comma :: r) = c_comma :: r) by (apply ws_rest_nonws; reflexivity).
    rewrite W in *. rewrite jam_char in * by discriminate. cbn [length] in *. lia.
  - rewrite fst_add, snd_add. destruct (wnewline s) as [[r v| | | |] m]; cbn [fst snd map_res bind] in *; rewrite ?fst_add, ?snd_add.
    + unfold map_res, bind. cbn [fst snd]. split; [lia|]. intros r1 v1 [= <- <-]. destruct (H2' _ _ eq_refl) as [W L]. pose proof (gap_eq r) as Gr. unfold pot. rewrite W in *. split; [lia|].
      intros Hj. apply jam_pos in Hj as [Hw _]. pose proof (ws_len r). rewrite W in *. rewrite Hw in *. lia.
    + unfold cpeek. rewrite w_char_eq. destruct (starts_dec c_rbrace s) as [[t ->]|Hs].
      * rewrite char_yes. cbn [cbind add fst snd map_res bind]. unfold map_res, bind. assert (W : ws_rest (c_rbrace :: t) = c_rbrace :: t) by (apply ws_rest_nonws; reflexivity).
        unfold pot. rewrite W in *. rewrite jam_char in * by discriminate. cbn [fst snd]. split; [lia|]. intros r1 v1 [= <- <-]. rewrite W. rewrite jam_char in * by discriminate. lia.
      * rewrite char_no by exact Hs. cbn. split; [lia|discriminate].
    + cbn. split; [lia|discriminate].
    + cbn. split; [lia|discriminate].
    + cbn. split; [lia|discriminate].
Qed.
Lemma run_pos_rest s : 0 < run (id_char U) s -> iws_rest s = s /\ jam s = 0 /\ (forall t, s <> c_eq :: t).
Proof.
  intros H. destruct (run_pos_cons s H) as (c & t & -> & Hc). apply id_char_plain in Hc. destruct Hc as (H1 & H2).
  split; [apply iws_rest_nonws, H1|]. split; [apply jam_char; tauto|]. intros t' [= X _]. change c_eq with 61%N in X. tauto.
Qed.
Definition wel : cparser (okey * expr) := fun s =>
    let+ (r1, k) := wwrap winline_whitespace key s in
    let+ (r2, _eq) := wwrap winline_whitespace (w_char c_eq) r1 in
    let+ (r3, e) := wwrap winline_whitespace p r2 in
    (Ok r3 (k, e), 0).
Lemma wel_cost q : iws_rest q = q ->
  (hopeless q -> (forall r v, fst (wel q) <> Ok r v) /\ snd (wel q) <= 4 * jam q + 170) /\
  snd (wel q) <= 1000 * ln q + 480 /\
  (forall r v, fst (wel q) = Ok r v -> snd (wel q) + 1000 * ln r + 900 <= 1000 * ln q).
Proof.
  intros Hq. destruct Hp as (P1 & P2 & P3 & _). unfold wel. destruct (wwrap_iws key q) as (n & E & Hn). rewrite E. clear E. rewrite Hq in *. destruct (key_cost q) as (K1 & K2 & K3).
  assert (G0 : igap q = 0) by (unfold igap; rewrite Hq; lia). pose proof (jam_small q) as Jq.
  assert (Hnh : ~ hopeless q -> jam q = 0). { intros X. destruct (jam q) eqn:Ej; [reflexivity|]. exfalso. apply X. right. lia. }
  destruct (hopeless_dec q) as [Hh|[_ Hj]].
  { destruct (K1 Hh) as [X1 X2]. destruct (key q) as [[r1 v1| | | |] m]; cbn [add fst snd cbind] in *; [exfalso; exact (X1 _ _ eq_refl)|..]; (split; [intros _; split; [discriminate|lia]|]; split; [lia|discriminate]). }
  rewrite Hj in *. destruct (key q) as [[r1 v1| | | |] m]; cbn [add fst snd cbind] in *; [|split; [intros Hh; destruct (K1 Hh); split; [discriminate|lia]|]; split; [lia|discriminate]..].
  assert (NH : ~ hopeless q) by (intros Hh; destruct (K1 Hh) as [X _]; exact (X _ _ eq_refl)). split; [intros Hh; contradiction|].
  specialize (K3 _ _ eq_refl). destruct (wwrap_iws (w_char c_eq) r1) as (n1 & E & Hn1). rewrite E. clear E. rewrite w_char_eq.
  destruct K3 as [K3|[K3 K4]].
  2:{ destruct (run_pos_rest _ K3) as (W & J0 & Hne). assert (G1 : igap r1 = 0) by (unfold igap; rewrite W; lia). rewrite W, J0, G1 in *. rewrite char_no by exact Hne. cbn [add fst snd cbind].
      assert (0 < ln q) by (destruct q; [exfalso; apply NH; left; reflexivity|cbn; lia]). split; [lia|discriminate]. }
  pose proof (igap_eq r1) as G1. destruct (starts_dec c_eq (iws_rest r1)) as [[r2 Er]|Hne].
  2:{ rewrite char_no by exact Hne. cbn [add fst snd cbind]. pose proof (jam_le (iws_rest r1)). split; [lia|discriminate]. }
  rewrite Er in *. rewrite char_yes. cbn [add fst snd cbind length] in *. rewrite jam_char in * by discriminate.
  destruct (wwrap_iws p r2) as (n2 & E & Hn2). rewrite E. clear E. pose proof (igap_eq r2) as G2. pose proof (jam_small (iws_rest r2)) as J2. pose proof (jam_le (iws_rest r2)) as J2'.
  pose proof (P1 (iws_rest r2)) as A1. pose proof (P2 (iws_rest r2)) as A2. destruct (hopeless_dec (iws_rest r2)) as [Hh2|[_ Hj2]].
  - destruct (P3 _ Hh2) as [X1 X2]. destruct (p (iws_rest r2)) as [[r3 v3| | | |] m2]; cbn [add fst snd cbind] in *; [exfalso; exact (X1 _ _ eq_refl)|..]; (split; [lia|discriminate]).
  - destruct (p (iws_rest r2)) as [[r3 v3| | | |] m2]; cbn [add fst snd cbind] in *; (split; [lia|]); [|discriminate..].
    intros r v [= <- <-]. specialize (A1 _ _ eq_refl). lia.
Qed.
Definition wmember : cparser (okey * expr) := cterminated (wobject_element U p) wobject_separator.
Lemma wmember_cost q : iws_rest q = q ->
  (hopeless q -> (forall r v, fst (wmember q) <> Ok r v) /\ snd (wmember q) <= 4 * jam q + 170) /\
  snd (wmember q) <= 1000 * ln q + 480 /\
  (forall r v, fst (wmember q) = Ok r v -> snd (wmember q) + pot r + 300 <= 1000 * ln q).
Proof.
  intros Hq. destruct (wel_cost q Hq) as (E1 & E2 & E3). assert (Eq : wmember q = cbind (winline_whitespace_m wel q) (fun r v => cbind (wobject_separator r) (fun r' _ => (Ok r' v, 0)))) by reflexivity. rewrite Eq. clear Eq.
  pose proof (iwsm_eq wel q) as M. destruct (wel q) as [[r v| | | |] n]; cbn [fst snd] in *.
  2-5: rewrite M; cbn [cbind fst snd]; (split; [intros Hh; destruct (E1 Hh); split; [discriminate|lia]|]; split; [lia|discriminate]).
  destruct M as (m & M & Hm). rewrite M. cbn [cbind]. split; [intros Hh; exfalso; destruct (E1 Hh) as [X _]; exact (X _ _ eq_refl)|].
  specialize (E3 _ _ eq_refl). destruct (wobject_separator_cost (iws_rest r)) as [S1 S2]. pose proof (igap_eq r) as G. pose proof (gap_eq (iws_rest r)) as G'. pose proof (jam_small (iws_rest r)) as J1. pose proof (jam_small (ws_rest (iws_rest r))) as J2.
  pose proof (jam_le (iws_rest r)) as J1'. pose proof (jam_le (ws_rest (iws_rest r))) as J2'.
  destruct (wobject_separator (iws_rest r)) as [[r' v'| | | |] k]; cbn [cbind add fst snd] in *; (split; [lia|]); [|discriminate..].
  intros r0 v0 [= <- <-]. destruct (S2 _ _ eq_refl) as [S3 S4]. assert (jam (iws_rest r) = 0) by (destruct (jam (iws_rest r)); [reflexivity|exfalso; apply S4; lia]). lia.
Qed.
Definition opost : cparser unit := fun r =>
  let+ (r1, _a) := wwhitespace r in
  let+ (r2, _b) := wwhitespace r1 in
  let+ (r3, _c) := w_char c_rbrace r2 in (Ok r3 tt, 0).
Lemma opost_cost r : snd (opost r) <= 8 * gap r + 20 + 2 * jam (ws_rest r) /\ forall r' v, fst (opost r) = Ok r' v -> ws_rest r = c_rbrace :: r'.
Proof.
  unfold opost. destruct (ws_run r) as (v1 & n1 & E1 & B1). rewrite E1. cbn [cbind]. destruct (ws_run (ws_rest r)) as (v2 & n2 & E2 & B2). rewrite E2. cbn [cbind]. rewrite ws_rest_idem, gap_rest in *. rewrite w_char_eq.
  destruct (starts_dec c_rbrace (ws_rest r)) as [[q Eq]|Hq]; [rewrite Eq in *; rewrite char_yes|rewrite char_no by exact Hq]; cbn [cbind add fst snd]; (split; [lia|]).
  - intros r' v [= <- _]. reflexivity.
  - discriminate.
Qed.
Local Notation oitem := (wwrap wwhitespace wmember).
Lemma ostop u : (forall r v, fst (oitem u) <> Ok r v) ->
  snd (oitem u) + snd (opost u) <= pot u + 700 /\ forall r v, fst (opost u) = Ok r v -> snd (oitem u) + snd (opost u) + 1000 * ln r + 500 <= pot u.
Proof.
  intros _. destruct (wwrap_ws wmember u) as (n & E & Hn). rewrite E, snd_add. destruct (wmember_cost (ws_rest u) (iws_ws_rest u)) as (M1 & M2 & _). destruct (opost_cost u) as [O1 O2].
  pose proof (jam_small (ws_rest u)) as Js. pose proof (jam_le (ws_rest u)) as Jl. unfold pot. destruct (hopeless_dec (ws_rest u)) as [Hh|[Hd Hj]].
  - destruct (M1 Hh) as [_ X]. split.
    + destruct (ws_rest u) as [|c0 s0]; [rewrite jam_nil in *; lia|]. cbn [length] in *. lia.
    + intros r v Hr. specialize (O2 _ _ Hr). rewrite O2 in *. rewrite jam_char in * by discriminate. cbn [length] in *. lia.
  - rewrite Hj in *. split; [lia|]. intros r v Hr. specialize (O2 _ _ Hr). rewrite O2 in Hd. discriminate.
Qed.
Lemma oitem_paid u r v : fst (oitem u) = Ok r v -> snd (oitem u) + pot r + 200 <= pot u.
Proof.
  destruct (wwrap_ws wmember u) as (n & E & Hn). rewrite E, fst_add, snd_add. intros H. destruct (wmember_cost (ws_rest u) (iws_ws_rest u)) as (M1 & M2 & M3). specialize (M3 _ _ H).
  destruct (hopeless_dec (ws_rest u)) as [Hh|[Hd Hj]]; [exfalso; destruct (M1 Hh) as [X _]; exact (X _ _ H)|]. unfold pot in *. rewrite Hj in *. lia.
Qed.
Lemma oloop : forall f u, tot (cmany0_loop f oitem u) opost <= pot u + 700 /\
  forall r v r' v', fst (cmany0_loop f oitem u) = Ok r v -> fst (opost r) = Ok r' v' -> tot (cmany0_loop f oitem u) opost + 1000 * ln r' + 500 <= pot u.
Proof.
  induction f as [|f IH]; intros u; cbn [cmany0_loop]; [split; [cbn; lia|discriminate]|].
  pose proof (ostop u) as F. pose proof (oitem_paid u) as P. destruct (oitem u) as [[s3 v3| | | |] m]; cbn [fst snd] in *.
  2-5: destruct F as [F1 F2]; [intros; discriminate|]; unfold tot; cbn [fst snd]; split; [lia|]; first [discriminate|intros r v r' v' [= <- <-] H'; specialize (F2 _ _ H'); lia].
  specialize (P _ _ eq_refl). destruct (str_eqb s3 u) eqn:Es; [apply str_eqb_eq in Es; subst s3; lia|].
  destruct (IH s3) as [I1 I2]. cbn zeta. rewrite tot_map. rewrite <- surjective_pairing in *. split; [lia|].
  intros r v r' v' H H'. unfold map_res in H. cbn [fst] in H. apply bind_ok in H as (r2 & v2 & H & [= <- <-]). specialize (I2 _ _ _ _ H H'). lia.
Qed.
Lemma wobject_tot s s1 : ws_rest s = c_lbrace :: s1 -> exists n, n <= 8 * gap s + 8 * gap s1 + 25 + 2 * jam (ws_rest s1) /\ snd (wobject U p s) = n + tot (cmany0 oitem (ws_rest s1)) opost /\
  forall r' v', fst (wobject U p s) = Ok r' v' -> exists r v w, fst (cmany0 oitem (ws_rest s1)) = Ok r v /\ fst (opost r) = Ok r' w.
Proof.
  intros Hs. unfold wobject. pose proof (wsm_eq (wwrap wwhitespace (w_char c_lbrace)) s) as M. destruct (wwrap_ws (w_char c_lbrace) s) as (n & E & Hn). rewrite E, w_char_eq, Hs, char_yes in M. cbn [add fst snd] in M. rewrite Hs in Hn. rewrite jam_char in Hn by discriminate.
  destruct M as (m & M & Hm). rewrite M. cbn [cbind].
  assert (X : wwhitespace_m (wwrap wwhitespace (wobject_body U p)) (ws_rest s1) = cbind (cbind (wwhitespace (ws_rest s1)) (fun r _ => cbind (cmany0 oitem r) (fun r1 v => cbind (wwhitespace r1) (fun r' _ => (Ok r' v, 0))))) (fun r v => cbind (wwhitespace r) (fun r' _ => (Ok r' v, 0)))) by reflexivity.
  rewrite X. clear X. destruct (ws_run (ws_rest s1)) as (v1 & n1 & E1 & B1). rewrite E1. cbn [cbind]. rewrite ws_rest_idem, gap_rest in *.
  exists (n + 1 + m + n1). split; [lia|]. unfold tot.
  destruct (cmany0 oitem (ws_rest s1)) as [[r v| | | |] k]; cbn [cbind add fst snd]; try (split; [lia|discriminate]).
  assert (T : opost r = cbind (wwhitespace r) (fun r1 _ => cbind (wwhitespace r1) (fun r2 _ => cbind (w_char c_rbrace r2) (fun r3 _ => (Ok r3 tt, 0))))) by reflexivity.
  rewrite T. destruct (wwhitespace r) as [[r1 v1'| | | |] n1']; cbn [cbind add fst snd] in *; try (split; [lia|discriminate]).
  destruct (wwhitespace r1) as [[r2 v2'| | | |] n2']; cbn [cbind add fst snd] in *; try (split; [lia|discriminate]).
  destruct (w_char c_rbrace r2) as [[r3 v3| | | |] n3] eqn:E3; cbn [cbind add fst snd] in *; try (split; [lia|discriminate]).
  split; [lia|]. intros r' v' [= <- <-]. exists r, v, tt. split; [reflexivity|]. rewrite T. reflexivity.
Qed.
Lemma wobject_other s : (forall t, ws_rest s <> c_lbrace :: t) -> exists n, wobject U p s = (Err, n) /\ n <= 8 * gap s + 8 + jam (ws_rest s).
Proof.
  intros H. unfold wobject. pose proof (wsm_eq (wwrap wwhitespace (w_char c_lbrace)) s) as M. destruct (wwrap_ws (w_char c_lbrace) s) as (n & E & Hn). rewrite E, w_char_eq, char_no in M by exact H. cbn [add fst snd] in M.
  rewrite M. cbn [cbind]. exists (n + 1). split; [reflexivity|lia].
Qed.
Lemma wobject_cost s t : ws_rest s = c_lbrace :: t -> snd (wobject U p s) + 900 * gap s <= 1000 * ln s /\ forall r v, fst (wobject U p s) = Ok r v -> snd (wobject U p s) + 1000 * ln r + 900 * gap s + 400 <= 1000 * ln s.
Proof.
  intros Hs. destruct (wobject_tot s t Hs) as (n & Hn & E & T). rewrite E. unfold cmany0 in *. destruct (oloop (S (ln (ws_rest t))) (ws_rest t)) as [O1 O2].
  pose proof (gap_eq s) as G. rewrite Hs in G. cbn [length] in G. pose proof (gap_eq t) as Gt. pose proof (jam_small (ws_rest t)) as Jt. unfold pot in *. rewrite gap_rest, ws_rest_idem in *. split; [lia|].
  intros r v Hr. destruct (T _ _ Hr) as (r0 & v0 & w & A & B). specialize (O2 _ _ _ _ A B). lia.
Qed.

(** ** Brackets *)
Lemma w_tag1 c s : w_tag [c] s = match s with d :: t => if (c =? d)%N then (Ok t [c], 2) else (Err, 2) | [] => (Err, 1) end.
Proof. unfold w_tag, prim, tag. destruct s as [|d t]; [reflexivity|]. cbn. destruct (N.eqb_spec c d) as [->|]; reflexivity. Qed.
Lemma wbracket_other s : (forall t, ws_rest s <> 40%N :: t) -> exists n, wbracket_expression p s = (Err, n) /\ n <= 8 * gap s + 9 + jam (ws_rest s).
Proof.
  intros H. unfold wbracket_expression. pose proof (wsm_eq (wwrap wwhitespace (w_tag (lit "("))) s) as M. destruct (wwrap_ws (w_tag (lit "(")) s) as (n & E & Hn). change (lit "(") with [40%N] in *. rewrite E, w_tag1 in M.
  assert (X : match ws_rest s with d :: t => if (40 =? d)%N then (Ok t [40%N], 2) else (Err, 2) | [] => (Err, 1) end = (@Err str, match ws_rest s with [] => 1 | _ => 2 end)).
  { destruct (ws_rest s) as [|d t]; [reflexivity|]. destruct (N.eqb_spec 40%N d) as [<-|]; [exfalso; apply (H t); reflexivity|reflexivity]. }
  rewrite X in M. cbn [add fst snd] in M. rewrite M. cbn [cbind]. exists (n + match ws_rest s with [] => 1 | _ => 2 end). split; [reflexivity|]. destruct (ws_rest s); lia.
Qed.
Lemma wbracket_cost s t : ws_rest s = 40%N :: t -> snd (wbracket_expression p s) + 900 * gap s <= 1000 * ln s /\ forall r v, fst (wbracket_expression p s) = Ok r v -> snd (wbracket_expression p s) + 1000 * ln r + 900 * gap s + 400 <= 1000 * ln s.
Proof.
  intros Hs. destruct Hp as (P1 & P2 & P3 & _). unfold wbracket_expression. pose proof (wsm_eq (wwrap wwhitespace (w_tag (lit "("))) s) as M. destruct (wwrap_ws (w_tag (lit "(")) s) as (n & E & Hn). change (lit "(") with [40%N] in *. rewrite E, w_tag1, Hs in M.
  cbn [N.eqb Pos.eqb add fst snd] in M. rewrite Hs, jam_char in Hn by discriminate. destruct M as (m & M & Hm). rewrite M. cbn [cbind]. rewrite snd_add, fst_add.
  pose proof (gap_eq s) as G. rewrite Hs in G. cbn [length] in G. pose proof (gap_eq t) as Gt. pose proof (jam_small (ws_rest t)) as Jt. pose proof (jam_le (ws_rest t)) as Jt'.
  pose proof (wsm_eq (wwrap wwhitespace p) (ws_rest t)) as M1. destruct (wwrap_ws p (ws_rest t)) as (k & E1 & Hk). rewrite E1, ws_rest_idem, gap_rest in *. pose proof (P1 (ws_rest t)) as A1. pose proof (P2 (ws_rest t)) as A2.
  assert (NJ : forall r v, fst (p (ws_rest t)) = Ok r v -> jam (ws_rest t) = 0).
  { intros r v H. destruct (hopeless_dec (ws_rest t)) as [Hh|[_ Hj]]; [exfalso; destruct (P3 _ Hh) as [X _]; exact (X _ _ H)|exact Hj]. }
  assert (A3 : snd (p (ws_rest t)) + jam (ws_rest t) * 2 <= 1000 * ln (ws_rest t) + 450).
  { destruct (hopeless_dec (ws_rest t)) as [Hh|[_ Hj]]; [destruct (P3 _ Hh) as [_ X]; lia|lia]. }
  destruct (p (ws_rest t)) as [[r v| | | |] o]; cbn [add fst snd] in *.
  2-5: rewrite M1; unfold cbind, add; cbn [cbind add fst snd]; split; [lia|discriminate].
  destruct M1 as (m1 & M1 & Hm1). rewrite M1. cbn [cbind]. change (lit ")") with [41%N]. rewrite w_tag1. specialize (A1 _ _ eq_refl). rewrite (NJ _ _ eq_refl) in *. pose proof (gap_eq r) as Gr. pose proof (jam_small (ws_rest r)) as Jr.
  destruct (ws_rest r) as [|d q] eqn:Er; [cbn; split; [lia|discriminate]|]. destruct (N.eqb_spec 41%N d) as [<-|Hd].
  - cbn [cbind add fst snd]. rewrite jam_char in * by discriminate. cbn [length] in *. split; [lia|]. intros r' v' [= <- <-]. lia.
  - cbn [cbind add fst snd]. pose proof (jam_le (d :: q)). cbn [length] in *. split; [lia|discriminate].
Qed.

(** ** The alternatives together *)
Lemma hopeless_rest s : hopeless s -> ws_rest s = s /\ gap s = 0.
Proof.
  intros H. assert (X : ws_rest s = s). { destruct H as [H|H]; [|apply jam_pos in H; tauto]. destruct s as [|c t]; [reflexivity|]. apply ws_rest_nonws. cbn in H. unfold ws_char. lia. }
  split; [exact X|]. unfold gap. rewrite X. lia.
Qed.
Definition wob : cparser expr := calt (wpmap EObject (wobject U p)) (wbracket_expression p).
Lemma wpmap_fst_err {A B} (f : A -> B) (q : cparser A) s n : q s = (Err, n) -> wpmap f q s = (Err, n).
Proof. unfold wpmap. intros ->. reflexivity. Qed.
Lemma wob_none s : (forall t, ws_rest s <> c_lbrace :: t) -> (forall t, ws_rest s <> 40%N :: t) -> (forall r v, fst (wob s) <> Ok r v) /\ snd (wob s) <= 16 * gap s + 17 + 2 * jam (ws_rest s).
Proof.
  intros H1 H2. destruct (wobject_other s H1) as (n & E1 & B1). destruct (wbracket_other s H2) as (m & E2 & B2). unfold wob. rewrite (calt_err _ _ _ _ (wpmap_fst_err _ _ _ _ E1)), E2. cbn [add fst snd]. split; [discriminate|lia].
Qed.
Lemma wob_cost s : snd (wob s) <= 1000 * ln s + 100 /\ (forall r v, fst (wob s) = Ok r v -> snd (wob s) + 1000 * ln r + 300 <= 1000 * ln s).
Proof.
  pose proof (gap_eq s) as G. pose proof (jam_small (ws_rest s)) as Js.
  destruct (starts_dec c_lbrace (ws_rest s)) as [[t Et]|H1].
  - destruct (wobject_cost s t Et) as [O1 O2]. destruct (wbracket_other s) as (m & E2 & B2); [intros t'; rewrite Et; discriminate|]. rewrite Et, jam_char in B2 by discriminate.
    unfold wob, calt, wpmap. rewrite E2. destruct (wobject U p s) as [[r v| | | |] n]; cbn [map_res bind add fst snd] in *; unfold map_res, bind; cbn [fst snd]; (split; [lia|]); try discriminate.
    intros r0 v0 [= <- <-]. specialize (O2 _ _ eq_refl). lia.
  - destruct (wobject_other s H1) as (n & E1 & B1). destruct (starts_dec 40%N (ws_rest s)) as [[t Et]|H2].
    + unfold wob. rewrite (calt_err _ _ _ _ (wpmap_fst_err _ _ _ _ E1)). rewrite fst_add, snd_add. destruct (wbracket_cost s t Et) as [O1 O2]. rewrite Et, jam_char in B1 by discriminate. split; [lia|]. intros r v H. specialize (O2 _ _ H). lia.
    + destruct (wob_none s H1 H2) as [N1 N2]. split; [|intros r v H; exfalso; exact (N1 _ _ H)]. destruct (ws_rest s) as [|c0 s0]; [rewrite jam_nil in *; lia|]. pose proof (jam_le (c0 :: s0)). cbn [length] in *. lia.
Qed.
Lemma wob_plain c t : ws_char c = false -> c <> 123%N -> c <> 40%N -> (forall r v, fst (wob (c :: t)) <> Ok r v) /\ snd (wob (c :: t)) <= 17.
Proof.
  intros Hw H1 H2. assert (W : ws_rest (c :: t) = c :: t) by (apply ws_rest_nonws, Hw). destruct (wob_none (c :: t)) as [N1 N2]; [rewrite W; change c_lbrace with 123%N; congruence|rewrite W; congruence|].
  split; [exact N1|]. assert (G0 : gap (c :: t) = 0) by (unfold gap; rewrite W; lia). rewrite W, G0 in N2. rewrite jam_char in N2; [lia| |]; intros ->; discriminate.
Qed.
Definition wtob : cparser expr := calt (wpmap ETuple (wtuple p)) wob.
Lemma wtob_cost s : snd (wtob s) <= 1000 * ln s + 130 /\ (forall r v, fst (wtob s) = Ok r v -> snd (wtob s) + 1000 * ln r + 250 <= 1000 * ln s).
Proof.
  destruct (wtuple_cost s) as (T1 & T2 & T3). destruct (starts_dec c_lbracket s) as [[t ->]|H].
  - destruct (wob_plain c_lbracket t eq_refl ltac:(discriminate) ltac:(discriminate)) as [N1 N2]. unfold wtob, calt, wpmap. destruct (wtuple p (c_lbracket :: t)) as [[r v| | | |] n]; cbn [map_res bind add fst snd] in *; unfold map_res, bind; cbn [fst snd]; (split; [lia|]); try discriminate.
    + intros r0 v0 [= <- <-]. specialize (T2 _ _ eq_refl). lia.
    + intros r0 v0 X. exfalso. exact (N1 _ _ X).
  - unfold wtob. rewrite (calt_err _ _ _ 1) by (apply wpmap_fst_err, T3, H). rewrite fst_add, snd_add. destruct (wob_cost s) as [O1 O2]. split; [lia|]. intros r v X. specialize (O2 _ _ X). lia.
Qed.
Lemma wtob_plain c t : ws_char c = false -> c <> 91%N -> c <> 123%N -> c <> 40%N -> (forall r v, fst (wtob (c :: t)) <> Ok r v) /\ snd (wtob (c :: t)) <= 18.
Proof.
  intros Hw H0 H1 H2. destruct (wtuple_cost (c :: t)) as (_ & _ & T3). unfold wtob. rewrite (calt_err _ _ _ 1) by (apply wpmap_fst_err, T3; change c_lbracket with 91%N; congruence).
  rewrite fst_add, snd_add. destruct (wob_plain c t Hw H1 H2) as [N1 N2]. split; [exact N1|lia].
Qed.
Definition wstob : cparser expr := calt (wpmap EString (wstring_p U)) wtob.
Lemma wstob_cost s : snd (wstob s) <= 1000 * ln s + 150 /\ (forall r v, fst (wstob s) = Ok r v -> snd (wstob s) + 1000 * ln r + 240 <= 1000 * ln s).
Proof.
  destruct (wstring_cost U s) as (S1 & S2 & S3 & S4). destruct s as [|c t].
  { destruct (wtob_cost []) as [T1 T2]. unfold wstob, calt, wpmap. specialize (S4 eq_refl). destruct (wstring_p U []) as [[r v| | | |] n]; cbn [map_res bind add fst snd] in *; unfold map_res, bind; cbn [fst snd]; (split; [cbn [length] in *; lia|]); try discriminate.
    intros r0 v0 [= <- <-]. specialize (S2 _ _ eq_refl). cbn [length] in *. lia. }
  destruct (N.eq_dec c 34) as [Hc|Hc]; [|destruct (N.eq_dec c 60) as [Hc'|Hc']].
  1-2: assert (Pl : (forall r v, fst (wtob (c :: t)) <> Ok r v) /\ snd (wtob (c :: t)) <= 18) by (apply wtob_plain; subst c; reflexivity || discriminate); destruct Pl as [N1 N2];
    unfold wstob, calt, wpmap; destruct (wstring_p U (c :: t)) as [[r v| | | |] n]; cbn [map_res bind add fst snd] in *; unfold map_res, bind; cbn [fst snd]; (split; [cbn [length] in *; lia|]); try discriminate;
    [intros r0 v0 [= <- <-]; specialize (S2 _ _ eq_refl); lia|intros r0 v0 X; exfalso; exact (N1 _ _ X)].
  unfold wstob. rewrite (calt_err _ _ _ 4) by (apply wpmap_fst_err, (S3 _ _ eq_refl Hc Hc')). rewrite fst_add, snd_add. destruct (wtob_cost (c :: t)) as [O1 O2]. split; [lia|]. intros r v X. specialize (O2 _ _ X). lia.
Qed.
Lemma wstob_plain c t : ws_char c = false -> c <> 34%N -> c <> 60%N -> c <> 91%N -> c <> 123%N -> c <> 40%N -> (forall r v, fst (wstob (c :: t)) <> Ok r v) /\ snd (wstob (c :: t)) <= 22.
Proof.
  intros Hw Ha Hb H0 H1 H2. destruct (wstring_cost U (c :: t)) as (_ & _ & S3 & _). unfold wstob. rewrite (calt_err _ _ _ 4) by (apply wpmap_fst_err, (S3 _ _ eq_refl Ha Hb)).
  rewrite fst_add, snd_add. destruct (wtob_plain c t Hw H0 H1 H2) as [N1 N2]. split; [exact N1|lia].
Qed.
Lemma wstob_hopeless s : hopeless s -> (forall r v, fst (wstob s) <> Ok r v) /\ snd (wstob s) <= 2 * jam s + 25.
Proof.
  intros H. destruct (hopeless_rest s H) as [W G].
  assert (F : forall c t, s = c :: t -> c <> 34%N /\ c <> 60%N /\ c <> 91%N /\ c <> 123%N /\ c <> 40%N).
  { intros c t ->. destruct H as [H|H]; [cbn in H; lia|]. apply jam_pos in H as [_ (c' & t' & [= <- <-] & H)]. lia. }
  assert (O : (forall r v, fst (wob s) <> Ok r v) /\ snd (wob s) <= 17 + 2 * jam s).
  { destruct (wob_none s) as [N1 N2]; [intros t E; rewrite W in E; apply F in E; change c_lbrace with 123%N in E; tauto|intros t E; rewrite W in E; apply F in E; tauto|]. split; [exact N1|]. rewrite W, G in N2. lia. }
  destruct s as [|c t].
  { split; [|cbn; lia]. intros r v X. destruct (wstob_cost []) as [_ Y]. specialize (Y _ _ X). cbn [length] in Y. lia. }
  destruct (F _ _ eq_refl) as (F1 & F2 & F3 & F4 & F5). destruct (wstring_cost U (c :: t)) as (_ & _ & S3 & _). destruct (wtuple_cost (c :: t)) as (_ & _ & T3).
  unfold wstob. rewrite (calt_err _ _ _ 4) by (apply wpmap_fst_err, (S3 _ _ eq_refl F1 F2)). unfold wtob. unfold add at 1 2. rewrite (calt_err _ _ _ 1) by (apply wpmap_fst_err, T3; change c_lbracket with 91%N; congruence).
  rewrite !fst_add, !snd_add. cbn [fst snd]. rewrite ?fst_add, ?snd_add. destruct O as [O1 O2]. split; [exact O1|lia].
Qed.
Lemma EX_step : EX (wexpression_step U p).
Proof.
  assert (Q : forall s, wexpression_step U p s = calt (wpmap (fun _ => ENull) wnull) (calt (wpmap ENumber wnumber) (calt (wpmap EBool wboolean) wstob)) s) by reflexivity.
  assert (Hn : forall s r v, fst (wnull s) = Ok r v -> ln r < ln s). { intros s r v H. rewrite (we_null s) in H. apply null_ok in H as ->. rewrite app_length. cbn. lia. }
  assert (Hb : forall s r v, fst (wboolean s) = Ok r v -> ln r < ln s). { intros s r v H. rewrite (we_boolean s) in H. apply boolean_ok in H as ->. rewrite app_length. destruct v; cbn; lia. }
  assert (Hu : forall s r v, fst (wnumber s) = Ok r v -> ln r < ln s).
  { intros s r v H. rewrite (we_number s) in H. apply number_ok in H as (t & Ht & _ & ->). apply NumLit_first in Ht as (c & t' & -> & _). cbn [app length]. rewrite app_length. lia. }
  assert (Cn : forall s, match wnull s with (Ok r _, n) => n + ln r <= ln s + 1 /\ ln r < ln s | (Err, n) => n <= 5 | _ => False end).
  { intros s. pose proof (wnull_cost s) as X. pose proof (Hn s) as Y. destruct (wnull s) as [[r v| | | |] n]; cbn [fst snd] in *; try lia. specialize (Y _ _ eq_refl). lia. }
  assert (Cb : forall s, match wboolean s with (Ok r _, n) => n + ln r <= ln s + 7 /\ ln r < ln s | (Err, n) => n <= 11 | _ => False end).
  { intros s. pose proof (wboolean_cost s) as X. pose proof (Hb s) as Y. destruct (wboolean s) as [[r v| | | |] n]; cbn [fst snd] in *; try lia. specialize (Y _ _ eq_refl). lia. }
  assert (Cu : forall s, match wnumber s with (Ok r _, n) => n + ln r <= ln s + 50 /\ ln r < ln s | (Err, n) => n <= 30 | _ => False end).
  { intros s. pose proof (wnumber_cost s) as X. pose proof (Hu s) as Y. destruct (wnumber s) as [[r v| | | |] n]; cbn [fst snd] in *; try lia. specialize (Y _ _ eq_refl). lia. }
  assert (Z : forall s, (exists r v n, wexpression_step U p s = (Ok r v, n) /\ n + ln r <= ln s + 85 /\ ln r < ln s /\ ~ hopeless s) \/
              (exists n, wexpression_step U p s = add n (wstob s) /\ n <= 46)).
  { intros s. rewrite Q. unfold calt, wpmap.
    assert (Nh : hopeless s -> (forall r v, fst (wnull s) <> Ok r v) /\ (forall r v, fst (wnumber s) <> Ok r v) /\ (forall r v, fst (wboolean s) <> Ok r v)).
    { intros H. assert (F : s = [] \/ exists c t, s = c :: t /\ (c = 44 \/ c = 93 \/ c = 125 \/ c = 47 \/ c = 35)%N).
      { destruct H as [H|H]; [destruct s as [|c t]; [tauto|right; exists c, t; cbn in H; split; [reflexivity|lia]]|]. apply jam_pos in H as [_ (c & t & -> & H)]. right. exists c, t. split; [reflexivity|lia]. }
      split; [|split]; intros r v E.
      - rewrite (we_null s) in E. apply null_ok in E. destruct F as [->|(c & t & -> & F)]; [discriminate|]. injection E as E _. change (c = 110%N) in E. lia.
      - rewrite (we_number s) in E. destruct F as [->|(c & t & -> & F)]; [discriminate|]. rewrite number_first_err in E; [discriminate| | | |]; (unfold is_dec_digit; lia) || lia.
      - rewrite (we_boolean s) in E. apply boolean_ok in E. destruct F as [->|(c & t & -> & F)]; [destruct v; discriminate|]. destruct v; injection E as E _; [change (c = 116%N) in E|change (c = 102%N) in E]; lia. }
    specialize (Cn s). specialize (Cb s). specialize (Cu s).
    destruct (wnull s) as [[r v| | | |] n1]; cbn [map_res bind add fst snd] in *; unfold map_res, bind; try contradiction.
    { left. exists r, ENull, n1. split; [reflexivity|]. split; [lia|]. split; [lia|]. intros H. destruct (Nh H) as (X & _). exact (X _ _ eq_refl). }
    destruct (wnumber s) as [[r v| | | |] n2]; cbn [map_res bind add fst snd] in *; unfold map_res, bind; try contradiction.
    { left. exists r, (ENumber v), (n1 + n2). split; [reflexivity|]. split; [lia|]. split; [lia|]. intros H. destruct (Nh H) as (_ & X & _). exact (X _ _ eq_refl). }
    destruct (wboolean s) as [[r v| | | |] n3]; cbn [map_res bind add fst snd] in *; unfold map_res, bind; try contradiction.
    { left. exists r, (EBool v), (n1 + (n2 + n3)). split; [reflexivity|]. split; [lia|]. split; [lia|]. intros H. destruct (Nh H) as (_ & _ & X). exact (X _ _ eq_refl). }
    right. exists (n1 + (n2 + n3)). split; [|lia]. destruct (wstob s) as [y m]. unfold add. cbn [fst snd]. f_equal. lia. }
  split; [|split; [|split]].
  - intros s r v H. destruct (Z s) as [(r' & v' & n & E & B1 & B2 & _)|(n & E & B)]; rewrite E in *; [injection H as <- <-; cbn [snd]; lia|]. rewrite fst_add, snd_add in *. destruct (wstob_cost s) as [_ W]. specialize (W _ _ H). lia.
  - intros s. destruct (Z s) as [(r' & v' & n & E & B1 & B2 & _)|(n & E & B)]; rewrite E; [cbn [snd]; lia|]. rewrite snd_add. destruct (wstob_cost s) as [W _]. lia.
  - intros s Hs. destruct (Z s) as [(r' & v' & n & E & B1 & B2 & X)|(n & E & B)]; [contradiction|]. rewrite E, fst_add, snd_add. destruct (wstob_hopeless s Hs) as [W1 W2]. split; [exact W1|lia].
  - intros c t Hc. destruct (Z (c :: t)) as [(r' & v' & n & E & B1 & B2 & _)|(n & E & B)]; rewrite E.
    + cbn [fst snd]. split; [lia|]. intros r v [= <- <-]. lia.
    + rewrite fst_add, snd_add. apply id_char_plain in Hc. destruct (wstob_plain c t) as [W1 W2]; try tauto. split; [lia|]. intros r v H. exfalso. exact (W1 _ _ H).
Qed.
End Step.
Lemma EX_expression_f f : EX (wexpression_f U f).
Proof.
  induction f as [|f IH].
  - split; [|split; [|split]]; cbn [wexpression_f fst snd]; intros; try discriminate; try lia; split; cbn; intros; try discriminate; lia.
  - refine (EX_step (wexpression_f U f) IH _). intros s r v H. rewrite (we_expression_f U f s) in H. destruct (ple_expression U f s) as [E|E]; rewrite H in E; [discriminate|]. pose proof (wf_expression U s) as W. rewrite <- E in W. exact W.
Qed.
Theorem EX_expression : EX (wexpression U).
Proof.
  split; [|split; [|split]]; unfold wexpression; intros.
  - destruct (EX_expression_f (S (ln s))) as (H1 & _). eapply H1, H.
  - destruct (EX_expression_f (S (ln s))) as (_ & H1 & _). apply H1.
  - destruct (EX_expression_f (S (ln s))) as (_ & _ & H1 & _). apply H1, H.
  - destruct (EX_expression_f (S (ln (c :: t)))) as (_ & _ & _ & H1). apply H1, H.
Qed.
End Expr.
