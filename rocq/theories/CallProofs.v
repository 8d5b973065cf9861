(** * CallProofs: counting calls - erasure and the bounds *)
From Coq Require Import SpecFloat ZArith Lia.
From Verif Require Import Base Nom NomFacts Ast Lex Grammar WsFacts NumFacts StrFacts HeredocFacts Parser ParserFacts ExprProofs BodyProofs NumConv Utf8 Kvp Value OldParser OldFacts OldGrammar OldProofs CallCount.
Close Scope Z_scope.
Open Scope nat_scope.

(** ** Erasure *)
Definition Erases {A} (cp : cparser A) (p : parser A) : Prop := forall s, fst (cp s) = p s.
Lemma er_lift {A} (p : parser A) : Erases (lift p) p.
Proof. intros s. reflexivity. Qed.
Lemma er_tick {A} (cp : cparser A) p : Erases cp p -> Erases (tick cp) p.
Proof. intros H s. apply H. Qed.
Lemma er_bind {A B} (x : res A * nat) (y : res A) (f : str -> A -> res B * nat) (g : str -> A -> res B) :
  fst x = y -> (forall r v, fst (f r v) = g r v) -> fst (cbind x f) = bind y g.
Proof. intros <- H. destruct x as [[r v| | | |] n]; cbn; auto. Qed.
Lemma er_alt {A} (cp cq : cparser A) p q : Erases cp p -> Erases cq q -> Erases (calt cp cq) (alt p q).
Proof. intros Hp Hq s. unfold calt, alt. specialize (Hp s). destruct (cp s) as [[r v| | | |] n]; cbn in *; rewrite <- Hp; auto. Qed.
Lemma er_opt {A} (cp : cparser A) p : Erases cp p -> Erases (copt cp) (opt p).
Proof. intros Hp s. unfold copt, opt. specialize (Hp s). destruct (cp s) as [[r v| | | |] n]; cbn in *; rewrite <- Hp; auto. Qed.
Lemma er_pmap {A B} (f : A -> B) cp p : Erases cp p -> Erases (cpmap f cp) (pmap f p).
Proof. intros Hp s. unfold cpmap, pmap. cbn. rewrite Hp. reflexivity. Qed.
Lemma er_preceded {A B} (cp : cparser A) p (cq : cparser B) q : Erases cp p -> Erases cq q -> Erases (cpreceded cp cq) (preceded p q).
Proof. intros Hp Hq s. apply er_bind; [apply Hp|intros; apply Hq]. Qed.
Lemma er_terminated {A B} (cp : cparser A) p (cq : cparser B) q : Erases cp p -> Erases cq q -> Erases (cterminated cp cq) (terminated p q).
Proof. intros Hp Hq s. apply er_bind; [apply Hp|]. intros r v. apply er_bind; [apply Hq|reflexivity]. Qed.
Lemma er_recognize {A} (cp : cparser A) p : Erases cp p -> Erases (crecognize cp) (recognize p).
Proof. intros Hp s. apply er_bind; [apply Hp|reflexivity]. Qed.
Lemma er_many0 {A} (cp : cparser A) p : Erases cp p -> Erases (cmany0 cp) (many0 p).
Proof.
  intros Hp s. unfold cmany0, many0. generalize (S (length s)) as f. intros f. revert s.
  induction f as [|f IH]; intros s; [reflexivity|]. cbn. pose proof (Hp s) as H. destruct (cp s) as [[r v| | | |] n]; cbn in H; rewrite <- H; try reflexivity.
  destruct (str_eqb r s); [reflexivity|]. cbn. rewrite IH. reflexivity.
Qed.
Lemma er_sep_loop {A B} (sep : parser B) (cp : cparser A) p : Erases cp p -> forall f s, fst (csep_loop f sep cp s) = sep_loop f sep p s.
Proof.
  intros Hp. induction f as [|f IH]; intros s; [reflexivity|]. cbn. destruct (sep s) as [s2 w| | | |]; try reflexivity.
  destruct (length s2 =? length s); [reflexivity|]. pose proof (Hp s2) as H. destruct (cp s2) as [[r v| | | |] n]; cbn in H; rewrite <- H; try reflexivity.
  destruct (length r =? length s2); [reflexivity|]. cbn [fst]. rewrite IH. reflexivity.
Qed.
Lemma er_separated_list {A B} (sep : parser B) (cp : cparser A) p : Erases cp p -> Erases (cseparated_list sep cp) (separated_list sep p).
Proof.
  intros Hp s. unfold cseparated_list, separated_list. pose proof (Hp s) as H. destruct (cp s) as [[r v| | | |] n]; cbn in H; rewrite <- H; try reflexivity.
  destruct (length r =? length s); [reflexivity|]. cbn [fst]. rewrite (er_sep_loop sep cp p Hp). reflexivity.
Qed.
Lemma er_wrap {A} sp (cp : cparser A) p : Erases cp p -> Erases (cwrap sp cp) (wrap sp p).
Proof. intros H. apply er_preceded; [apply er_lift|exact H]. Qed.
Lemma er_iws {A} (cp : cparser A) p : Erases cp p -> Erases (cinline_whitespace_m cp) (inline_whitespace_m p).
Proof. intros H. apply er_terminated; [exact H|apply er_lift]. Qed.
Lemma er_ws {A} (cp : cparser A) p : Erases cp p -> Erases (cwhitespace_m cp) (whitespace_m p).
Proof. intros H. apply er_terminated; [exact H|apply er_lift]. Qed.
Create HintDb er.
#[local] Hint Resolve er_lift er_tick er_alt er_opt er_pmap er_preceded er_terminated er_recognize er_many0 er_separated_list er_wrap er_iws er_ws : er.
Ltac erase := repeat (apply er_bind; [first [apply er_lift|apply er_wrap; auto with er|apply er_ws; auto with er|auto with er]|intros ? ?]); try reflexivity.

Section U.
Variable U : ucd.
Lemma er_tuple ce e : Erases ce e -> Erases (ctuple ce) (tuple e).
Proof. intros H. unfold ctuple, tuple. auto 10 with er. Qed.
Lemma er_key ce e : Erases ce e -> Erases (cobject_element_identifier U ce) (object_element_identifier U e).
Proof. intros H. unfold cobject_element_identifier, object_element_identifier. auto with er. Qed.
Lemma er_element ce e : Erases ce e -> Erases (cobject_element U ce) (object_element U e).
Proof.
  intros H. apply er_iws. intros s. apply er_bind; [apply er_wrap, er_key, H|]. intros r1 k.
  apply er_bind; [reflexivity|]. intros r2 q. apply er_bind; [apply er_wrap, H|]. reflexivity.
Qed.
Lemma er_object_body ce e : Erases ce e -> Erases (cobject_body U ce) (object_body U e).
Proof. intros H. apply er_ws, er_many0, er_wrap, er_terminated; [apply er_element, H|apply er_lift]. Qed.
Lemma er_object ce e : Erases ce e -> Erases (cobject U ce) (object U e).
Proof.
  intros H s. apply er_bind; [reflexivity|]. intros r1 b. apply er_bind; [apply er_ws, er_wrap, er_object_body, H|]. intros r2 v.
  apply er_bind; reflexivity.
Qed.
Lemma er_bracket ce e : Erases ce e -> Erases (cbracket_expression ce) (bracket_expression e).
Proof.
  intros H s. apply er_bind; [reflexivity|]. intros r1 b. apply er_bind; [apply er_ws, er_wrap, H|]. intros r2 v.
  apply er_bind; reflexivity.
Qed.
Lemma er_expression_step ce e : Erases ce e -> Erases (cexpression_step U ce) (expression_step U e).
Proof.
  intros H. unfold cexpression_step, expression_step. repeat (apply er_alt; [apply er_lift|]).
  apply er_alt; [apply er_pmap, er_tuple, H|]. apply er_alt; [apply er_pmap, er_object, H|apply er_bracket, H].
Qed.
Lemma er_expression_f f : Erases (cexpression_f U f) (expression_f U f).
Proof. induction f as [|f IH]; [intros s; reflexivity|]. apply er_tick, er_expression_step, IH. Qed.
Theorem expression_erase : Erases (cexpression U) (expression U).
Proof. intros s. apply er_expression_f. Qed.
Lemma er_attribute : Erases (cattribute U) (attribute U).
Proof. apply er_iws. intros s. do 2 (apply er_bind; [reflexivity|]; intros ? ?). apply er_bind; [apply er_wrap, expression_erase|reflexivity]. Qed.
Lemma er_one_line : Erases (cone_line_block U) (one_line_block U).
Proof.
  apply er_iws. intros s. do 3 (apply er_bind; [reflexivity|]; intros ? ?). apply er_bind; [apply er_wrap, er_opt, er_attribute|]. intros ? ?.
  apply er_bind; reflexivity.
Qed.
Lemma er_block cb b : Erases cb b -> Erases (cblock U cb) (block U b).
Proof.
  intros H. apply er_iws. intros s. do 4 (apply er_bind; [reflexivity|]; intros ? ?). apply er_bind; [apply er_wrap, H|]. intros ? ?.
  apply er_bind; reflexivity.
Qed.
Lemma er_body_step cb b : Erases cb b -> Erases (cbody_step U cb) (body_step U b).
Proof.
  intros H. apply er_ws, er_many0, er_wrap, er_terminated; [|apply er_lift].
  apply er_alt; [apply er_pmap, er_attribute|apply er_alt; [apply er_one_line|apply er_block, H]].
Qed.
Lemma er_body_f f : Erases (cbody_f U f) (body_f U f).
Proof. induction f as [|f IH]; [intros s; reflexivity|]. apply er_tick, er_body_step, IH. Qed.
Theorem config_file_erase : Erases (cconfig_file U) (config_file U).
Proof. apply er_terminated; [intros s; apply er_body_f|apply er_lift]. Qed.

Lemma er_map_expression cm m : Erases cm m -> Erases (cmap_expression cm) (map_expression m).
Proof.
  intros H s. apply er_bind; [reflexivity|]. intros r1 b. apply er_bind; [apply er_ws, er_wrap, H|]. intros r2 v.
  apply er_bind; reflexivity.
Qed.
Lemma er_single_value_step cv v cm m : Erases cv v -> Erases cm m -> Erases (csingle_value_step U cv cm) (single_value_step U v m).
Proof.
  intros Hv Hm. unfold csingle_value_step, single_value_step. repeat (apply er_alt; [apply er_lift|]).
  apply er_alt; [apply er_pmap; unfold cvlist, vlist; auto 10 with er|apply er_pmap, er_map_expression, Hm].
Qed.
Lemma er_old_attribute cv v cm m : Erases cv v -> Erases cm m -> Erases (cold_attribute U cv cm) (old_attribute U v m).
Proof.
  intros Hv Hm. apply er_iws, er_alt; [|apply er_alt]; intros s; (apply er_bind; [reflexivity|]; intros ? ?); (apply er_bind; [reflexivity|]; intros ? ?).
  - apply er_bind; [apply er_wrap, Hv|reflexivity].
  - apply er_bind; [apply er_wrap, er_map_expression, Hm|reflexivity].
  - apply er_bind; [apply er_wrap, er_map_expression, Hm|reflexivity].
Qed.
Lemma er_map_values_step cv v cm m : Erases cv v -> Erases cm m -> Erases (cmap_values_step U cv cm) (map_values_step U v m).
Proof.
  intros Hv Hm s. apply er_bind; [|reflexivity]. apply er_ws, er_many0, er_wrap, er_terminated; [apply er_old_attribute; assumption|apply er_lift].
Qed.
Lemma er_old_f f : Erases (fst (cold_f U f)) (fst (old_f U f)) /\ Erases (snd (cold_f U f)) (snd (old_f U f)).
Proof.
  induction f as [|f [IHv IHm]]; [split; intros s; reflexivity|]. cbn [cold_f old_f]. destruct (cold_f U f) as [cv cm], (old_f U f) as [v m]. cbn [fst snd] in *.
  split; apply er_tick; [apply er_single_value_step|apply er_map_values_step]; assumption.
Qed.
Theorem old_body_erase : Erases (cold_body U) (old_body U).
Proof. apply er_terminated; [intros s; apply er_old_f|apply er_lift]. Qed.
End U.

(** ** The strict parser is linear *)
Lemma add_0 {A} (x : res A * nat) : add 0 x = x.
Proof. destruct x; reflexivity. Qed.
Lemma cwrap_ws {A} (p : cparser A) s : cwrap whitespace p s = p (ws_rest s).
Proof. unfold cwrap, cpreceded, lift. destruct (whitespace_eq s) as [v ->]. apply add_0. Qed.
Lemma cwrap_iws {A} (p : cparser A) s : cwrap inline_whitespace p s = p (iws_rest s).
Proof. unfold cwrap, cpreceded, lift. destruct (inline_whitespace_eq s) as [v ->]. apply add_0. Qed.
(** The number of calls of a [cbind], and the shape of its success *)
Lemma cbind_snd_le {A B} (x : res A * nat) (f : str -> A -> res B * nat) N :
  snd x <= N -> (forall r v, fst x = Ok r v -> snd x + snd (f r v) <= N) -> snd (cbind x f) <= N.
Proof. destruct x as [[r v| | | |] n]; cbn; intros H1 H2; auto. Qed.
Lemma cbind_ok {A B} (x : res A * nat) (f : str -> A -> res B * nat) r w :
  fst (cbind x f) = Ok r w -> exists r1 v, fst x = Ok r1 v /\ fst (f r1 v) = Ok r w /\ snd (cbind x f) = snd x + snd (f r1 v).
Proof. destruct x as [[r1 v| | | |] n]; cbn; intros H; try discriminate. eauto. Qed.
Lemma cws_m_snd {A} (p : cparser A) s : snd (cwhitespace_m p s) = snd (p s).
Proof. unfold cwhitespace_m, cterminated, lift. destruct (p s) as [[r v| | | |] n]; cbn [cbind]; try reflexivity. destruct (whitespace_eq r) as [w ->]. cbn. lia. Qed.
Lemma cws_m_fst {A} (p : cparser A) s : fst (cwhitespace_m p s) = bind (fst (p s)) (fun r v => Ok (ws_rest r) v).
Proof. unfold cwhitespace_m, cterminated, lift. destruct (p s) as [[r v| | | |] n]; cbn [cbind]; try reflexivity. destruct (whitespace_eq r) as [w ->]. reflexivity. Qed.
Lemma ciws_m_snd {A} (p : cparser A) s : snd (cinline_whitespace_m p s) = snd (p s).
Proof. unfold cinline_whitespace_m, cterminated, lift. destruct (p s) as [[r v| | | |] n]; cbn [cbind]; try reflexivity. destruct (inline_whitespace_eq r) as [w ->]. cbn. lia. Qed.
Lemma ciws_m_fst {A} (p : cparser A) s : fst (cinline_whitespace_m p s) = bind (fst (p s)) (fun r v => Ok (iws_rest r) v).
Proof. unfold cinline_whitespace_m, cterminated, lift. destruct (p s) as [[r v| | | |] n]; cbn [cbind]; try reflexivity. destruct (inline_whitespace_eq r) as [w ->]. reflexivity. Qed.
Lemma ws_len s : length (ws_rest s) <= length s. Proof. apply suffix_len, ws_rest_suffix. Qed.
Lemma iws_len s : length (iws_rest s) <= length s. Proof. apply suffix_len, iws_rest_suffix. Qed.
Lemma cterminated_lift_snd {A B} (p : cparser A) (q : parser B) s : snd (cterminated p (lift q) s) = snd (p s).
Proof. unfold cterminated, lift. destruct (p s) as [[r v| | | |] n]; cbn; try reflexivity. destruct (q r); cbn; lia. Qed.
Lemma cterminated_lift_ok {A B} (p : cparser A) (q : parser B) s r v : fst (cterminated p (lift q) s) = Ok r v ->
  exists r1 w, fst (p s) = Ok r1 v /\ q r1 = Ok r w.
Proof.
  unfold cterminated, lift. destruct (p s) as [[r1 v1| | | |] n]; cbn; try discriminate. destruct (q r1) as [r2 w| | | |] eqn:E; cbn; try discriminate.
  intros [= <- <-]. eauto.
Qed.
Lemma wf_len {A} (p : parser A) s r v : wf p -> p s = Ok r v -> length r <= length s.
Proof. intros H E. specialize (H s). rewrite E in H. apply suffix_len, H. Qed.

Lemma tail0 {A B} (q : parser A) (f : str -> A -> B) r : snd (cbind (lift q r) (fun r3 v => (Ok r3 (f r3 v), 0))) = 0.
Proof. unfold lift. destruct (q r); reflexivity. Qed.
(** A result of a counted parser that pays for its calls with the characters it reads *)
Definition Paid {A} (x : res A * nat) (s : str) : Prop :=
  snd x <= length s + 1 /\ forall r v, fst x = Ok r v -> snd x + length r <= length s.

(** [many0!], given when the closing parser can go on: the calls are paid for *)
Lemma many0_paid {A C} (p : cparser A) (close : parser C) (k d : nat) :
  (forall s, snd (p s) <= length s + k /\ forall r v, fst (p s) = Ok r v -> snd (p s) + length r <= length s) ->
  (forall s q w, close s = Ok q w -> snd (p s) + length q + d <= length s /\ forall r v, fst (p s) <> Ok r v) ->
  forall f s, snd (cmany0_loop f p s) <= length s + k /\
    forall r v q w, fst (cmany0_loop f p s) = Ok r v -> close r = Ok q w -> snd (cmany0_loop f p s) + length q + d <= length s.
Proof.
  intros Hp Hd. induction f as [|f IH]; intros s; cbn [cmany0_loop].
  - cbn. split; [lia|discriminate].
  - destruct (Hp s) as [H1 H2]. pose proof (Hd s) as H3. destruct (p s) as [[r v| | | |] n]; cbn [fst snd] in *; try (split; [lia|discriminate]).
    + specialize (H2 r v eq_refl). destruct (str_eqb r s) eqn:E; cbn [fst snd].
      * split; [lia|]. intros r0 v0 q w [= <- <-] Hc. destruct (H3 _ _ Hc) as [_ H]. exfalso. eapply H. reflexivity.
      * destruct (IH r) as [I1 I2]. split; [lia|]. intros r0 v0 q w Hr Hc. unfold map_res in Hr. apply bind_ok in Hr as (r1 & v1 & Hr & [= <- <-]).
        specialize (I2 _ _ _ _ Hr Hc). lia.
    + split; [lia|]. intros r v q w [= <- <-] Hc. apply H3 in Hc. lia.
Qed.
Lemma sep_paid {A B C} (sep : parser B) (p : cparser A) (close : parser C) :
  wf sep -> wf close ->
  (forall s, Paid (p s) s) ->
  (forall s s2 w q w', sep s = Ok s2 w -> close s = Ok q w' -> snd (p s2) + length q <= length s) ->
  forall f s, snd (csep_loop f sep p s) <= length s /\
    forall r v q w, fst (csep_loop f sep p s) = Ok r v -> close r = Ok q w -> snd (csep_loop f sep p s) + length q <= length s.
Proof.
  intros Ws Wc Hp Hd. induction f as [|f IH]; intros s; cbn [csep_loop].
  - cbn. split; [lia|discriminate].
  - pose proof (Ws s) as Hs. pose proof (Hd s) as H3. destruct (sep s) as [s2 w| | | |]; cbn [fst snd]; try (split; [lia|discriminate]).
    + apply suffix_len in Hs. specialize (H3 s2 w). destruct (Nat.eqb_spec (length s2) (length s)) as [_|Hn]; cbn [fst snd].
      { split; [lia|]. intros r v q w0 [= <- <-] Hc. apply (wf_len close) in Hc; [lia|exact Wc]. }
      destruct (Hp s2) as [H1 H2]. destruct (p s2) as [[r v| | | |] n]; cbn [fst snd] in *; try (split; [lia|discriminate]).
      * specialize (H2 r v eq_refl). destruct (Nat.eqb_spec (length r) (length s2)); cbn [fst snd]; [split; [lia|discriminate]|].
        destruct (IH r) as [I1 I2]. split; [lia|]. intros r0 v0 q w0 Hr Hc. unfold map_res in Hr. apply bind_ok in Hr as (r1 & v1 & Hr & [= <- <-]).
        specialize (I2 _ _ _ _ Hr Hc). lia.
      * split; [lia|]. intros r v q w0 [= <- <-] Hc. exact (H3 _ _ eq_refl Hc).
    + split; [lia|]. intros r v q w0 [= <- <-] Hc. apply (wf_len close) in Hc; [lia|exact Wc].
Qed.
Lemma separated_paid {A B C} (sep : parser B) (p : cparser A) (close : parser C) :
  wf sep -> wf close ->
  (forall s, Paid (p s) s) ->
  (forall s q w, close s = Ok q w -> snd (p s) + length q <= length s) ->
  (forall s s2 w q w', sep s = Ok s2 w -> close s = Ok q w' -> snd (p s2) + length q <= length s) ->
  forall s, snd (cseparated_list sep p s) <= length s + 1 /\
    forall r v q w, fst (cseparated_list sep p s) = Ok r v -> close r = Ok q w -> snd (cseparated_list sep p s) + length q <= length s.
Proof.
  intros Ws Wc Hp Hd Hd2 s. unfold cseparated_list. destruct (Hp s) as [H1 H2]. pose proof (Hd s) as H3.
  destruct (p s) as [[r v| | | |] n]; cbn [fst snd] in *; try (split; [lia|discriminate]).
  - specialize (H2 r v eq_refl). destruct (Nat.eqb_spec (length r) (length s)); cbn [fst snd]; [split; [lia|discriminate]|].
    destruct (sep_paid sep p close Ws Wc Hp Hd2 (S (length r)) r) as [I1 I2]. split; [lia|]. intros r0 v0 q w0 Hr Hc.
    unfold map_res in Hr. apply bind_ok in Hr as (r1 & v1 & Hr & [= <- <-]). specialize (I2 _ _ _ _ Hr Hc). lia.
  - split; [lia|]. intros r v q w [= <- <-] Hc. exact (H3 _ _ Hc).
Qed.

Section Linear.
Variable U : ucd.
(** A counted expression parser that pays, and gives up at a closing character at once *)
Definition dead (c : N) : Prop := c = 125%N \/ c = 93%N \/ c = 44%N.
Definition EP (p : cparser expr) : Prop :=
  (forall s, Paid (p s) s) /\
  (forall c s, dead c -> snd (p (c :: s)) <= 1 /\ forall r v, fst (p (c :: s)) <> Ok r v).

Definition tuple_close : parser (option char) := terminated (whitespace_m (wrap whitespace (opt (char_p c_comma)))) (char_p c_rbracket).
Lemma wf_tuple_close : wf tuple_close.
Proof. apply wf_terminated; [apply wf_ws_m, wf_wrap_ws, wf_opt, wf_char|apply wf_char]. Qed.
Lemma tuple_close_ok s q w : tuple_close s = Ok q w ->
  (exists t, ws_rest s = 44%N :: t /\ ws_rest t = 93%N :: q) \/ ws_rest s = 93%N :: q.
Proof.
  unfold tuple_close, terminated. intros H. apply bind_ok in H as (r1 & v1 & H1 & H). apply bind_ok in H as (r2 & v2 & H2 & [= <- <-]).
  rewrite ws_m, wrap_ws in H1. apply bind_ok in H1 as (r3 & v3 & H1 & [= <- <-]).
  apply char_p_ok in H2 as [H2 _]. unfold opt in H1.
  destruct (char_p c_comma (ws_rest s)) as [r4 v4| | | |] eqn:E; try discriminate.
  - apply char_p_ok in E as [E _]. injection H1 as <- <-. left. eauto.
  - injection H1 as <- <-. right. rewrite ws_rest_idem in H2. exact H2.
Qed.

Lemma ctuple_eq p s : ctuple p s =
  match char_p c_lbracket s with
  | Ok t _ => cterminated (cwhitespace_m (cseparated_list (wrap whitespace (char_p c_comma)) (cwrap whitespace p))) (lift tuple_close) t
  | Err => (Err, 0) | Fail q => (Fail q, 0) | Panic => (Panic, 0) | OutOfFuel => (OutOfFuel, 0)
  end.
Proof. unfold ctuple at 1, cpreceded, lift at 1. fold tuple_close. destruct (char_p c_lbracket s); try reflexivity. cbn [cbind]. apply add_0. Qed.
Lemma ctuple_paid p s : EP p -> snd (ctuple p s) <= length s /\ (forall r v, fst (ctuple p s) = Ok r v -> snd (ctuple p s) + S (length r) <= length s) /\
  (0 < snd (ctuple p s) -> exists t, s = 91%N :: t).
Proof.
  intros [Hp Hd]. rewrite ctuple_eq.
  destruct (char_p c_lbracket s) as [t b| | | |] eqn:E; cbn [fst snd]; try (split; [lia|split; [discriminate|lia]]).
  apply char_p_ok in E as [-> _]. cbn [length].
  destruct (separated_paid (wrap whitespace (char_p c_comma)) (cwrap whitespace p) tuple_close) with (s := t) as [I1 I2].
  - apply wf_wrap_ws, wf_char.
  - apply wf_tuple_close.
  - intros s. rewrite cwrap_ws. destruct (Hp (ws_rest s)) as [H1 H2]. pose proof (ws_len s). split; [lia|]. intros r v Hr. specialize (H2 r v Hr). lia.
  - intros s q w Hc. rewrite cwrap_ws. pose proof (ws_len s) as Hl. apply tuple_close_ok in Hc as [(u & Eu & Eq)|Eq].
    + rewrite Eu in *. pose proof (ws_len u) as Hl'. rewrite Eq in Hl'. cbn [length] in *. destruct (Hd 44%N u) as [Hd1 _]; [unfold dead; auto|]. lia.
    + rewrite Eq in *. cbn [length] in *. destruct (Hd 93%N q) as [Hd1 _]; [unfold dead; auto|]. lia.
  - intros s s2 w q w' Hs Hc. rewrite cwrap_ws. rewrite wrap_ws in Hs. apply char_p_ok in Hs as [Hs _]. pose proof (ws_len s) as Hl.
    apply tuple_close_ok in Hc as [(u & Eu & Eq)|Eq]; [|congruence]. rewrite Hs in Eu. injection Eu as <-. rewrite Eq. rewrite Hs in Hl. pose proof (ws_len s2) as Hl'.
    rewrite Eq in Hl'. cbn [length] in *. destruct (Hd 93%N q) as [Hd1 _]; [unfold dead; auto|]. lia.
  - rewrite cterminated_lift_snd, cws_m_snd. split; [lia|]. split; [|eauto]. intros r v H. apply cterminated_lift_ok in H as (r1 & w & H & Hc).
    rewrite cws_m_fst in H. apply bind_ok in H as (r2 & v2 & H & [= <- <-]).
    assert (Hc' : tuple_close r2 = Ok r w).
    { rewrite <- Hc. unfold tuple_close, terminated. rewrite !ws_m, !wrap_ws, ws_rest_idem. reflexivity. }
    specialize (I2 _ _ _ _ H Hc'). lia.
Qed.
Lemma ckey_paid p s : EP p -> Paid (cobject_element_identifier U p s) s.
Proof.
  intros [Hp _]. unfold cobject_element_identifier, calt, lift. pose proof (wf_pmap KIdent _ (wf_identifier U) s) as Hi.
  destruct (pmap KIdent (identifier U) s) as [r v| | | |]; cbn [good] in Hi; try (split; cbn; [lia|discriminate]).
  - apply suffix_len in Hi. split; cbn; [lia|]. intros r0 v0 [= <- <-]. exact Hi.
  - destruct (Hp s) as [H1 H2]. unfold cpmap, crecognize. destruct (p s) as [[r v| | | |] n]; cbn in *; (split; cbn; [lia|try discriminate]).
    intros r0 v0 [= <- <-]. specialize (H2 _ _ eq_refl). lia.
Qed.
Lemma celement_paid p s : EP p -> Paid (cobject_element U p s) s.
Proof.
  intros Hp. unfold cobject_element. unfold Paid. rewrite ciws_m_snd, ciws_m_fst.
  pose proof (ckey_paid p (iws_rest s) Hp) as [K1 K2]. pose proof (iws_len s) as Hl. rewrite cwrap_iws. split.
  - apply cbind_snd_le; [lia|]. intros r1 k Hk. specialize (K2 _ _ Hk). enough (snd (cbind (lift (wrap inline_whitespace (char_p c_eq)) r1) (fun r2 _ => cbind (cwrap inline_whitespace p r2) (fun r3 e => (Ok r3 (k, e), 0)))) <= length r1 + 1) by lia.
    apply cbind_snd_le; [cbn [lift snd]; lia|]. intros r2 q Hq. cbn [lift fst] in Hq. rewrite wrap_iws in Hq. apply char_consumes in Hq. pose proof (iws_len r1) as Hl1.
    destruct Hp as [Hp _]. destruct (Hp (iws_rest r2)) as [P1 P2]. pose proof (iws_len r2) as Hl2. cbn [lift snd]. rewrite cwrap_iws. rewrite Nat.add_0_l.
    apply cbind_snd_le; [lia|]. intros r3 e He. cbn [snd]. lia.
  - intros r v H. apply bind_ok in H as (r0 & v0 & H & [= <- <-]). apply cbind_ok in H as (r1 & k & Hk & H & ->). specialize (K2 _ _ Hk).
    apply cbind_ok in H as (r2 & q & Hq & H & ->). cbn [lift fst snd] in *. rewrite wrap_iws in Hq. apply char_consumes in Hq. pose proof (iws_len r1) as Hl1.
    rewrite cwrap_iws in *. apply cbind_ok in H as (r3 & e & He & [= <- <-] & ->). destruct Hp as [Hp _]. destruct (Hp (iws_rest r2)) as [_ P2]. specialize (P2 _ _ He).
    pose proof (iws_len r2) as Hl2. pose proof (iws_len r3) as Hl3. cbn [snd]. lia.
Qed.
Lemma celement_dead p c s : EP p -> dead c -> snd (cobject_element U p (c :: s)) <= 1 /\ forall r v, fst (cobject_element U p (c :: s)) <> Ok r v.
Proof.
  intros [_ Hd] Hc. assert (Ei : iws_rest (c :: s) = c :: s) by (apply iws_rest_stop; destruct Hc as [-> | [-> | ->]]; discriminate).
  assert (Ek : identifier U (c :: s) = Err) by (apply identifier_first_err; rewrite id_first_ascii by (destruct Hc as [-> | [-> | ->]]; lia); destruct Hc as [-> | [-> | ->]]; reflexivity).
  destruct (Hd c s Hc) as [D1 D2]. unfold cobject_element. rewrite ciws_m_snd, ciws_m_fst. rewrite cwrap_iws, Ei.
  assert (EK : cobject_element_identifier U p (c :: s) = cpmap (fun t => KExpr (Borrowed t)) (crecognize p) (c :: s)).
  { unfold cobject_element_identifier, calt, lift, pmap. rewrite Ek. cbn [map_res bind]. apply add_0. }
  rewrite EK. clear EK. unfold cpmap, crecognize.
  destruct (p (c :: s)) as [[r v| | | |] n]; cbn [fst snd cbind map_res bind] in *; try (exfalso; eapply D2; reflexivity); (split; [lia|intros ? ?; discriminate]).
Qed.
Lemma wf_separator : wf object_separator.
Proof. apply wf_object_separator. Qed.
Definition object_close : parser char := wrap whitespace (char_p c_rbrace).
Lemma cmembers_paid p f s : EP p ->
  let m := cwrap whitespace (cterminated (cobject_element U p) (lift object_separator)) in
  snd (cmany0_loop f m s) <= length s + 1 /\
    forall r v q w, fst (cmany0_loop f m s) = Ok r v -> object_close r = Ok q w -> snd (cmany0_loop f m s) + length q <= length s.
Proof.
  intros Hp m. enough (G : snd (cmany0_loop f m s) <= length s + 1 /\
    forall r v q w, fst (cmany0_loop f m s) = Ok r v -> object_close r = Ok q w -> snd (cmany0_loop f m s) + length q + 0 <= length s).
  { destruct G as [G1 G2]. split; [exact G1|]. intros r v q w H1 H2. specialize (G2 _ _ _ _ H1 H2). lia. }
  apply many0_paid.
  - intros s0. unfold m. rewrite cwrap_ws, cterminated_lift_snd. pose proof (celement_paid p (ws_rest s0) Hp) as [P1 P2]. pose proof (ws_len s0). split; [lia|].
    intros r v H'. apply cterminated_lift_ok in H' as (r1 & w & H1 & H2). specialize (P2 _ _ H1). apply (wf_len object_separator) in H2; [lia|apply wf_separator].
  - intros s0 q w Hc. unfold object_close in Hc. rewrite wrap_ws in Hc. apply char_p_ok in Hc as [Hc _]. unfold m. rewrite cwrap_ws, cterminated_lift_snd.
    pose proof (ws_len s0) as Hl. rewrite Hc in *. destruct (celement_dead p c_rbrace q Hp) as [D1 D2]; [left; reflexivity|]. cbn [length] in Hl. split; [lia|].
    intros r v H'. apply cterminated_lift_ok in H' as (r1 & w' & H1 & _). exact (D2 _ _ H1).
Qed.
Lemma cobject_paid p s : EP p -> snd (cobject U p s) <= length s /\ (forall r v, fst (cobject U p s) = Ok r v -> snd (cobject U p s) + S (length r) <= length s) /\
  (0 < snd (cobject U p s) -> exists t, ws_rest s = 123%N :: t).
Proof.
  intros Hp. unfold cobject. pose proof (ws_len s) as Hl.
  destruct (char_p c_lbrace (ws_rest s)) as [t b| | | |] eqn:E.
  2-5: unfold lift at 1 3 5 7; rewrite ws_m, wrap_ws, E; cbn; split; [lia|split; [discriminate|lia]].
  assert (E' : lift (whitespace_m (wrap whitespace (char_p c_lbrace))) s = (Ok (ws_rest t) b, 0)) by (unfold lift; rewrite ws_m, wrap_ws, E; reflexivity).
  rewrite E'. cbn [cbind]. apply char_p_ok in E as [E _]. rewrite E in Hl. cbn [length] in Hl.
  set (k := cbind _ _). assert (Hk : snd k <= length (ws_rest t) + 1 /\ forall r v, fst k = Ok r v -> snd k + length r <= length (ws_rest t)).
  { unfold k. clear k. set (x := cwhitespace_m _ _). pose proof (ws_len (ws_rest t)) as Hl1. rewrite ws_rest_idem in Hl1.
    assert (Ex : snd x = snd (cmany0_loop (S (length (ws_rest t))) (cwrap whitespace (cterminated (cobject_element U p) (lift object_separator))) (ws_rest t))).
    { unfold x. rewrite cws_m_snd, cwrap_ws. unfold cobject_body. rewrite cws_m_snd, ws_rest_idem. reflexivity. }
    destruct (cmembers_paid p (S (length (ws_rest t))) (ws_rest t) Hp) as [M1 M2]. cbv zeta in M1, M2. split.
    - apply cbind_snd_le; [lia|]. intros r v Hr. rewrite (tail0 (char_p c_rbrace) (fun _ _ => v)). lia.
    - intros r v H. apply cbind_ok in H as (r1 & v1 & Hx & H & ->). apply cbind_ok in H as (r2 & v2 & Hc & [= <- <-] & ->). cbn [lift fst snd] in Hc |- *.
      unfold x in Hx. rewrite cws_m_fst, cwrap_ws in Hx. apply bind_ok in Hx as (r3 & v3 & Hx & [= <- <-]). unfold cobject_body in Hx. rewrite cws_m_fst in Hx.
      apply bind_ok in Hx as (r4 & v4 & Hx & [= <- <-]). rewrite ws_rest_idem in Hc. rewrite ws_rest_idem in Hx.
      assert (Hc' : object_close r4 = Ok r2 v2) by (unfold object_close; rewrite wrap_ws; exact Hc).
      specialize (M2 _ _ _ _ Hx Hc'). lia. }
  pose proof (ws_len t). cbn [add fst snd]. destruct Hk as [K1 K2]. split; [lia|]. split; [|eauto]. intros r v H0. specialize (K2 r v H0). lia.
Qed.
Lemma cbracket_paid p s : EP p -> snd (cbracket_expression p s) <= length s /\ (forall r v, fst (cbracket_expression p s) = Ok r v -> snd (cbracket_expression p s) + S (length r) <= length s) /\
  (0 < snd (cbracket_expression p s) -> exists t, ws_rest s = 40%N :: t).
Proof.
  intros [Hp _]. unfold cbracket_expression. pose proof (ws_len s) as Hl.
  destruct (tag (lit "(") (ws_rest s)) as [t b| | | |] eqn:E.
  2-5: unfold lift at 1 3 5 7; rewrite ws_m, wrap_ws, E; cbn; split; [lia|split; [discriminate|lia]].
  assert (E' : lift (whitespace_m (wrap whitespace (tag (lit "(")))) s = (Ok (ws_rest t) b, 0)) by (unfold lift; rewrite ws_m, wrap_ws, E; reflexivity).
  rewrite E'. cbn [cbind]. apply tag_ok in E as [E _]. rewrite E in Hl. cbn [lit app length] in Hl, E.
  set (k := cbind _ _). assert (Hk : snd k <= length (ws_rest t) + 1 /\ forall r v, fst k = Ok r v -> snd k + length r <= length (ws_rest t)).
  { unfold k. clear k. pose proof (ws_len (ws_rest t)) as Hl1. destruct (Hp (ws_rest (ws_rest t))) as [P1 P2]. split.
    - apply cbind_snd_le; [rewrite cws_m_snd, cwrap_ws; lia|]. intros r v Hr. rewrite cws_m_snd, cwrap_ws, (tail0 (tag (lit ")")) (fun _ _ => v)). lia.
    - intros r v H. apply cbind_ok in H as (r1 & v1 & Hx & H & ->). apply cbind_ok in H as (r2 & v2 & Hc & [= <- <-] & ->). cbn [lift fst snd] in Hc |- *.
      rewrite cws_m_fst, cwrap_ws in Hx. apply bind_ok in Hx as (r3 & v3 & Hx & [= <- <-]). specialize (P2 _ _ Hx). rewrite cws_m_snd, cwrap_ws.
      apply tag_consumes in Hc; [|discriminate]. pose proof (ws_len r3). lia. }
  pose proof (ws_len t). cbn [add fst snd]. destruct Hk as [K1 K2]. split; [lia|]. split; [|eauto]. intros r v H0. specialize (K2 r v H0). lia.
Qed.
Lemma calt_lift {A} (p : parser A) (q : cparser A) s :
  calt (lift p) q s = match p s with Err => q s | x => (x, 0) end.
Proof. unfold calt, lift. destruct (p s); try reflexivity. apply add_0. Qed.
Lemma cexpression_f_len f s r v : fst (cexpression_f U f s) = Ok r v -> length r < length s.
Proof.
  rewrite (er_expression_f U f s). intros H. pose proof (ple_expression U f s) as Hp. rewrite H in Hp.
  eapply GExpr_len, expression_sound. destruct Hp as [Hp|Hp]; [discriminate|]. symmetry. exact Hp.
Qed.
Lemma cobject_first p x c s : ws_rest x = c :: s -> c <> 123%N -> cobject U p x = (Err, 0).
Proof. intros Ew H. unfold cobject, lift at 1. rewrite ws_m, wrap_ws, Ew, char_p_neq by exact H. reflexivity. Qed.
Lemma cbracket_first p x c s : ws_rest x = c :: s -> c <> 40%N -> cbracket_expression p x = (Err, 0).
Proof. intros Ew H. unfold cbracket_expression, lift at 1. rewrite ws_m, wrap_ws, Ew. change (lit "(") with [40%N]. rewrite tag_first by exact H. reflexivity. Qed.
Lemma compound_paid p s : EP p ->
  let x := calt (cpmap ETuple (ctuple p)) (calt (cpmap EObject (cobject U p)) (cbracket_expression p)) s in
  snd x <= length s /\ forall r v, fst x = Ok r v -> snd x + S (length r) <= length s.
Proof.
  intros Hp x. destruct (ctuple_paid p s Hp) as (T1 & T2 & T3). destruct (cobject_paid p s Hp) as (O1 & O2 & O3). destruct (cbracket_paid p s Hp) as (B1 & B2 & B3).
  unfold x, calt, cpmap. clear x.
  assert (Ex1 : snd (ctuple p s) = 0 \/ cobject U p s = (Err, 0) /\ cbracket_expression p s = (Err, 0)).
  { destruct (Nat.eq_dec (snd (ctuple p s)) 0) as [E|E]; [auto|right]. destruct T3 as [t ->]; [lia|].
    assert (Ew : ws_rest (91%N :: t) = 91%N :: t) by (apply ws_rest_stop; discriminate).
    split; [eapply cobject_first|eapply cbracket_first]; [exact Ew|discriminate|exact Ew|discriminate]. }
  assert (Ex2 : snd (cobject U p s) = 0 \/ cbracket_expression p s = (Err, 0)).
  { destruct (Nat.eq_dec (snd (cobject U p s)) 0) as [E|E]; [auto|right]. destruct O3 as [t Et]; [lia|]. eapply cbracket_first; [exact Et|discriminate]. }
  destruct (ctuple p s) as [xt nt], (cobject U p s) as [xo no], (cbracket_expression p s) as [xb nb]. cbn [fst snd] in *.
  assert (Hn1 : nt = 0 \/ no = 0 /\ nb = 0) by (destruct Ex1 as [E|[[= _ E1] [= _ E2]]]; auto).
  assert (Hn2 : no = 0 \/ nb = 0) by (destruct Ex2 as [E|[= _ E2]]; auto).
  destruct xt as [r v| | | |]; cbn [map_res bind fst snd add]; try (split; [lia|discriminate]).
  - split; [lia|]. intros r0 v0 [= <- <-]. exact (T2 _ _ eq_refl).
  - destruct xo as [r v| | | |]; cbn [map_res bind fst snd add]; try (split; [lia|discriminate]).
    + split; [lia|]. intros r0 v0 [= <- <-]. specialize (O2 _ _ eq_refl). destruct Ex1 as [->|[E _]]; [lia|discriminate E].
    + split; [lia|]. intros r0 v0 E. specialize (B2 _ _ E). destruct Ex1 as [->|[_ E1]]; [|congruence]. destruct Ex2 as [->|E1]; [lia|congruence].
Qed.
Lemma cexpression_f_paid f : EP (cexpression_f U f).
Proof.
  induction f as [|f IH].
  { split; [intros s; split; cbn; [lia|discriminate]|]. intros c s _. split; [cbn; lia|discriminate]. }
  split.
  - intros s. pose proof (fun r v => cexpression_f_len (S f) s r v) as Hlen. pose proof (compound_paid (cexpression_f U f) s IH) as Hc. cbv zeta in Hc.
    change (cexpression_f U (S f) s) with (add 1 (cexpression_step U (cexpression_f U f) s)) in *.
    unfold cexpression_step in *. rewrite !calt_lift in *. set (x := calt (cpmap ETuple _) _ s) in *. clearbody x. revert Hlen.
    repeat match goal with |- context[match ?y with _ => _ end] => destruct y end; intros Hlen; unfold Paid, add in *; cbn [fst snd] in *.
    all: try (split; [lia|intros r' v' E; specialize (Hlen _ _ E); lia]).
    destruct Hc as [H1 H2]. split; cbn [fst snd]; [lia|]. intros r' v' E. specialize (H2 _ _ E). lia.
  - intros c s Hc. change (cexpression_f U (S f) (c :: s)) with (add 1 (cexpression_step U (cexpression_f U f) (c :: s))).
    assert (Hn : (c <> 110 /\ is_dec_digit c = false /\ c <> 46 /\ c <> 43 /\ c <> 45 /\ c <> 116 /\ c <> 102 /\
      c <> 34 /\ c <> 60 /\ c <> 91 /\ c <> 123 /\ c <> 40)%N) by (destruct Hc as [-> | [-> | ->]]; repeat split; discriminate).
    assert (Ew : ws_rest (c :: s) = c :: s) by (apply ws_rest_stop; destruct Hc as [-> | [-> | ->]]; discriminate).
    enough (E : cexpression_step U (cexpression_f U f) (c :: s) = (Err, 0)) by (rewrite E; split; [cbn; lia|discriminate]).
    unfold cexpression_step. rewrite !calt_lift.
    rewrite (pmap_err (fun _ => ENull)) by (apply null_first; tauto).
    rewrite (pmap_err ENumber) by (apply number_first_err; tauto).
    rewrite (pmap_err EBool) by (apply boolean_first; tauto).
    rewrite (pmap_err EString) by (apply string_p_first; tauto).
    assert (Et : ctuple (cexpression_f U f) (c :: s) = (Err, 0)) by (rewrite ctuple_eq, char_p_neq by tauto; reflexivity).
    assert (Eo : cobject U (cexpression_f U f) (c :: s) = (Err, 0)) by (unfold cobject, lift at 1; rewrite ws_m, wrap_ws, Ew, char_p_neq by tauto; reflexivity).
    assert (Eb : cbracket_expression (cexpression_f U f) (c :: s) = (Err, 0)).
    { unfold cbracket_expression, lift at 1. rewrite ws_m, wrap_ws, Ew. change (lit "(") with [40%N]. rewrite tag_first by tauto. reflexivity. }
    unfold calt, cpmap. rewrite Et, Eo, Eb. reflexivity.
Qed.
Theorem expression_linear s : expression_parse_calls U s <= length s + 1.
Proof. apply (proj1 (cexpression_f_paid (S (length s)))). Qed.

(** Attributes: calls only after a name and [=] *)
Lemma cattribute_paid s :
  snd (cattribute U s) <= length s /\ (forall r v, fst (cattribute U s) = Ok r v -> snd (cattribute U s) + length r <= length s) /\
  (snd (cattribute U s) = 0 \/ exists r1 i t, identifier U (iws_rest s) = Ok r1 i /\ iws_rest r1 = 61%N :: t).
Proof.
  unfold cattribute. rewrite ciws_m_snd, ciws_m_fst. unfold lift. rewrite wrap_iws. pose proof (iws_len s) as Hl.
  destruct (identifier U (iws_rest s)) as [r1 i| | | |] eqn:Ei; cbn [cbind fst snd]; try (split; [lia|split; [discriminate|auto]]).
  apply identifier_ok in Ei as Hi. apply GIdent_len in Hi. rewrite wrap_iws. pose proof (iws_len r1) as Hl1.
  destruct (char_p c_eq (iws_rest r1)) as [r2 q| | | |] eqn:Eq; cbn [cbind fst snd add]; try (split; [lia|split; [discriminate|auto]]).
  apply char_p_ok in Eq as [Eq _]. rewrite Eq in Hl1. cbn [length] in Hl1. rewrite cwrap_iws. pose proof (iws_len r2) as Hl2.
  destruct (proj1 (cexpression_f_paid (S (length (iws_rest r2)))) (iws_rest r2)) as [P1 P2]. fold (cexpression U (iws_rest r2)) in P1, P2.
  change (cexpression_f U (S (length (iws_rest r2))) (iws_rest r2)) with (cexpression U (iws_rest r2)) in *.
  destruct (cexpression U (iws_rest r2)) as [[r3 e| | | |] n]; cbn [cbind fst snd add bind] in *; (split; [lia|]); (split; [try discriminate|eauto 6]).
  intros r v [= <- <-]. specialize (P2 _ _ eq_refl). pose proof (iws_len r3). lia.
Qed.
Lemma labels_at_eq x t : iws_rest x = 61%N :: t -> block_labels U x = Ok x [].
Proof.
  intros Hx. unfold block_labels. rewrite many0_eq.
  - rewrite iws_m, wrap_iws, Hx. unfold block_label. rewrite alt_err by (apply pmap_err, identifier_first_err; rewrite id_first_ascii by lia; reflexivity).
    rewrite (pmap_err LString) by (apply string_literal_first; discriminate). reflexivity.
  - apply wf_upto_of. apply wf_iws_m, wf_wrap_iws, wf_block_label.
Qed.
(** The head [name labels ] and [{] that both kinds of blocks begin with *)
Definition head : parser (cow * list label) := fun s =>
  bind (identifier U (iws_rest s)) (fun r1 t => bind (block_labels U (iws_rest r1)) (fun r2 ls =>
    bind (tag (lit "{") (iws_rest r2)) (fun r3 _ => Ok r3 (t, ls)))).
Lemma wf_head_len s r v : head s = Ok r v -> length r + 2 <= length s.
Proof.
  unfold head. intros H. apply bind_ok in H as (r1 & i & H1 & H). apply bind_ok in H as (r2 & ls & H2 & H). apply bind_ok in H as (r3 & b & H3 & [= <- <-]).
  apply identifier_ok in H1. apply GIdent_len in H1. apply (wf_len (block_labels U)) in H2; [|apply wf_block_labels].
  apply tag_consumes in H3; [|discriminate]. pose proof (iws_len s). pose proof (iws_len r1). pose proof (iws_len r2). lia.
Qed.
Lemma head_eq_err s r1 i t : identifier U (iws_rest s) = Ok r1 i -> iws_rest r1 = 61%N :: t -> head s = Err.
Proof.
  intros H1 H2. unfold head. rewrite H1. cbn [bind]. rewrite H2, (labels_at_eq _ t) by (apply iws_rest_stop; discriminate). cbn [bind].
  rewrite (iws_rest_stop 61) by discriminate. reflexivity.
Qed.
Lemma cone_line_eq s : cone_line_block U s = cinline_whitespace_m (fun s =>
  let+ (r3, tl) := lift head s in
  let+ (r4, a) := copt (cattribute U) (iws_rest r3) in
  let+ (r5, _c) := lift (wrap inline_whitespace (tag (lit "}"))) r4 in
  (Ok r5 (new_one_line (fst tl) (snd tl) a), 0)) s.
Proof.
  unfold cone_line_block, cinline_whitespace_m, cterminated. f_equal. unfold lift, head. rewrite wrap_iws.
  destruct (identifier U (iws_rest s)) as [r1 i| | | |]; cbn [cbind bind]; try reflexivity. rewrite wrap_iws.
  destruct (block_labels U (iws_rest r1)) as [r2 ls| | | |]; cbn [cbind bind]; try reflexivity. rewrite wrap_iws.
  destruct (tag (lit "{") (iws_rest r2)) as [r3 b| | | |]; cbn [cbind bind]; try reflexivity. rewrite !add_0, cwrap_iws. reflexivity.
Qed.
Lemma cblock_eq pb s : cblock U pb s = cinline_whitespace_m (fun s =>
  let+ (r3, tl) := lift head s in
  let+ (r4, _n) := lift newline (iws_rest r3) in
  let+ (r5, b) := pb (iws_rest r4) in
  let+ (r6, _c) := lift (wrap inline_whitespace (tag (lit "}"))) r5 in
  (Ok r6 (Blk (fst tl) (snd tl) b), 0)) s.
Proof.
  unfold cblock, cinline_whitespace_m, cterminated. f_equal. unfold lift, head. rewrite wrap_iws.
  destruct (identifier U (iws_rest s)) as [r1 i| | | |]; cbn [cbind bind]; try reflexivity. rewrite wrap_iws.
  destruct (block_labels U (iws_rest r1)) as [r2 ls| | | |]; cbn [cbind bind]; try reflexivity. rewrite wrap_iws.
  destruct (tag (lit "{") (iws_rest r2)) as [r3 b| | | |]; cbn [cbind bind]; try reflexivity. rewrite !add_0, wrap_iws.
  destruct (newline (iws_rest r3)) as [r4 nl| | | |]; cbn [cbind bind]; try reflexivity. rewrite cwrap_iws. reflexivity.
Qed.
Lemma newline_id_err r1 s i : identifier U s = Ok r1 i -> newline s = Err.
Proof.
  intros H. apply identifier_ok, GIdent_first in H as (c & s' & -> & H). apply newline_first_err; intros ->; rewrite id_first_ascii in H by lia; discriminate.
Qed.
Lemma cone_line_paid s :
  snd (cone_line_block U s) <= length s /\ (forall r v, fst (cone_line_block U s) = Ok r v -> snd (cone_line_block U s) + length r <= length s) /\
  (snd (cone_line_block U s) = 0 \/ exists r3 tl, head s = Ok r3 tl /\ newline (iws_rest r3) = Err) /\
  (head s = Err -> cone_line_block U s = (Err, 0)).
Proof.
  rewrite cone_line_eq, ciws_m_snd, ciws_m_fst. unfold lift.
  destruct (head s) as [r3 tl| | | |] eqn:Eh; cbn [cbind fst snd bind]; try (split; [lia|split; [discriminate|split; auto; discriminate]]).
  2:{ split; [lia|split; [discriminate|split; [auto|]]]. intros _. unfold cinline_whitespace_m, cterminated. rewrite Eh. reflexivity. }
  pose proof (wf_head_len _ _ _ Eh) as Hh. pose proof (iws_len r3) as Hl. destruct (cattribute_paid (iws_rest r3)) as (A1 & A2 & A3). unfold copt.
  assert (A3' : snd (cattribute U (iws_rest r3)) = 0 \/ newline (iws_rest r3) = Err).
  { destruct A3 as [A3|(r1 & i & t & A3 & _)]; [auto|right]. rewrite iws_rest_idem in A3. eapply newline_id_err, A3. }
  destruct (cattribute U (iws_rest r3)) as [[r4 a| | | |] n]; cbn [cbind fst snd add bind] in *.
  3-5: split; [lia|split; [discriminate|split; [destruct A3'; eauto|discriminate]]].
  - specialize (A2 _ _ eq_refl). rewrite wrap_iws. pose proof (iws_len r4) as Hl4.
    destruct (tag (lit "}") (iws_rest r4)) as [r5 q| | | |] eqn:Et; cbn [cbind fst snd add bind]; (split; [lia|]); (split; [try discriminate|split; [destruct A3'; [left; lia|eauto]|discriminate]]).
    intros r v [= <- <-]. apply tag_consumes in Et; [|discriminate]. pose proof (iws_len r5). lia.
  - rewrite wrap_iws, iws_rest_idem.
    destruct (tag (lit "}") (iws_rest r3)) as [r5 q| | | |] eqn:Et; cbn [cbind fst snd add bind]; (split; [lia|]); (split; [try discriminate|split; [destruct A3'; [left; lia|eauto]|discriminate]]).
    intros r v [= <- <-]. apply tag_ok in Et as [Et _]. assert (n = 0); [|apply (f_equal (@length N)) in Et; cbn [lit app length] in Et; pose proof (iws_len r5); lia].
    destruct A3 as [A3|(r1 & i & t & A3 & _)]; [exact A3|]. rewrite iws_rest_idem, Et in A3. apply identifier_ok, GIdent_first in A3 as (c & s' & [= <- _] & A3).
    rewrite id_first_ascii in A3 by lia. discriminate.
Qed.

(** A counted body parser that pays *)
Definition BP (p : cparser body_t) : Prop := forall s, snd (p s) <= length s + 1 /\
  forall r v q w, fst (p s) = Ok r v -> wrap whitespace (tag (lit "}")) r = Ok q w -> snd (p s) + length q <= length s.
Lemma cblock_paid pb s : BP pb ->
  snd (cblock U pb s) <= length s /\ (forall r v, fst (cblock U pb s) = Ok r v -> snd (cblock U pb s) + length r <= length s) /\
  (head s = Err -> cblock U pb s = (Err, 0)) /\
  (forall r3 tl, head s = Ok r3 tl -> newline (iws_rest r3) = Err -> cblock U pb s = (Err, 0)).
Proof.
  intros Hp. rewrite cblock_eq, ciws_m_snd, ciws_m_fst. unfold lift.
  destruct (head s) as [r3 tl| | | |] eqn:Eh; cbn [cbind fst snd bind]; try (split; [lia|split; [discriminate|split; discriminate]]).
  2:{ split; [lia|split; [discriminate|split; [|discriminate]]]. intros _. unfold cinline_whitespace_m, cterminated. rewrite Eh. reflexivity. }
  pose proof (wf_head_len _ _ _ Eh) as Hh. pose proof (iws_len r3) as Hl.
  destruct (newline (iws_rest r3)) as [r4 nl| | | |] eqn:En; cbn [cbind fst snd add bind].
  2:{ split; [lia|split; [discriminate|split; [discriminate|]]]. intros r3' tl' [= <- <-] _. unfold cinline_whitespace_m, cterminated. rewrite Eh. cbn [cbind]. rewrite En. reflexivity. }
  2-4: split; [lia|split; [discriminate|split; [discriminate|intros ? ? [= <- <-]; congruence]]].
  apply (wf_len newline) in En as Hn; [|apply wf_newline]. pose proof (iws_len r4) as Hl4. destruct (Hp (iws_rest r4)) as [P1 P2].
  destruct (pb (iws_rest r4)) as [[r5 b| | | |] n]; cbn [cbind fst snd add bind] in *.
  2-5: split; [lia|split; [discriminate|split; [discriminate|intros ? ? [= <- <-]; congruence]]].
  destruct (wrap inline_whitespace (tag (lit "}")) r5) as [r6 q| | | |] eqn:Et; cbn [cbind fst snd add bind]; (split; [lia|]); (split; [try discriminate|split; [discriminate|intros ? ? [= <- <-]; congruence]]).
  intros r v [= <- <-]. rewrite wrap_iws in Et. apply tag_ok in Et as [Et _].
  assert (Hc : wrap whitespace (tag (lit "}")) r5 = Ok r6 (lit "}")).
  { rewrite wrap_ws, <- ws_rest_iws_rest, Et. cbn [lit app]. rewrite ws_rest_stop by discriminate. reflexivity. }
  specialize (P2 _ _ _ _ eq_refl Hc). pose proof (iws_len r6). lia.
Qed.
Lemma celement2_paid pb s : BP pb ->
  snd (cbody_element U pb s) <= length s /\ (forall r v, fst (cbody_element U pb s) = Ok r v -> snd (cbody_element U pb s) + length r <= length s).
Proof.
  intros Hp. destruct (cattribute_paid s) as (A1 & A2 & A3). destruct (cone_line_paid s) as (O1 & O2 & O3 & O4). destruct (cblock_paid pb s Hp) as (B1 & B2 & B3 & B4).
  assert (E1 : snd (cattribute U s) = 0 \/ cone_line_block U s = (Err, 0) /\ cblock U pb s = (Err, 0)).
  { destruct A3 as [A3|(r1 & i & t & H1 & H2)]; [auto|right]. pose proof (head_eq_err _ _ _ _ H1 H2) as Hh. auto. }
  assert (E2 : snd (cone_line_block U s) = 0 \/ cblock U pb s = (Err, 0)) by (destruct O3 as [O3|(r3 & tl & H1 & H2)]; eauto).
  unfold cbody_element, calt, cpmap.
  destruct (cattribute U s) as [xa na], (cone_line_block U s) as [xo no], (cblock U pb s) as [xb nb]. cbn [fst snd] in *.
  assert (Hn1 : na = 0 \/ no = 0 /\ nb = 0) by (destruct E1 as [E|[[= _ X1] [= _ X2]]]; auto).
  assert (Hn2 : no = 0 \/ nb = 0) by (destruct E2 as [E|[= _ X2]]; auto).
  destruct xa as [r v| | | |]; cbn [map_res bind fst snd add]; try (split; [lia|discriminate]).
  - split; [lia|]. intros r0 v0 [= <- <-]. exact (A2 _ _ eq_refl).
  - destruct xo as [r v| | | |]; cbn [map_res bind fst snd add]; try (split; [lia|discriminate]).
    + split; [lia|]. intros r0 v0 [= <- <-]. specialize (O2 _ _ eq_refl). destruct E1 as [->|[E _]]; [lia|discriminate E].
    + split; [lia|]. intros r0 v0 E. specialize (B2 _ _ E). destruct E1 as [->|[_ X1]]; [|congruence]. destruct E2 as [->|X1]; [lia|congruence].
Qed.
Lemma celement2_dead pb s : BP pb -> cbody_element U pb (125%N :: s) = (Err, 0).
Proof.
  intros Hp. assert (Ei : identifier U (iws_rest (125%N :: s)) = Err).
  { rewrite iws_rest_stop by discriminate. apply identifier_first_err. rewrite id_first_ascii by lia. reflexivity. }
  assert (Eh : head (125%N :: s) = Err) by (unfold head; rewrite Ei; reflexivity).
  unfold cbody_element, calt, cpmap. rewrite (proj2 (proj2 (proj2 (cone_line_paid (125%N :: s)))) Eh).
  rewrite (proj1 (proj2 (proj2 (cblock_paid pb (125%N :: s) Hp))) Eh).
  unfold cattribute, cinline_whitespace_m, cterminated, lift. rewrite wrap_iws, Ei. reflexivity.
Qed.
Lemma cbody_f_paid f : BP (cbody_f U f).
Proof.
  induction f as [|f IH]; [intros s; split; cbn; [lia|discriminate]|]. intros s.
  change (cbody_f U (S f) s) with (add 1 (cbody_step U (cbody_f U f) s)). cbn [add fst snd]. unfold cbody_step. rewrite cws_m_snd, cws_m_fst.
  set (m := cwrap whitespace _).
  assert (G : snd (cmany0 m s) <= length s + 0 /\ forall r v q w, fst (cmany0 m s) = Ok r v -> wrap whitespace (tag (lit "}")) r = Ok q w -> snd (cmany0 m s) + length q + 1 <= length s).
  { apply many0_paid.
    - intros s0. unfold m. rewrite cwrap_ws, cterminated_lift_snd. destruct (celement2_paid _ (ws_rest s0) IH) as [P1 P2]. pose proof (ws_len s0). split; [lia|].
      intros r v H0. apply cterminated_lift_ok in H0 as (r1 & w & H1 & H2). specialize (P2 _ _ H1). apply (wf_len (alt (pmap (fun _ => []) newline) eof)) in H2; [lia|apply wf_body_end].
    - intros s0 q w Hc. rewrite wrap_ws in Hc. apply tag_ok in Hc as [Hc _]. unfold m. rewrite cwrap_ws, cterminated_lift_snd.
      pose proof (ws_len s0) as Hl. rewrite Hc in *. cbn [lit app length] in *. change (125%N :: q) with (125%N :: q). rewrite celement2_dead by exact IH.
      cbn [snd]. split; [lia|]. intros r v H'. apply cterminated_lift_ok in H' as (r1 & w' & H1 & _). rewrite celement2_dead in H1 by exact IH. discriminate. }
  destruct G as [G1 G2]. rewrite Nat.add_0_r in G1. split; [rewrite Nat.add_comm; apply Nat.add_le_mono_r; exact G1|]. intros r v q w H Hc. apply bind_ok in H as (r1 & v1 & H & [= <- <-]).
  assert (Hc' : wrap whitespace (tag (lit "}")) r1 = Ok q w) by (rewrite wrap_ws in *; rewrite ws_rest_idem in Hc; exact Hc).
  specialize (G2 _ _ _ _ H Hc'). rewrite Nat.add_comm in G2. rewrite <- Nat.add_assoc. etransitivity; [|exact G2]. apply Nat.le_refl.
Qed.
Theorem parse_str_linear s : parse_str_calls U s <= length s + 1.
Proof.
  unfold parse_str_calls, cconfig_file. rewrite cterminated_lift_snd. apply (cbody_f_paid (S (length s)) s).
Qed.
End Linear.

(** ** The parser behind [value::from_str]: every level of [a={] doubles the calls *)
Section Doubling.
Variable U : ucd.
Definition opener : str := lit "a={".
Definition opens (n : nat) (t : str) : str := Nat.iter n (app opener) t.
Lemma cold_f_S f : cold_f U (S f) = (tick (csingle_value_step U (fst (cold_f U f)) (snd (cold_f U f))), tick (cmap_values_step U (fst (cold_f U f)) (snd (cold_f U f)))).
Proof. cbn. destruct (cold_f U f). reflexivity. Qed.
Lemma id_a s : identifier U (97%N :: 61%N :: s) = Ok (61%N :: s) (Borrowed [97%N]).
Proof. reflexivity. Qed.
Lemma key_a s : literal_key U (97%N :: 61%N :: s) = Ok (61%N :: s) (KeyIdent [97%N]).
Proof. reflexivity. Qed.
Lemma cmap_expression_stuck (pm : cparser mapvalues) Y r v m : ws_rest Y = Y -> pm Y = (Ok r v, m) -> (forall q w, char_p c_rbrace (ws_rest r) <> Ok q w) ->
  cmap_expression pm (123%N :: Y) = (Err, m).
Proof.
  intros HY Hp Hr. unfold cmap_expression. unfold lift at 1. rewrite ws_m, wrap_ws, (ws_rest_stop 123) by discriminate.
  assert (Ec : char_p c_lbrace (123%N :: Y) = Ok Y 123%N) by reflexivity. rewrite Ec. cbn [bind cbind]. rewrite HY, add_0.
  unfold cwhitespace_m, cterminated. rewrite cwrap_ws, HY, Hp. cbn [cbind]. unfold lift. destruct (whitespace_eq r) as [w ->]. cbn [cbind add fst snd].
  assert (Ee : char_p c_rbrace (ws_rest r) = Err).
  { unfold char_p in *. destruct (ws_rest r) as [|c q]; [reflexivity|]. destruct (c =? c_rbrace)%N; [exfalso; eapply Hr; reflexivity|reflexivity]. }
  rewrite Ee. cbn. unfold add; cbn [fst snd]. f_equal. lia.
Qed.
Lemma level f Y r r' v v' m : ws_rest Y = Y ->
  snd (cold_f U f) Y = (Ok r v, m) -> snd (cold_f U (S f)) Y = (Ok r' v', m) ->
  (forall q w, char_p c_rbrace (ws_rest r) <> Ok q w) -> (forall q w, char_p c_rbrace (ws_rest r') <> Ok q w) ->
  snd (cold_f U (S (S f))) (opener ++ Y) = (Ok (opener ++ Y) (Unmerged []), 2 * m + 2).
Proof.
  intros HY Hf Hf' Hr Hr'. pose proof (cmap_expression_stuck _ _ _ _ _ HY Hf Hr) as E1. pose proof (cmap_expression_stuck _ _ _ _ _ HY Hf' Hr') as E2.
  rewrite cold_f_S. cbn [snd]. set (pm := snd (cold_f U (S f))) in *.
  assert (Ev : fst (cold_f U (S f)) (123%N :: Y) = (Err, m + 1)).
  { rewrite cold_f_S. cbn [fst]. unfold tick, csingle_value_step. rewrite !calt_lift.
    assert (N1 : number (123%N :: Y) = Err) by (apply number_first_err; [reflexivity|discriminate..]).
    assert (N2 : string_p U (123%N :: Y) = Err) by (apply string_p_first; discriminate).
    assert (N3 : literal_number (123%N :: Y) = Err).
    { reflexivity. }
    unfold pmap. rewrite N3, N2. cbn [map_res bind null boolean alt pmap]. unfold calt, cpmap. rewrite E1. unfold add. cbn. f_equal. lia. }
  set (pv := fst (cold_f U (S f))) in *. clearbody pv pm.
  assert (Ea : cold_attribute U pv pm (opener ++ Y) = (Err, 2 * m + 1)).
  { unfold cold_attribute. change (opener ++ Y) with (97%N :: 61%N :: 123%N :: Y). unfold cinline_whitespace_m, cterminated. set (a := calt _ _).
    enough (Ha : a (97%N :: 61%N :: 123%N :: Y) = (Err, 2 * m + 1)) by (rewrite Ha; reflexivity).
    unfold a, calt, lift. rewrite !wrap_iws, !(iws_rest_stop 97) by discriminate. rewrite key_a, id_a. cbn [cbind]. rewrite !wrap_iws, !(iws_rest_stop 61) by discriminate.
    assert (Eq : char_p c_eq (61%N :: 123%N :: Y) = Ok (123%N :: Y) 61%N) by reflexivity. unfold opt. rewrite Eq. cbn [cbind]. rewrite !cwrap_iws, !(iws_rest_stop 123) by discriminate.
    rewrite Ev, E2. cbn [cbind add fst snd].
    assert (Em : many0 (wrap inline_whitespace string_literal) (61%N :: 123%N :: Y) = Ok (61%N :: 123%N :: Y) []).
    { rewrite many0_eq.
      - rewrite wrap_iws, (iws_rest_stop 61) by discriminate. rewrite string_literal_first by discriminate. reflexivity.
      - apply wf_upto_of, wf_wrap_iws, wf_string_literal. }
    rewrite Em. cbn [cbind]. rewrite cwrap_iws, (iws_rest_stop 61) by discriminate. unfold cmap_expression, lift. rewrite ws_m, wrap_ws, (ws_rest_stop 61) by discriminate.
    rewrite char_p_neq by discriminate. unfold add. cbn [bind cbind fst snd]. f_equal. lia. }
  unfold tick, cmap_values_step. set (w := cwhitespace_m _).
  assert (Ew : w (opener ++ Y) = (Ok (opener ++ Y) [], 2 * m + 1)).
  { unfold w, cwhitespace_m, cterminated, cmany0. set (it := cwrap _ _). assert (Ei : it (opener ++ Y) = (Err, 2 * m + 1)).
    { unfold it. rewrite cwrap_ws. change (ws_rest (opener ++ Y)) with (ws_rest (97%N :: 61%N :: 123%N :: Y)). rewrite ws_rest_stop by discriminate.
      unfold cterminated. change (97%N :: 61%N :: 123%N :: Y) with (opener ++ Y). rewrite Ea. reflexivity. }
    assert (El : cmany0_loop (S (length (opener ++ Y))) it (opener ++ Y) = (Ok (opener ++ Y) [], 2 * m + 1)) by (cbn [cmany0_loop]; rewrite Ei; reflexivity).
    rewrite El. cbn [cbind]. unfold lift. destruct (whitespace_eq (opener ++ Y)) as [x ->]. change (opener ++ Y) with (97%N :: 61%N :: 123%N :: Y). rewrite ws_rest_stop by discriminate.
    unfold add. cbn [cbind fst snd]. unfold add. cbn [fst snd]. rewrite !Nat.add_0_r. reflexivity. }
  rewrite Ew. unfold cbind, add. cbn [fst snd]. f_equal. lia.
Qed.
(** [n] levels above a text on which [map_values] stops before a closing brace *)
Lemma opens_calls t m F : ws_rest t = t ->
  (forall f, F <= f -> exists r v, snd (cold_f U f) t = (Ok r v, m) /\ forall q w, char_p c_rbrace (ws_rest r) <> Ok q w) ->
  forall n f, F + 2 * n <= f -> exists r v, snd (cold_f U f) (opens n t) = (Ok r v, (m + 2) * 2 ^ n - 2) /\ (forall q w, char_p c_rbrace (ws_rest r) <> Ok q w) /\
    ws_rest (opens n t) = opens n t /\ (0 < n -> r = opens n t).
Proof.
  intros Ht H0. induction n as [|n IH]; intros f Hf.
  - destruct (H0 f ltac:(lia)) as (r & v & H & Hr). exists r, v. change (opens 0 t) with t. rewrite H. rewrite Nat.pow_0_r. replace ((m + 2) * 1 - 2) with m by lia. repeat split; auto. lia.
  - destruct f as [|[|f]]; [lia|lia|]. destruct (IH f ltac:(lia)) as (r & v & H & Hr & Hw & _). destruct (IH (S f) ltac:(lia)) as (r' & v' & H' & Hr' & _ & _).
    exists (opens (S n) t), (Unmerged []). change (opens (S n) t) with (opener ++ opens n t).
    assert (Hws : ws_rest (opener ++ opens n t) = opener ++ opens n t) by (apply (ws_rest_stop 97); discriminate).
    rewrite (level f _ _ _ _ _ _ Hw H H' Hr Hr'). repeat split; try assumption.
    + f_equal. rewrite Nat.pow_succ_r'. assert (2 <= (m + 2) * 2 ^ n); [|nia]. assert (1 <= 2 ^ n) by (apply Nat.le_succ_l, Nat.neq_0_lt_0, Nat.pow_nonzero; discriminate). nia.
    + intros q w. rewrite Hws. discriminate.
Qed.
End Doubling.

(** ** The parser behind [value::from_str] is linear on what it accepts *)
Definition PaidOk {A} (x : res A * nat) (s : str) : Prop := forall r v, fst x = Ok r v -> snd x + length r <= length s.
Lemma many0_paid_ok {A C} (p : cparser A) (close : parser C) (d : nat) :
  (forall s, PaidOk (p s) s) ->
  (forall s q w, close s = Ok q w -> snd (p s) + length q + d <= length s /\ forall r v, fst (p s) <> Ok r v) ->
  forall f s r v q w, fst (cmany0_loop f p s) = Ok r v -> close r = Ok q w -> snd (cmany0_loop f p s) + length q + d <= length s.
Proof.
  intros Hp Hd. induction f as [|f IH]; intros s r0 v0 q w; cbn [cmany0_loop]; [discriminate|].
  pose proof (Hp s) as H2. pose proof (Hd s) as H3. unfold PaidOk in H2. destruct (p s) as [[r v| | | |] n]; cbn [fst snd] in *; try discriminate.
  - specialize (H2 r v eq_refl). destruct (str_eqb r s) eqn:E; cbn [fst snd].
    + intros [= <- <-] Hc. destruct (H3 _ _ Hc) as [_ H]. exfalso. eapply H. reflexivity.
    + intros Hr Hc. unfold map_res in Hr. apply bind_ok in Hr as (r1 & v1 & Hr & [= <- <-]). specialize (IH _ _ _ _ _ Hr Hc). lia.
  - intros [= <- <-] Hc. apply H3 in Hc. lia.
Qed.
Lemma sep_paid_ok {A B C} (sep : parser B) (p : cparser A) (close : parser C) :
  wf sep -> wf close ->
  (forall s, PaidOk (p s) s) ->
  (forall s s2 w q w', sep s = Ok s2 w -> close s = Ok q w' -> snd (p s2) + length q <= length s) ->
  forall f s r v q w, fst (csep_loop f sep p s) = Ok r v -> close r = Ok q w -> snd (csep_loop f sep p s) + length q <= length s.
Proof.
  intros Ws Wc Hp Hd. induction f as [|f IH]; intros s r0 v0 q w0; cbn [csep_loop]; [discriminate|].
  pose proof (Ws s) as Hs. pose proof (Hd s) as H3. destruct (sep s) as [s2 w| | | |]; cbn [fst snd]; try discriminate.
  - apply suffix_len in Hs. specialize (H3 s2 w). destruct (Nat.eqb_spec (length s2) (length s)) as [_|Hn]; cbn [fst snd].
    { intros [= <- <-] Hc. apply (wf_len close) in Hc; [lia|exact Wc]. }
    pose proof (Hp s2) as H2. unfold PaidOk in H2. destruct (p s2) as [[r v| | | |] n]; cbn [fst snd] in *; try discriminate.
    + specialize (H2 r v eq_refl). destruct (Nat.eqb_spec (length r) (length s2)); cbn [fst snd]; [discriminate|].
      intros Hr Hc. unfold map_res in Hr. apply bind_ok in Hr as (r1 & v1 & Hr & [= <- <-]). specialize (IH _ _ _ _ _ Hr Hc). lia.
    + intros [= <- <-] Hc. exact (H3 _ _ eq_refl Hc).
  - intros [= <- <-] Hc. apply (wf_len close) in Hc; [lia|exact Wc].
Qed.
Lemma separated_paid_ok {A B C} (sep : parser B) (p : cparser A) (close : parser C) :
  wf sep -> wf close ->
  (forall s, PaidOk (p s) s) ->
  (forall s q w, close s = Ok q w -> snd (p s) + length q <= length s) ->
  (forall s s2 w q w', sep s = Ok s2 w -> close s = Ok q w' -> snd (p s2) + length q <= length s) ->
  forall s r v q w, fst (cseparated_list sep p s) = Ok r v -> close r = Ok q w -> snd (cseparated_list sep p s) + length q <= length s.
Proof.
  intros Ws Wc Hp Hd Hd2 s r0 v0 q w. unfold cseparated_list. pose proof (Hp s) as H2. unfold PaidOk in H2. pose proof (Hd s) as H3.
  destruct (p s) as [[r v| | | |] n]; cbn [fst snd] in *; try discriminate.
  - specialize (H2 r v eq_refl). destruct (Nat.eqb_spec (length r) (length s)); cbn [fst snd]; [discriminate|].
    intros Hr Hc. unfold map_res in Hr. apply bind_ok in Hr as (r1 & v1 & Hr & [= <- <-]).
    pose proof (sep_paid_ok sep p close Ws Wc Hp Hd2 _ _ _ _ _ _ Hr Hc). lia.
  - intros [= <- <-] Hc. exact (H3 _ _ Hc).
Qed.

Section OldLinear.
Variable U : ucd.
Definition VP (pv : cparser Value.value) : Prop :=
  (forall s, PaidOk (pv s) s) /\ (forall c s, dead c -> snd (pv (c :: s)) <= 1).
Definition MP (pm : cparser mapvalues) : Prop := forall s r v, fst (pm s) = Ok r v ->
  (forall q w, wrap whitespace (char_p c_rbrace) r = Ok q w -> snd (pm s) + length q <= length s) /\
  (ws_rest r = [] -> snd (pm s) <= length s + 1).
Lemma cvlist_eq p s : cvlist p s =
  match char_p c_lbracket s with
  | Ok t _ => cterminated (cwhitespace_m (cseparated_list (wrap whitespace (char_p c_comma)) (cwrap whitespace p))) (lift tuple_close) t
  | Err => (Err, 0) | Fail q => (Fail q, 0) | Panic => (Panic, 0) | OutOfFuel => (OutOfFuel, 0)
  end.
Proof. unfold cvlist at 1, cpreceded, lift at 1. fold tuple_close. destruct (char_p c_lbracket s); try reflexivity. cbn [cbind]. apply add_0. Qed.
Lemma cvlist_paid p s r v : VP p -> fst (cvlist p s) = Ok r v -> snd (cvlist p s) + S (length r) <= length s.
Proof.
  intros [Hp Hd]. rewrite cvlist_eq.
  destruct (char_p c_lbracket s) as [t b| | | |] eqn:E; cbn [fst snd]; try discriminate.
  apply char_p_ok in E as [-> _]. cbn [length]. rewrite cterminated_lift_snd, cws_m_snd. intros H. apply cterminated_lift_ok in H as (r1 & w & H & Hc).
  rewrite cws_m_fst in H. apply bind_ok in H as (r2 & v2 & H & [= <- <-]).
  assert (Hc' : tuple_close r2 = Ok r w).
  { rewrite <- Hc. unfold tuple_close, terminated. rewrite !ws_m, !wrap_ws, ws_rest_idem. reflexivity. }
  enough (snd (cseparated_list (wrap whitespace (char_p c_comma)) (cwrap whitespace p) t) + length r <= length t) by lia.
  refine (separated_paid_ok _ _ tuple_close _ _ _ _ _ _ _ _ _ _ H Hc').
  - apply wf_wrap_ws, wf_char.
  - apply wf_tuple_close.
  - intros s. rewrite cwrap_ws. pose proof (Hp (ws_rest s)) as H2. pose proof (ws_len s). intros r' v' Hr. specialize (H2 _ _ Hr). lia.
  - intros s q w' Hc0. rewrite cwrap_ws. pose proof (ws_len s) as Hl. apply tuple_close_ok in Hc0 as [(u & Eu & Eq)|Eq].
    + rewrite Eu in *. pose proof (ws_len u) as Hl'. rewrite Eq in Hl'. cbn [length] in *. pose proof (Hd 44%N u ltac:(unfold dead; auto)). lia.
    + rewrite Eq in *. cbn [length] in *. pose proof (Hd 93%N q ltac:(unfold dead; auto)). lia.
  - intros s s2 w1 q w' Hs Hc0. rewrite cwrap_ws. rewrite wrap_ws in Hs. apply char_p_ok in Hs as [Hs _]. pose proof (ws_len s) as Hl.
    apply tuple_close_ok in Hc0 as [(u & Eu & Eq)|Eq]; [|congruence]. rewrite Hs in Eu. injection Eu as <-. rewrite Eq. rewrite Hs in Hl. pose proof (ws_len s2) as Hl'.
    rewrite Eq in Hl'. cbn [length] in *. pose proof (Hd 93%N q ltac:(unfold dead; auto)). lia.
Qed.
Lemma cmap_expression_eq pm s : cmap_expression pm s =
  match char_p c_lbrace (ws_rest s) with
  | Ok t _ => cterminated (cwhitespace_m pm) (lift (char_p c_rbrace)) (ws_rest t)
  | Err => (Err, 0) | Fail q => (Fail q, 0) | Panic => (Panic, 0) | OutOfFuel => (OutOfFuel, 0)
  end.
Proof.
  unfold cmap_expression at 1, lift at 1. rewrite ws_m, wrap_ws. destruct (char_p c_lbrace (ws_rest s)); try reflexivity. cbn [bind cbind]. rewrite add_0.
  unfold cwhitespace_m, cterminated. rewrite cwrap_ws, ws_rest_idem. reflexivity.
Qed.
Lemma cmap_expression_paid pm s r v : MP pm -> fst (cmap_expression pm s) = Ok r v -> snd (cmap_expression pm s) + S (length r) <= length s.
Proof.
  intros Hp. rewrite cmap_expression_eq. pose proof (ws_len s) as Hl.
  destruct (char_p c_lbrace (ws_rest s)) as [t b| | | |] eqn:E; cbn [fst snd]; try discriminate.
  apply char_p_ok in E as [E _]. rewrite E in Hl. cbn [length] in Hl. pose proof (ws_len t) as Hl'.
  rewrite cterminated_lift_snd, cws_m_snd. intros H. apply cterminated_lift_ok in H as (r1 & w & H & Hc).
  rewrite cws_m_fst in H. apply bind_ok in H as (r2 & v2 & H & [= <- <-]).
  destruct (Hp _ _ _ H) as [P _]. specialize (P r w). rewrite wrap_ws in P. specialize (P Hc). lia.
Qed.
Lemma cmap_expression_zero pm s : snd (cmap_expression pm s) <> 0 -> exists t, ws_rest s = 123%N :: t.
Proof.
  rewrite cmap_expression_eq. destruct (char_p c_lbrace (ws_rest s)) as [t b| | | |] eqn:E; cbn [snd]; try congruence.
  intros _. apply char_p_ok in E as [E _]. eauto.
Qed.
Lemma cmap_expression_ok_first pm s r v : fst (cmap_expression pm s) = Ok r v -> exists t, ws_rest s = 123%N :: t.
Proof.
  rewrite cmap_expression_eq. destruct (char_p c_lbrace (ws_rest s)) as [t b| | | |] eqn:E; cbn [fst]; try congruence.
  intros _. apply char_p_ok in E as [E _]. eauto.
Qed.
Lemma VTerm_len v s r : VTerm U v s r -> length r < length s.
Proof. intros H. apply (proj1 (old_complete_mut U)) in H. apply H. Qed.
Lemma csv_len f s r v : fst (fst (cold_f U f) s) = Ok r v -> length r < length s.
Proof.
  rewrite (proj1 (er_old_f U f) s). intros H. pose proof (proj1 (ple_old U f) s) as Hp. rewrite H in Hp. destruct Hp as [Hp|Hp]; [discriminate|].
  eapply VTerm_len, single_value_sound. symmetry. exact Hp.
Qed.
Lemma csv_paid f : VP (fst (cold_f U f)) -> MP (snd (cold_f U f)) -> VP (fst (cold_f U (S f))).
Proof.
  intros Hv Hm. split.
  - intros s r v H. pose proof (csv_len _ _ _ _ H) as Hlen. rewrite cold_f_S in *. cbn [fst] in *. unfold tick in *. set (pv := fst (cold_f U f)) in *. set (pm := snd (cold_f U f)) in *.
    unfold csingle_value_step in *. rewrite !calt_lift in *. revert H.
    repeat match goal with |- context[match ?y s with _ => _ end] => destruct (y s) end; unfold add; cbn [fst snd]; try (intros; lia).
    unfold calt, cpmap. pose proof (cvlist_paid pv s) as L. pose proof (cmap_expression_paid pm s) as M.
    assert (X : snd (cvlist pv s) = 0 \/ forall r v, fst (cmap_expression pm s) <> Ok r v).
    { rewrite cvlist_eq. destruct (char_p c_lbracket s) as [t b| | | |] eqn:E; cbn [snd]; auto. right. intros r0 v0 H0. apply cmap_expression_ok_first in H0 as [t' H0].
      apply char_p_ok in E as [-> _]. rewrite ws_rest_stop in H0 by discriminate. discriminate. }
    destruct (cvlist pv s) as [[r1 v1| | | |] n1]; cbn [map_res bind fst snd add] in *; try discriminate.
    + intros [= <- <-]. specialize (L _ _ Hv eq_refl). lia.
    + destruct (cmap_expression pm s) as [[r2 v2| | | |] n2]; cbn [map_res bind fst snd add] in *; try discriminate.
      intros [= <- <-]. specialize (M _ _ Hm eq_refl). destruct X as [->|X]; [lia|exfalso; eapply X; reflexivity].
  - intros c s Hc. rewrite cold_f_S. cbn [fst]. unfold tick, add. cbn [snd].
    assert (Hn : (c <> 110 /\ is_dec_digit c = false /\ c <> 46 /\ c <> 43 /\ c <> 45 /\ c <> 116 /\ c <> 102 /\
      c <> 34 /\ c <> 60 /\ c <> 91 /\ c <> 123 /\ c <> 40)%N) by (destruct Hc as [-> | [-> | ->]]; repeat split; discriminate).
    assert (Ew : ws_rest (c :: s) = c :: s) by (apply ws_rest_stop; destruct Hc as [-> | [-> | ->]]; discriminate).
    unfold csingle_value_step. rewrite !calt_lift.
    rewrite (pmap_err (fun _ => VNull)) by (apply null_first; tauto).
    rewrite literal_number_err by (apply number_first_err; tauto).
    rewrite (pmap_err VBoolean) by (apply boolean_first; tauto).
    rewrite (pmap_err (fun c => VString (cow_str c))) by (apply string_p_first; tauto).
    unfold calt, cpmap. rewrite cvlist_eq, cmap_expression_eq, Ew, !char_p_neq by tauto. cbn. lia.
Qed.
(** Where the value parser gives up, the object parser does too *)
Lemma sv_err_map_err f s : fst (fst (cold_f U f) s) = Err -> fst (cmap_expression (snd (cold_f U f)) s) = Err.
Proof.
  rewrite (proj1 (er_old_f U f) s), (er_map_expression _ _ (proj2 (er_old_f U f)) s). destruct f as [|f]; [discriminate|].
  intros H. rewrite old_f_S in H. cbn [fst] in H. unfold single_value_step in H.
  assert (Hm : map_expression (snd (old_f U f)) s = Err).
  { unfold alt in H. repeat match type of H with context[match ?y with _ => _ end] => destruct y eqn:?; try discriminate end.
    unfold pmap, map_res in H. destruct (map_expression (snd (old_f U f)) s); try discriminate. reflexivity. }
  pose proof (ple_map_expression _ _ (proj2 (ple_old_f U f)) s) as Hp. rewrite Hm in Hp. destruct Hp as [Hp|Hp]; [discriminate|congruence].
Qed.
Lemma strings_none x c q : iws_rest x = c :: q -> c <> 34%N -> many0 (wrap inline_whitespace string_literal) x = Ok x [].
Proof.
  intros Hx Hc. rewrite many0_eq.
  - rewrite wrap_iws, Hx, string_literal_first by exact Hc. reflexivity.
  - apply wf_upto_of, wf_wrap_iws, wf_string_literal.
Qed.
Lemma cattr_paid f s : VP (fst (cold_f U f)) -> MP (snd (cold_f U f)) -> PaidOk (cold_attribute U (fst (cold_f U f)) (snd (cold_f U f)) s) s.
Proof.
  intros [Hv _] Hm r v. set (pv := fst (cold_f U f)) in *. set (pm := snd (cold_f U f)) in *. unfold cold_attribute. rewrite ciws_m_snd, ciws_m_fst.
  pose proof (iws_len s) as Hl. intros H. apply bind_ok in H as (r0 & v0 & H & [= <- <-]). pose proof (iws_len r0) as Hl0.
  enough (snd (calt (fun s => let+ (r1, k) := lift (wrap inline_whitespace (literal_key U)) s in
        let+ (r2, _eq) := lift (wrap inline_whitespace (char_p c_eq)) r1 in
        let+ (r3, v) := cwrap inline_whitespace pv r2 in (Ok r3 (k, v), 0))
   (calt (fun s => let+ (r1, i) := lift (wrap inline_whitespace (identifier U)) s in
        let+ (r2, _eq) := lift (wrap inline_whitespace (opt (char_p c_eq))) r1 in
        let+ (r3, m) := cwrap inline_whitespace (cmap_expression pm) r2 in (Ok r3 (KeyIdent (cow_str i), VObject [m]), 0))
       (fun s => let+ (r1, i) := lift (wrap inline_whitespace (identifier U)) s in
        let+ (r2, keys) := lift (many0 (wrap inline_whitespace string_literal)) r1 in
        let+ (r3, m) := cwrap inline_whitespace (cmap_expression pm) r2 in
        (Ok r3 (KeyIdent (cow_str i), VBlock (Unmerged [(keys, m)])), 0))) s) + length r0 <= length s) by lia.
  revert H. unfold calt, lift. rewrite !wrap_iws.
  assert (EK : literal_key U (iws_rest s) = match identifier U (iws_rest s) with
    | Ok r1 i => Ok r1 (KeyIdent (cow_str i)) | Err => pmap KeyString string_literal (iws_rest s) | Fail q => Fail q | Panic => Panic | OutOfFuel => OutOfFuel end).
  { unfold literal_key, alt, pmap. destruct (identifier U (iws_rest s)); reflexivity. }
  rewrite EK. clear EK.
  destruct (identifier U (iws_rest s)) as [r1 i| | | |] eqn:Ei; cbn [cbind fst snd]; try discriminate.
  2:{ (* only a string key *)
    destruct (pmap KeyString string_literal (iws_rest s)) as [r1 k| | | |] eqn:Ek; cbn [cbind fst snd]; try discriminate.
    apply pmap_inv in Ek as (x & Ek & ->). apply string_literal_consumes in Ek. rewrite wrap_iws. pose proof (iws_len r1) as Hl1.
    destruct (char_p c_eq (iws_rest r1)) as [r2 q| | | |] eqn:Eq; cbn [cbind fst snd]; try discriminate. apply char_consumes in Eq. rewrite cwrap_iws. pose proof (iws_len r2) as Hl2.
    pose proof (Hv (iws_rest r2)) as P. unfold PaidOk in P. destruct (pv (iws_rest r2)) as [[r3 y| | | |] n]; cbn [cbind add fst snd] in *; try discriminate.
    intros [= <- <-]. specialize (P _ _ eq_refl). lia. }
  apply identifier_consumes in Ei. rewrite !wrap_iws. pose proof (iws_len r1) as Hl1. unfold opt.
  destruct (char_p c_eq (iws_rest r1)) as [r2 q| | | |] eqn:Eq; cbn [cbind fst snd]; try discriminate.
  - apply char_p_ok in Eq as [Eq _]. rewrite !cwrap_iws. pose proof (iws_len r2) as Hl2. rewrite Eq in Hl1. cbn [length] in Hl1.
    pose proof (Hv (iws_rest r2)) as P. unfold PaidOk in P. pose proof (sv_err_map_err f (iws_rest r2)) as X. fold pv pm in X.
    destruct (pv (iws_rest r2)) as [[r3 y| | | |] n]; cbn [cbind add fst snd] in *; try discriminate.
    + intros [= <- <-]. specialize (P _ _ eq_refl). lia.
    + specialize (X eq_refl). destruct (cmap_expression pm (iws_rest r2)) as [xm nm]. cbn [fst] in X. subst xm. cbn [cbind add fst snd].
      rewrite (strings_none r1 61%N r2) by (assumption || discriminate). cbn [cbind]. rewrite cwrap_iws, Eq, cmap_expression_eq, ws_rest_stop by discriminate. discriminate.
  - rewrite !cwrap_iws, iws_rest_idem. cbn [add fst snd].
    pose proof (fun r v => cmap_expression_paid pm (iws_rest r1) r v Hm) as M. pose proof (cmap_expression_zero pm (iws_rest r1)) as Z.
    destruct (cmap_expression pm (iws_rest r1)) as [[r3 y| | | |] n] eqn:Ec; cbn [cbind add fst snd] in *; try discriminate.
    + intros [= <- <-]. specialize (M _ _ eq_refl). lia.
    + destruct (Nat.eq_dec n 0) as [->|Hn].
      * destruct (many0 (wrap inline_whitespace string_literal) r1) as [r2 ks| | | |] eqn:Es; cbn [cbind add fst snd]; try discriminate.
        apply (wf_len (many0 (wrap inline_whitespace string_literal))) in Es; [|apply wf_many0, wf_wrap_iws, wf_string_literal]. rewrite cwrap_iws.
        pose proof (fun r v => cmap_expression_paid pm (iws_rest r2) r v Hm) as M'. pose proof (iws_len r2) as Hl2.
        destruct (cmap_expression pm (iws_rest r2)) as [[r3 y| | | |] n']; cbn [cbind add fst snd] in *; try discriminate.
        intros [= <- <-]. specialize (M' _ _ eq_refl). lia.
      * destruct (Z Hn) as [t Et]. destruct (iws_rest r1) as [|c q'] eqn:Er; [rewrite ws_rest_nil in Et; discriminate|].
        rewrite (strings_none r1 c q') by (try assumption; intros ->; rewrite ws_rest_stop in Et by discriminate; discriminate).
        cbn [cbind]. rewrite cwrap_iws, Er, Ec. discriminate.
Qed.
Lemma cattr_dead pv pm s : s = [] \/ (exists q, s = 125%N :: q) -> cold_attribute U pv pm s = (Err, 0).
Proof.
  intros Hs. assert (Ei : iws_rest s = s) by (destruct Hs as [-> | [q ->]]; [apply iws_rest_nil|apply iws_rest_stop; discriminate]).
  assert (Ed : identifier U s = Err) by (destruct Hs as [-> | [q ->]]; [reflexivity|apply identifier_first_err; rewrite id_first_ascii by lia; reflexivity]).
  assert (El : string_literal s = Err) by (destruct Hs as [-> | [q ->]]; [reflexivity|apply string_literal_first; discriminate]).
  unfold cold_attribute, cinline_whitespace_m, cterminated, calt, lift. rewrite !wrap_iws, Ei. unfold literal_key, alt, pmap. rewrite Ed, El. reflexivity.
Qed.
Lemma cmv_paid f : VP (fst (cold_f U f)) -> MP (snd (cold_f U f)) -> MP (snd (cold_f U (S f))).
Proof.
  intros Hv Hm s r v. rewrite cold_f_S. cbn [snd]. unfold tick, cmap_values_step, add. cbn [fst snd]. set (m := cwrap whitespace _).
  intros H. apply cbind_ok in H as (r1 & v1 & H & [= <- <-] & ->). rewrite cws_m_snd. rewrite cws_m_fst in H. apply bind_ok in H as (r2 & v2 & H & [= <- <-]).
  assert (Hp : forall s, PaidOk (m s) s).
  { intros s0 r0 v0. unfold m. rewrite cwrap_ws, cterminated_lift_snd. pose proof (cattr_paid f (ws_rest s0) Hv Hm) as P. pose proof (ws_len s0) as Hl0. intros H0. apply cterminated_lift_ok in H0 as (r3 & w & H1 & H2).
    specialize (P _ _ H1). apply (wf_len old_separator) in H2; [lia|apply wf_old_separator]. }
  assert (Hd : forall s0, ws_rest s0 = [] \/ (exists q, ws_rest s0 = 125%N :: q) -> m s0 = (Err, 0)).
  { intros s0 H0. unfold m. rewrite cwrap_ws. unfold cterminated. rewrite cattr_dead by exact H0. reflexivity. }
  cbn [snd]. rewrite !ws_rest_idem. split.
  - intros q w Hc. rewrite wrap_ws, ws_rest_idem in Hc.
    enough (snd (cmany0 m s) + length q + 1 <= length s) by (unfold cmany0 in *; lia).
    refine (many0_paid_ok m (wrap whitespace (char_p c_rbrace)) 1 Hp _ _ _ _ _ _ w H _).
    + intros s0 q0 w0 Hc0. rewrite wrap_ws in Hc0. apply char_p_ok in Hc0 as [Hc0 _]. rewrite Hd by eauto. pose proof (ws_len s0) as Hl. rewrite Hc0 in Hl. cbn [length fst snd] in *. split; [lia|discriminate].
    + rewrite wrap_ws. exact Hc.
  - intros Hc. enough (snd (cmany0 m s) + length (@nil N) + 0 <= length s) by (unfold cmany0 in *; cbn [length] in *; lia).
    refine (many0_paid_ok m (wrap whitespace eof) 0 Hp _ _ _ _ _ _ [] H _).
    + intros s0 q0 w0 Hc0. rewrite wrap_ws in Hc0. unfold eof in Hc0. destruct (ws_rest s0) eqn:E0; [|discriminate]. injection Hc0 as <- <-. rewrite Hd by auto. cbn. split; [lia|discriminate].
    + rewrite wrap_ws, Hc. reflexivity.
Qed.
Lemma cold_paid f : VP (fst (cold_f U f)) /\ MP (snd (cold_f U f)).
Proof.
  induction f as [|f [IHv IHm]].
  - split; [split; [intros s r v; discriminate|intros; cbn; lia]|intros s r v; discriminate].
  - split; [apply csv_paid|apply cmv_paid]; assumption.
Qed.
Theorem value_from_str_linear s m : old_body U s = Ok [] m -> value_from_str_calls U s <= length s + 1.
Proof.
  intros H. unfold value_from_str_calls, cold_body. rewrite cterminated_lift_snd. rewrite <- (old_body_erase U s) in H. unfold cold_body in H.
  apply cterminated_lift_ok in H as (r1 & w & H & He). unfold eof in He. destruct r1; [|discriminate].
  apply (proj2 (cold_paid (S (length s)))) in H as [_ H]. apply H, ws_rest_nil.
Qed.
End OldLinear.
