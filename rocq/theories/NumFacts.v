(** * NumFacts: identifiers, keywords and number literals *)
From Verif Require Import Base Nom NomFacts Ast Lex Grammar WsFacts.

(** ** Prefixes *)
Lemma app_prefix (t r t' r' : str) :
  t ++ r = t' ++ r' -> (length t < length t')%nat ->
  exists c y, t' = t ++ c :: y /\ r = c :: y ++ r'.
Proof.
  revert t'; induction t as [|a t IH]; intros t' H Hl.
  - destruct t' as [|c y]; [cbn in Hl; lia|]. exists c, y. cbn in H. auto.
  - destruct t' as [|b t']; [cbn in Hl; lia|]. cbn in H. injection H as -> H.
    destruct (IH t' H) as (c & y & -> & ->); [cbn in Hl; lia|]. exists c, y. auto.
Qed.
Lemma app_same_len (t r t' r' : str) :
  t ++ r = t' ++ r' -> length t = length t' -> t = t' /\ r = r'.
Proof.
  revert t'; induction t as [|a t IH]; intros [|b t'] H Hl; cbn in Hl; try lia; [auto|].
  cbn in H. injection H as -> H. destruct (IH t' H) as [-> ->]; [lia|auto].
Qed.
Lemma Longest_unique T t r t' r' :
  t ++ r = t' ++ r' -> Longest T t r -> Longest T t' r' -> t = t' /\ r = r'.
Proof.
  intros H [H1 H2] [H3 H4]. apply app_same_len; [exact H|].
  pose proof (H2 _ _ H H3). pose proof (H4 _ _ (eq_sym H) H1). lia.
Qed.

(** ** Identifiers *)
Section Ident.
Context (U : ucd).

Lemma id_start_continue c : is_id_start U c = true -> is_id_continue U c = true.
Proof.
  unfold is_id_start, is_id_continue. destruct (c <? 128); intros ->; reflexivity.
Qed.
Lemma id_first_char c : id_first U c = true -> id_char U c = true.
Proof.
  unfold id_first, id_char. intros H. apply orb_true_iff in H as [H|H].
  - rewrite (id_start_continue _ H). reflexivity.
  - apply N.eqb_eq in H as ->. reflexivity.
Qed.
Lemma is_id_start_spec c : is_id_start U c = true <-> IdStart U c.
Proof.
  unfold is_id_start, IdStart, Letter, is_ascii_alpha. destruct (N.ltb_spec c 128); [lia|].
  destruct (u_id_start U c); split; intros G; try discriminate; [right; split; [lia|reflexivity]|reflexivity|].
  destruct G as [G|[_ G]]; [lia|discriminate].
Qed.
Lemma is_id_continue_spec c : is_id_continue U c = true <-> IdContinue U c.
Proof.
  unfold is_id_continue, IdContinue, IdStart, Letter, DecDigit, is_ascii_alpha, is_dec_digit. destruct (N.ltb_spec c 128); [lia|].
  rewrite orb_true_iff. split.
  - intros [G|G]; [left; right; split; [lia|exact G]|right; right; right; split; [lia|exact G]].
  - intros [[G|[_ G]]|[G|[G|[_ G]]]]; try lia; auto.
Qed.
Lemma is_alphanumeric_spec c : is_alphanumeric U c = true <-> AlphaNumeric U c.
Proof.
  unfold is_alphanumeric, AlphaNumeric, Letter, DecDigit, is_ascii_alpha, is_dec_digit. destruct (N.ltb_spec c 128); [lia|].
  split; [intros G; right; right; split; [lia|exact G]|]. intros [G|[G|[_ G]]]; try lia; exact G.
Qed.
Lemma id_char_spec c : id_char U c = true <-> IdContinue U c \/ c = 45.
Proof. unfold id_char. rewrite orb_true_iff, N.eqb_eq, is_id_continue_spec. reflexivity. Qed.
Lemma id_first_spec c : id_first U c = true <-> IdStart U c \/ c = 95.
Proof. unfold id_first. rewrite orb_true_iff, N.eqb_eq, is_id_start_spec. reflexivity. Qed.

Lemma IdentText_spec t :
  IdentText U t <-> exists c cs, t = c :: cs /\ id_first U c = true /\ forallb (id_char U) t = true.
Proof.
  unfold IdentText. split; intros (c & cs & -> & H1 & H2); exists c, cs; (split; [reflexivity|]).
  - apply id_first_spec in H1. split; [exact H1|]. cbn [forallb]. rewrite (id_first_char _ H1). cbn.
    apply forallb_forall. intros x Hx. apply id_char_spec, H2, Hx.
  - split; [apply id_first_spec; exact H1|]. intros d Hd. apply id_char_spec.
    rewrite forallb_forall in H2. apply H2. right. exact Hd.
Qed.

Lemma Longest_ident t r : Longest (IdentText U) t r <-> IdentText U t /\ stops (id_char U) r.
Proof.
  split.
  - intros [H1 H2]. split; [exact H1|]. destruct r as [|c r]; [exact I|]. cbn.
    destruct (id_char U c) eqn:E; [|reflexivity]. exfalso.
    specialize (H2 (t ++ [c]) r). rewrite <- app_assoc in H2. specialize (H2 eq_refl).
    rewrite app_length in H2. cbn [length] in H2.
    assert (IdentText U (t ++ [c])); [|specialize (H2 H); lia].
    apply IdentText_spec in H1 as (x & xs & -> & Hx & Ha). apply IdentText_spec.
    exists x, (xs ++ [c]). split; [reflexivity|]. split; [exact Hx|].
    rewrite forallb_app, Ha. cbn. rewrite E. reflexivity.
  - intros [H1 H2]. split; [exact H1|]. intros t' r' H3 H4.
    destruct (Nat.le_gt_cases (length t') (length t)) as [Hl|Hl]; [exact Hl|]. exfalso.
    destruct (app_prefix _ _ _ _ H3 Hl) as (c & y & -> & ->).
    cbn in H2. apply IdentText_spec in H4 as (x & xs & _ & _ & Ha).
    rewrite forallb_app in Ha. cbn in Ha. rewrite H2 in Ha. rewrite andb_false_r in Ha. discriminate.
Qed.

Lemma identifier_ok s r i : identifier U s = Ok r i <-> GIdent U i s r.
Proof.
  unfold identifier, pmap, verify, GIdent. split.
  - intros H. apply map_res_ok in H as (v & H & ->). apply bind_ok in H as (r1 & v1 & H1 & H).
    apply take_while1_ok in H1 as (-> & Hn & Ha & Hs).
    destruct v1 as [|c cs]; [contradiction|].
    destruct (id_first U c) eqn:E; [|discriminate]. injection H as <- <-.
    exists (c :: cs). split; [reflexivity|]. split; [reflexivity|].
    apply Longest_ident. split; [|exact Hs]. apply IdentText_spec. eauto.
  - intros (t & -> & -> & H). apply Longest_ident in H as [H Hs].
    apply IdentText_spec in H as (c & cs & -> & Hc & Ha).
    rewrite take_while1_eq; [|discriminate|exact Ha|exact Hs]. cbn [bind]. rewrite Hc. reflexivity.
Qed.

Lemma simple_identifier : simple (identifier U).
Proof.
  apply simple_pmap. intros s. apply simple_bind; [apply simple_take_while1|].
  intros r v. destruct v as [|c v]; [auto|]. destruct (id_first U c); eauto.
Qed.
Lemma wf_identifier : wf (identifier U).
Proof. apply wf_pmap, wf_verify, wf_take_while1. Qed.

Lemma identifier_err s : (forall i r, ~ GIdent U i s r) -> identifier U s = Err.
Proof.
  intros H. destruct (simple_identifier s) as [(r & v & E)|E]; [|exact E].
  apply identifier_ok in E. exfalso. eapply H; exact E.
Qed.

Lemma GIdent_first i s r : GIdent U i s r -> exists c s', s = c :: s' /\ id_first U c = true.
Proof.
  intros (t & _ & -> & [H _]). apply IdentText_spec in H as (c & cs & -> & Hc & _).
  exists c, (cs ++ r). auto.
Qed.
Lemma GIdent_unique i s r i' r' : GIdent U i s r -> GIdent U i' s r' -> i = i' /\ r = r'.
Proof. rewrite <- !identifier_ok. intros H1 H2. rewrite H1 in H2. injection H2 as -> ->. auto. Qed.

Lemma identifier_first_err c s : id_first U c = false -> identifier U (c :: s) = Err.
Proof.
  intros H. apply identifier_err. intros i r Hi.
  apply GIdent_first in Hi as (c' & s' & [= -> ->] & H'). congruence.
Qed.
Lemma identifier_nil : identifier U [] = Err.
Proof. reflexivity. Qed.

(** If the first character may start an identifier, there is one. *)
Lemma identifier_exists c s : id_first U c = true -> exists i r, GIdent U i (c :: s) r.
Proof.
  intros Hc. destruct (span (id_char U) (c :: s)) as [a b] eqn:E.
  pose proof (span_app _ _ _ _ E) as Es. apply span_spec in E as (_ & Ha & Hb).
  destruct a as [|x a].
  - cbn in Es. subst b. cbn in Hb. rewrite (id_first_char _ Hc) in Hb. discriminate.
  - cbn in Es. injection Es as <- ->. exists (Borrowed (c :: a)), b, (c :: a).
    split; [reflexivity|]. split; [reflexivity|]. apply Longest_ident. split; [|exact Hb].
    apply IdentText_spec. eauto.
Qed.

(** No ASCII punctuation starts an identifier. *)
Lemma id_first_ascii c : c < 128 -> id_first U c = is_ascii_alpha c || (c =? 95).
Proof. intros H. unfold id_first, is_id_start. apply N.ltb_lt in H. rewrite H. reflexivity. Qed.
Lemma id_char_ascii c : c < 128 ->
  id_char U c = is_ascii_alpha c || is_dec_digit c || (c =? 95) || (c =? 45).
Proof. intros H. unfold id_char, is_id_continue. apply N.ltb_lt in H. rewrite H. reflexivity. Qed.
End Ident.

(** ** Digits *)
Lemma dec_digit_spec c : is_dec_digit c = true <-> 48 <= c <= 57.
Proof. unfold is_dec_digit. lia. Qed.
Lemma Digits_spec d : forallb is_dec_digit d = true <-> Digits d.
Proof.
  rewrite forallb_forall. unfold Digits. split; intros H c Hc; apply dec_digit_spec, H, Hc.
Qed.
Lemma Digits_app a b : Digits a -> Digits b -> Digits (a ++ b).
Proof. intros Ha Hb c Hc. apply in_app_or in Hc as [Hc|Hc]; auto. Qed.
Lemma Digits_one c : is_dec_digit c = true -> Digits [c].
Proof. intros H x [<-|[]]. apply dec_digit_spec, H. Qed.

Lemma digit_eq d r : d <> [] -> Digits d -> stops is_dec_digit r -> digit (d ++ r) = Ok r d.
Proof. intros H1 H2 H3. apply take_while1_eq; [exact H1|apply Digits_spec; exact H2|exact H3]. Qed.
Lemma digit_ok s r d : digit s = Ok r d -> s = d ++ r /\ d <> [] /\ Digits d /\ stops is_dec_digit r.
Proof. intros H. apply take_while1_ok in H as (H1 & H2 & H3 & H4). apply Digits_spec in H3. auto. Qed.
Lemma digit_err s : stops is_dec_digit s -> digit s = Err.
Proof. apply take_while1_err. Qed.
Lemma simple_digit : simple digit.
Proof. apply simple_take_while1. Qed.

(** ** Sign *)
Lemma sign_eq b sg r : Sign b sg ->
  (forall c r', r = c :: r' -> c <> 43 /\ c <> 45) ->
  exists o, opt sign_char (sg ++ r) = Ok r o /\ sign_positive o = b.
Proof.
  intros Hs Hr. destruct Hs.
  - exists None. split; [|reflexivity]. cbn [app]. destruct r as [|c r']; [reflexivity|].
    destruct (Hr c r' eq_refl) as [H1 H2].
    unfold opt, sign_char, alt. rewrite !char_p_neq by assumption. reflexivity.
  - exists (Some 43). split; reflexivity.
  - exists (Some 45). split; reflexivity.
Qed.
Lemma sign_ok s r o : opt sign_char s = Ok r o -> exists sg, Sign (sign_positive o) sg /\ s = sg ++ r.
Proof.
  unfold opt, sign_char, alt.
  destruct (simple_char c_plus s) as [(r1 & v1 & H1)|H1]; rewrite H1.
  - intros [= -> <-]. apply char_p_ok in H1 as [-> ->]. exists [43]. split; [constructor|reflexivity].
  - destruct (simple_char c_minus s) as [(r2 & v2 & H2)|H2]; rewrite H2; intros [= <- <-].
    + apply char_p_ok in H2 as [-> ->]. exists [45]. split; [constructor|reflexivity].
    + exists []. split; [constructor|reflexivity].
Qed.
Lemma simple_sign : simple sign_char.
Proof. apply simple_alt; apply simple_char. Qed.
Lemma wf_sign : wf sign_char.
Proof. apply wf_alt; apply wf_char. Qed.

(** ** What may follow a complete number literal *)
Definition exp_start (r : str) : Prop :=
  exists e b sg c r', (e = 101 \/ e = 69) /\ Sign b sg /\ is_dec_digit c = true /\
    r = [e] ++ sg ++ c :: r'.

Definition Follow (n : number_t) (r : str) : Prop :=
  stops is_dec_digit r /\
  (num_exponent n = None -> ~ exp_start r) /\
  (num_exponent n = None -> num_fraction n = None -> ~ FirstIs 46 r).

Definition exp_body : parser exponent_t := fun s =>
    let* (r1, _e) := alt (char_p 101) (char_p 69) s in
    let* (r2, sign) := opt sign_char r1 in
    let* (r3, d) := digit r2 in
    Ok r3 (mk_exponent (sign_positive sign) (Borrowed d)).

Lemma simple_exp_body : simple exp_body.
Proof.
  intros s. apply simple_bind; [apply simple_alt; apply simple_char|]. intros r v.
  apply simple_bind; [apply simple_opt, simple_sign|]. intros r' v'.
  apply simple_bind; [apply simple_digit|]. eauto.
Qed.
Lemma wf_exp_body : wf exp_body.
Proof.
  intros s. apply good_bind; [apply wf_alt; apply wf_char|]. intros r v _ _.
  apply good_bind; [apply wf_opt, wf_sign|]. intros r' v' _ _.
  apply good_bind; [apply wf_take_while1|]. intros r'' v'' _ _. cbn. auto with suffix.
Qed.

Lemma exp_body_ok s r x : exp_body s = Ok r x ->
  exists t, Exponent (Some x) t /\ s = t ++ r /\ stops is_dec_digit r /\ exp_start s.
Proof.
  unfold exp_body. intros H. apply bind_ok in H as (r1 & e & H1 & H).
  apply bind_ok in H as (r2 & o & H2 & H). apply bind_ok in H as (r3 & d & H3 & H).
  injection H as <- <-. apply sign_ok in H2 as (sg & Hsg & ->).
  apply digit_ok in H3 as (-> & Hd & Hds & Hr).
  assert (He : (e = 101 \/ e = 69) /\ s = e :: sg ++ d ++ r3).
  { unfold alt in H1. destruct (simple_char 101 s) as [(q & v & E)|E]; rewrite E in H1.
    - injection H1 as -> ->. apply char_p_ok in E as [-> ->]. auto.
    - apply char_p_ok in H1 as [-> ->]. auto. }
  destruct He as [He ->].
  exists ([e] ++ sg ++ d). split; [constructor; assumption|].
  split; [rewrite <- !app_assoc; reflexivity|]. split; [exact Hr|].
  destruct d as [|c d]; [contradiction|].
  exists e, (sign_positive o), sg, c, (d ++ r3). repeat split; auto.
  apply dec_digit_spec, Hds. left; reflexivity.
Qed.

Lemma exponent_eq x t r : Exponent x t -> stops is_dec_digit r ->
  (x = None -> ~ exp_start r) -> exponent (t ++ r) = Ok r x.
Proof.
  intros Hx Hr Hn. unfold exponent. change (opt exp_body (t ++ r) = Ok r x).
  destruct Hx as [|e b sg d He Hsg Hd Hds].
  - cbn [app]. unfold opt. destruct (simple_exp_body r) as [(r' & v & E)|E]; rewrite E; [|reflexivity].
    apply exp_body_ok in E as (? & _ & _ & _ & Hs). exfalso. apply Hn; [reflexivity|exact Hs].
  - assert (E : exp_body (([e] ++ sg ++ d) ++ r) = Ok r (mk_exponent b (Borrowed d))).
    { unfold exp_body. cbn [app]. rewrite <- app_assoc.
      assert (E1 : alt (char_p 101) (char_p 69) (e :: sg ++ d ++ r) = Ok (sg ++ d ++ r) e).
      { destruct He as [->| ->]; reflexivity. }
      rewrite E1. cbn [bind].
      destruct (sign_eq b sg (d ++ r) Hsg) as (o & Eo & Hb).
      { intros c r' E'. destruct d as [|c' d]; [contradiction|]. cbn in E'. injection E' as -> _.
        specialize (Hds c (or_introl eq_refl)). lia. }
      rewrite Eo. cbn [bind]. rewrite digit_eq by assumption. cbn [bind]. rewrite Hb. reflexivity. }
    apply (opt_some exp_body) in E. exact E.
Qed.
Lemma exponent_ok s r x : exponent s = Ok r x ->
  exists t, Exponent x t /\ s = t ++ r /\
    (x = None -> ~ exp_start r) /\ (x <> None -> stops is_dec_digit r).
Proof.
  unfold exponent. change (opt exp_body s = Ok r x -> exists t, Exponent x t /\ s = t ++ r /\
    (x = None -> ~ exp_start r) /\ (x <> None -> stops is_dec_digit r)).
  unfold opt. destruct (simple_exp_body s) as [(r' & v & E)|E]; rewrite E; intros [= <- <-].
  - apply exp_body_ok in E as (t & Ht & -> & Hr & _). exists t.
    split; [exact Ht|]. split; [reflexivity|]. split; [discriminate|auto].
  - exists []. split; [constructor|]. split; [reflexivity|]. split; [|congruence].
    intros _ (e & b & sg & c & q & He & Hsg & Hc & ->).
    destruct (span is_dec_digit (c :: q)) as [d q'] eqn:Es.
    pose proof (span_app _ _ _ _ Es) as Eq. apply span_spec in Es as (_ & Hd & Hq).
    assert (Hne : d <> []).
    { intros ->. cbn in Eq. subst q'. cbn in Hq. congruence. }
    assert (Ex : Exponent (Some (mk_exponent b (Borrowed d))) ([e] ++ sg ++ d)).
    { constructor; auto. apply Digits_spec, Hd. }
    pose proof (exponent_eq _ _ q' Ex Hq ltac:(discriminate)) as H.
    unfold exponent in H. change (opt exp_body (([e] ++ sg ++ d) ++ q') = Ok q' (Some (mk_exponent b (Borrowed d)))) in H.
    rewrite Eq in E. cbn [app] in H. rewrite <- app_assoc in H. cbn [app] in E. unfold opt in H.
    rewrite E in H. discriminate.
Qed.
Lemma simple_exponent : simple exponent.
Proof. apply (simple_opt exp_body), simple_exp_body. Qed.
Lemma wf_exponent : wf exponent.
Proof. apply (wf_opt exp_body), wf_exp_body. Qed.

(** ** Mantissa *)
Lemma simple_mantissa : simple mantissa.
Proof.
  apply simple_alt; intros s.
  - apply simple_bind; [apply simple_digit|]. intros r v. apply simple_bind; [|eauto].
    apply simple_opt. intros s'. apply simple_bind; [apply simple_char|].
    intros r' v'. apply simple_opt, simple_digit.
  - apply simple_bind; [apply simple_char|]. intros r v. apply simple_bind; [apply simple_digit|eauto].
Qed.
Lemma wf_mantissa : wf mantissa.
Proof.
  apply wf_alt; intros s.
  - apply good_bind; [apply wf_take_while1|]. intros r v _ _. apply good_bind; [|cbn; auto with suffix].
    apply wf_opt. intros s'. apply good_bind; [apply wf_char|].
    intros r' v' _ _. apply wf_opt, wf_take_while1.
  - apply good_bind; [apply wf_char|]. intros r v _ _.
    apply good_bind; [apply wf_take_while1|]. cbn. auto with suffix.
Qed.

Lemma mantissa_eq w f m r : Mantissa w f m -> stops is_dec_digit r ->
  (f = None -> ~ FirstIs 46 r) -> mantissa (m ++ r) = Ok r (w, f).
Proof.
  intros Hm Hr Hf. unfold mantissa, alt. destruct Hm as [d Hd Hds|d f Hd Hds Hfs|f Hne Hfs].
  - rewrite digit_eq by assumption. cbn [bind].
    assert (E : char_p c_dot r = Err).
    { destruct r as [|c r]; [reflexivity|]. apply char_p_neq. intros ->.
      apply Hf; [reflexivity|]. exists r. reflexivity. }
    unfold opt at 1. rewrite E. reflexivity.
  - rewrite <- !app_assoc. rewrite digit_eq; [|assumption|assumption|reflexivity]. cbn [bind].
    unfold opt at 1. cbn [app]. rewrite char_p_eq. cbn [bind].
    destruct f as [|c f].
    + cbn [app]. unfold opt. rewrite digit_err by exact Hr. reflexivity.
    + unfold opt. rewrite digit_eq; [reflexivity|discriminate|assumption|assumption].
  - rewrite digit_err by reflexivity. cbn [bind app]. rewrite char_p_eq. cbn [bind].
    rewrite digit_eq by assumption. reflexivity.
Qed.
Lemma mantissa_ok s r w f : mantissa s = Ok r (w, f) ->
  exists m, Mantissa w f m /\ s = m ++ r /\ stops is_dec_digit r /\ (f = None -> ~ FirstIs 46 r).
Proof.
  unfold mantissa, alt. destruct (simple_digit s) as [(r1 & d & H1)|H1]; rewrite H1; cbn [bind].
  - apply digit_ok in H1 as (-> & Hd & Hds & Hr1). unfold opt at 1.
    destruct (simple_char c_dot r1) as [(r2 & v2 & H2)|H2]; rewrite H2; cbn [bind].
    + apply char_p_ok in H2 as [-> _]. unfold opt.
      destruct (simple_digit r2) as [(r3 & g & H3)|H3]; rewrite H3; cbn [bind]; intros [= <- <- <-].
      * apply digit_ok in H3 as (-> & Hg & Hgs & Hr3). exists (d ++ [46] ++ g).
        split; [constructor; assumption|]. split; [rewrite <- app_assoc; reflexivity|].
        split; [exact Hr3|discriminate].
      * exists (d ++ [46] ++ []). split; [constructor; try assumption; intros c []|].
        split; [rewrite <- app_assoc; reflexivity|]. split; [|discriminate].
        destruct r2 as [|c r2]; [exact I|]. cbn. destruct (is_dec_digit c) eqn:E; [|reflexivity].
        unfold digit, take_while1 in H3. cbn [span] in H3. rewrite E in H3.
        destruct (span is_dec_digit r2); discriminate.
    + intros [= <- <- <-]. exists d. split; [constructor; assumption|]. split; [reflexivity|].
      split; [exact Hr1|]. intros _ [q ->]. rewrite char_p_eq in H2. discriminate.
  - intros H. apply bind_ok in H as (r2 & v2 & H2 & H). apply char_p_ok in H2 as [-> _].
    apply bind_ok in H as (r3 & d & H3 & H). injection H as <- <- <-.
    apply digit_ok in H3 as (-> & Hd & Hds & Hr). exists ([46] ++ d).
    split; [constructor; assumption|]. split; [reflexivity|]. split; [exact Hr|discriminate].
Qed.

(** ** Numbers *)
Lemma simple_number : simple number.
Proof.
  intros s. apply simple_bind; [apply simple_opt, simple_sign|]. intros r v.
  apply simple_bind; [apply simple_mantissa|]. intros r' v'.
  apply simple_bind; [apply simple_exponent|]. eauto.
Qed.
Lemma wf_number : wf number.
Proof.
  intros s. apply good_bind; [apply wf_opt, wf_sign|]. intros r v _ _.
  apply good_bind; [apply wf_mantissa|]. intros r' v' _ _.
  apply good_bind; [apply wf_exponent|]. cbn. auto with suffix.
Qed.

Lemma Mantissa_first w f m : Mantissa w f m ->
  exists c m', m = c :: m' /\ (is_dec_digit c = true \/ c = 46).
Proof.
  intros [d Hd Hds|d g Hd Hds Hg|g Hg Hgs].
  - destruct d as [|c d]; [contradiction|]. exists c, d. split; [reflexivity|].
    left. apply dec_digit_spec, Hds. left; reflexivity.
  - destruct d as [|c d]; [contradiction|]. exists c, (d ++ [46] ++ g). split; [reflexivity|].
    left. apply dec_digit_spec, Hds. left; reflexivity.
  - exists 46, g. auto.
Qed.

Lemma number_eq n t r : NumLit n t -> Follow n r -> number (t ++ r) = Ok r n.
Proof.
  intros [b sg w f m x xt Hsg Hm Hx] (F1 & F2 & F3). cbn [num_exponent num_fraction] in *.
  unfold number. rewrite <- !app_assoc.
  destruct (sign_eq b sg (m ++ xt ++ r) Hsg) as (o & Eo & Hb).
  { intros c r' E. destruct (Mantissa_first _ _ _ Hm) as (c' & m' & -> & Hc). cbn in E.
    injection E as -> _. destruct Hc as [Hc| ->]; [apply dec_digit_spec in Hc; lia|lia]. }
  rewrite Eo. cbn [bind].
  rewrite (mantissa_eq w f m (xt ++ r) Hm).
  - cbn [bind fst snd]. rewrite (exponent_eq x xt r Hx F1).
    + cbn [bind]. rewrite Hb.
      replace (sg ++ m ++ xt ++ r) with ((sg ++ m ++ xt) ++ r) by (rewrite <- !app_assoc; reflexivity).
      rewrite firstn_consumed. reflexivity.
    + exact F2.
  - destruct Hx as [|e b' sg' d' [-> | ->] _ _ _]; [exact F1|reflexivity|reflexivity].
  - intros ->. destruct Hx as [|e b' sg' d' He _ _ _]; [apply F3; reflexivity|].
    intros [q E]. cbn in E. injection E as -> _. lia.
Qed.
Lemma number_ok s r n : number s = Ok r n -> exists t, NumLit n t /\ Follow n r /\ s = t ++ r.
Proof.
  unfold number. intros H. apply bind_ok in H as (r1 & o & H1 & H).
  apply bind_ok in H as (r2 & [w f] & H2 & H). apply bind_ok in H as (r3 & x & H3 & H).
  injection H as <- <-. apply sign_ok in H1 as (sg & Hsg & ->).
  apply mantissa_ok in H2 as (m & Hm & -> & Hs & Hf).
  apply exponent_ok in H3 as (xt & Hx & -> & Hx1 & Hx2).
  exists (sg ++ m ++ xt). split.
  - replace (sg ++ m ++ xt ++ r3) with ((sg ++ m ++ xt) ++ r3) by (rewrite <- !app_assoc; reflexivity).
    rewrite firstn_consumed. cbn [fst snd]. constructor; assumption.
  - split; [|rewrite <- !app_assoc; reflexivity].
    split; [|split]; cbn [num_exponent num_fraction].
    + destruct x as [x|]; [apply Hx2; discriminate|]. inversion Hx; subst. exact Hs.
    + exact Hx1.
    + intros -> E. inversion Hx; subst. cbn [app] in Hf. apply Hf.
      destruct f; [discriminate|reflexivity].
Qed.

(** A literal is not followed by something extending it, or it can be extended. *)
Lemma follow_or_extend n t r : NumLit n t ->
  Follow n r \/ exists n' x r', x <> [] /\ r = x ++ r' /\ NumLit n' (t ++ x).
Proof.
  intros H. destruct H as [b sg w f m x xt Hsg Hm Hx]. unfold Follow. cbn [num_exponent num_fraction].
  destruct r as [|c r].
  { left. split; [exact I|]. split.
    - intros _ (e & b' & sg' & c & r' & _ & _ & _ & E). discriminate.
    - intros _ _ [q E]. discriminate. }
  destruct (is_dec_digit c) eqn:Ec.
  { right. pose proof (Digits_one c Ec) as Hc.
    assert (Hgen : forall n', NumLit n' ((sg ++ m ++ xt) ++ [c]) ->
      exists n' x r', x <> [] /\ c :: r = x ++ r' /\ NumLit n' ((sg ++ m ++ xt) ++ x)).
    { intros n' Hn. exists n', [c], r. split; [discriminate|]. auto. }
    destruct Hx as [|e b' sg' d He Hsg' Hd Hds].
    - rewrite app_nil_r in *. 
      assert (exists w' f', Mantissa w' f' (m ++ [c])) as (w' & f' & Hm').
      { destruct Hm as [d Hd Hds|d g Hd Hds Hg|g Hg Hgs].
        - exists (Some (d ++ [c])), None. constructor; [destruct d; discriminate|].
          apply Digits_app; assumption.
        - exists (Some d), (Some (g ++ [c])). rewrite <- app_assoc, <- app_assoc.
          constructor; try assumption. apply Digits_app; assumption.
        - exists None, (Some (g ++ [c])). rewrite <- app_assoc.
          constructor; [destruct g; discriminate|]. apply Digits_app; assumption. }
      eapply Hgen. replace ((sg ++ m) ++ [c]) with (sg ++ (m ++ [c]) ++ [])
        by (rewrite app_nil_r, <- app_assoc; reflexivity).
      constructor; [exact Hsg|exact Hm'|constructor].
    - eapply Hgen. replace ((sg ++ m ++ [e] ++ sg' ++ d) ++ [c]) with (sg ++ m ++ [e] ++ sg' ++ (d ++ [c]))
        by (rewrite <- !app_assoc; reflexivity).
      constructor; [exact Hsg|exact Hm|]. constructor; [exact He|exact Hsg'|destruct d; discriminate|].
      apply Digits_app; assumption. }
  destruct x as [x|].
  { left. split; [exact Ec|]. split; discriminate. }
  inversion Hx; subst xt. rewrite app_nil_r.
  (* could an exponent start here? *)
  pose proof (simple_exp_body (c :: r)) as [(q & v & E)|E].
  { right. apply exp_body_ok in E as (xt & Hxt & E & _ & _).
    eexists _, xt, q. split; [inversion Hxt; discriminate|]. split; [exact E|].
    rewrite <- app_assoc. constructor; eassumption. }
  assert (Hne : ~ exp_start (c :: r)).
  { assert (E' : exponent (c :: r) = Ok (c :: r) None).
    { unfold exponent. change (opt exp_body (c :: r) = Ok (c :: r) None). unfold opt. rewrite E. reflexivity. }
    apply exponent_ok in E' as (t & _ & _ & Hn & _). apply Hn. reflexivity. }
  destruct f as [f|].
  { left. split; [exact Ec|]. split; [auto|]. intros _; discriminate. }
  destruct (N.eq_dec c 46) as [->|Hc].
  - right. inversion Hm; subst.
    eexists _, [46], r. split; [discriminate|]. split; [reflexivity|].
    replace ((sg ++ m) ++ [46]) with (sg ++ (m ++ [46] ++ []) ++ []) by (rewrite app_nil_r, <- app_assoc; reflexivity).
    constructor; [exact Hsg| |constructor]. apply M_dec; try assumption. intros ? [].
  - left. split; [exact Ec|]. split; [auto|]. intros _ _ [q [= E1 _]]. contradiction.
Qed.

Lemma NumLit_length_bound n0 t0 r0 : NumLit n0 t0 -> Follow n0 r0 ->
  forall n t r, t ++ r = t0 ++ r0 -> NumLit n t -> (length t <= length t0)%nat.
Proof.
  intros H0 F0 n t r. remember (length r) as k eqn:Ek. revert n t r Ek.
  induction k as [k IH] using lt_wf_ind; intros n t r -> E H.
  destruct (follow_or_extend n t r H) as [F|(n' & x & r' & Hx & -> & H')].
  - pose proof (number_eq _ _ _ H0 F0) as E0. pose proof (number_eq _ _ _ H F) as E1.
    rewrite E in E1. rewrite E0 in E1. injection E1 as -> ->. apply app_inv_tail in E. subst. lia.
  - assert (Hl : (length r' < length (x ++ r'))%nat).
    { rewrite app_length. destruct x; [contradiction|]. cbn [length]. lia. }
    specialize (IH (length r') Hl n' (t ++ x) r' eq_refl).
    rewrite <- app_assoc in IH. specialize (IH E H'). rewrite app_length in IH. lia.
Qed.

Lemma Longest_number n t r : NumLit n t -> (Longest NumberText t r <-> Follow n r).
Proof.
  intros H. split.
  - intros [_ HL]. destruct (follow_or_extend n t r H) as [F|(n' & x & r' & Hx & -> & H')]; [exact F|].
    exfalso. specialize (HL (t ++ x) r'). rewrite <- app_assoc in HL.
    specialize (HL eq_refl (ex_intro _ _ H')). rewrite app_length in HL.
    destruct x; [contradiction|]. cbn [length] in HL. lia.
  - intros F. split; [exists n; exact H|]. intros t' r' E [n' H'].
    eapply NumLit_length_bound; [exact H|exact F| |exact H']. symmetry. exact E.
Qed.

Lemma number_spec s r n :
  number s = Ok r n <-> exists t, s = t ++ r /\ NumLit n t /\ Longest NumberText t r.
Proof.
  split.
  - intros H. apply number_ok in H as (t & Hn & F & ->). exists t.
    split; [reflexivity|]. split; [exact Hn|]. apply (Longest_number n); assumption.
  - intros (t & -> & Hn & HL). apply number_eq; [exact Hn|]. apply (Longest_number n t r); assumption.
Qed.

Lemma NumLit_first n t : NumLit n t ->
  exists c t', t = c :: t' /\ (is_dec_digit c = true \/ c = 46 \/ c = 43 \/ c = 45).
Proof.
  intros [b sg w f m x xt Hsg Hm Hx]. destruct (Mantissa_first _ _ _ Hm) as (c & m' & -> & Hc).
  destruct Hsg; cbn [app].
  - exists c, (m' ++ xt). split; [reflexivity|]. tauto.
  - exists 43, (c :: m' ++ xt). auto.
  - exists 45, (c :: m' ++ xt). auto.
Qed.

Lemma number_first_err c s : is_dec_digit c = false -> c <> 46 -> c <> 43 -> c <> 45 ->
  number (c :: s) = Err.
Proof.
  intros H1 H2 H3 H4. destruct (simple_number (c :: s)) as [(r & v & E)|E]; [|exact E].
  apply number_ok in E as (t & Hn & _ & E). exfalso.
  destruct (NumLit_first _ _ Hn) as (c' & t' & -> & Hc). cbn in E. injection E as <- _.
  destruct Hc as [Hc|[Hc|[Hc|Hc]]]; congruence.
Qed.
