(** * AgreeProofs: where both parsers accept a text, the value is the tree's translation *)
From Coq Require Import ZArith.
From Verif Require Import Base Nom NomFacts Ast Lex Grammar WsFacts NumFacts StrFacts HeredocFacts Parser ParserFacts ExprProofs BodyProofs
  Locality NumConv NumSpec NumProofs Kvp Value OldParser OldGrammar OldFacts OldProofs AgreeSpec.
Close Scope Z_scope.

Section WithTables.
Context (U : ucd).
Local Notation SV := (single_value U).
Local Notation MV := (map_values U).
Local Notation OA := (old_attribute U SV MV).
Local Notation OI := (many0 (old_item U)).

(** ** [single_value] after white space *)
Lemma alt_err_inv {A} (p q : parser A) s : alt p q s = Err -> p s = Err /\ q s = Err.
Proof. unfold alt. destruct (p s); try discriminate. auto. Qed.
Lemma pmap_err_inv {A B} (f : A -> B) p s : pmap f p s = Err -> p s = Err.
Proof. unfold pmap, map_res, bind. destruct (p s); try discriminate. reflexivity. Qed.
Lemma SV_err_map x : SV x = Err -> map_expression MV x = Err.
Proof.
  rewrite single_value_eq. unfold single_value_step. intros H. do 5 (apply alt_err_inv in H as [_ H]). apply pmap_err_inv in H. exact H.
Qed.
Lemma SV_lead x c q r v : ws_rest x = c :: q -> c <> 123 -> SV x = Ok r v -> x = c :: q.
Proof.
  intros Hx Hc H. destruct x as [|c0 x']; [discriminate|]. destruct (ws_char c0) eqn:E0.
  - exfalso. rewrite (old_compound U _ c0 x' eq_refl) in H by auto. unfold pmap in H.
    rewrite map_expression_first in H; [discriminate|]. rewrite Hx. intros q' [= -> _]. congruence.
  - rewrite ws_rest_nonws in Hx by exact E0. exact Hx.
Qed.
Lemma SV_lead' x s r v : ws_rest x = s -> ~ FirstIs 123 s -> s <> [] -> SV x = Ok r v -> x = s.
Proof.
  intros Hx Hc Hn H. destruct s as [|c q]; [congruence|]. eapply SV_lead; [exact Hx| |exact H]. intros ->. apply Hc. eexists; reflexivity.
Qed.

Definition AgT (e : expr) (s r : str) : Prop := forall x r' v, ws_rest x = s -> SV x = Ok r' v -> r' = r /\ ExprAs e v.
Definition AgE (e : expr) (s r : str) : Prop := forall x r' v, ws_rest x = ws_rest s -> SV x = Ok r' v -> r' = r /\ ExprAs e v.
Definition AgI (l : list expr) (s r : str) : Prop := forall r1 r' l', vlist_items U s = Ok r1 l' -> Close r1 r' -> r' = r /\ Forall2 ExprAs l l'.
Definition MemberAs (m : okey * expr) (kv : key * Value.value) : Prop := KeyAs (fst m) (fst kv) /\ ExprAs (snd m) (snd kv).
Definition AgM (l : list (okey * expr)) (s r : str) : Prop := forall x r' l', ws_rest x = ws_rest s -> OI x = Ok r' l' ->
  (ws_rest r' = [] \/ FirstIs 125 (ws_rest r')) -> ws_rest r' = 125 :: r /\ Forall2 MemberAs l l'.
Definition AgK (k : okey) (s r : str) : Prop := forall r' k', literal_key U s = Ok r' k' -> r' = r /\ KeyAs k k'.

(** a term, when the value is determined by [VTerm] *)
Lemma AgT_simple e v s r : VTerm U v s r -> ~ FirstIs 123 s -> s <> [] -> ExprAs e v -> AgT e s r.
Proof.
  intros HT Hf Hn He x r' v' Hx H. pose proof (SV_lead' x s r' v' Hx Hf Hn H) as E. subst x.
  apply single_value_complete in HT. rewrite HT in H. injection H as <- <-. auto.
Qed.
Lemma SV_paren q : SV (40 :: q) = Err.
Proof.
  rewrite single_value_eq. unfold single_value_step.
  rewrite alt_err by (apply pmap_err, null_first; discriminate).
  rewrite alt_err by (apply literal_number_err, number_first_err; [reflexivity|discriminate..]).
  rewrite alt_err by (apply pmap_err, boolean_first; discriminate).
  rewrite alt_err by (apply pmap_err, string_p_first; discriminate).
  rewrite alt_err by (apply pmap_err, vlist_first; discriminate).
  apply pmap_err, map_expression_first. rewrite ws_rest_stop by lia. discriminate.
Qed.
(** what [map_expression] does on an opening brace *)
Lemma map_expression_inv x q r m : ws_rest x = 123 :: q -> map_expression MV x = Ok r m ->
  exists r0 l, OI (ws_rest q) = Ok r0 l /\ m = Unmerged l /\ ws_rest r0 = 125 :: r.
Proof.
  intros Hx H. apply map_expression_ok in H as (s1 & r1 & H1 & H2 & H3). rewrite Hx in H1. injection H1 as <-.
  rewrite map_values_unfold in H2. apply bind_ok in H2 as (r0 & l & H2 & H9). injection H9 as <- <-. rewrite ws_rest_idem in H3. eauto.
Qed.

(** ** Lists *)
Lemma Close_first s r : Close s r -> exists q, ws_rest s = 93 :: q \/ ws_rest s = 44 :: q.
Proof.
  intros [(w & Hw & ->)|(w & w' & Hw & Hw' & ->)]; rewrite ws_rest_ws by exact Hw; cbn [app]; rewrite ws_rest_stop by lia; eauto.
Qed.
Lemma Close_det s r r' : Close s r -> Close s r' -> r = r'.
Proof.
  assert (H : forall r, Close s r -> ws_rest s = 93 :: r \/ (exists q, ws_rest s = 44 :: q /\ ws_rest q = 93 :: r)).
  { intros x [(w & Hw & ->)|(w & w' & Hw & Hw' & ->)]; rewrite ws_rest_ws by exact Hw; cbn [app]; rewrite ws_rest_stop by lia; [auto|].
    right. eexists. split; [reflexivity|]. rewrite ws_rest_ws by exact Hw'. apply ws_rest_stop; lia. }
  intros H1 H2. apply H in H1. apply H in H2. destruct H1 as [H1|(q1 & H1 & H1')], H2 as [H2|(q2 & H2 & H2')]; congruence.
Qed.
Lemma GExpr_start e s r : GExpr U e s r -> exists c q, ws_rest s = c :: q /\ term_first c = true.
Proof.
  intros H. apply GExpr_shape in H as (w & s0 & Hw & -> & H). rewrite ws_rest_ws by exact Hw.
  destruct (GTerm_ws U _ _ _ H) as [-> _]. apply GTerm_first in H. exact H.
Qed.
Lemma GItems_start e l s r : GItems U (e :: l) s r -> exists c q, ws_rest s = c :: q /\ term_first c = true.
Proof.
  intros H. inversion H; subst; rewrite ws_rest_ws by assumption; eapply GExpr_start; eassumption.
Qed.
Lemma items_first e w s r0 r1 r' l' : Ws w -> GExpr U e s r0 -> AgE e s r0 -> vlist_items U (w ++ s) = Ok r1 l' -> Close r1 r' ->
  exists v l'', l' = v :: l'' /\ ExprAs e v /\ sep_rest (wrap whitespace (char_p c_comma)) (wrap whitespace SV) r0 = Ok r1 l''.
Proof.
  intros Hw He HA H HC. unfold vlist_items in H. rewrite separated_list_eq, wrap_ws, ws_rest_ws in H by exact Hw.
  destruct (SV (ws_rest s)) as [r2 v| | | |] eqn:Ev; try discriminate.
  - destruct (HA _ _ _ (ws_rest_idem s) Ev) as [-> Hv]. destruct (Nat.eqb _ _); [discriminate|]. apply map_res_ok in H as (l'' & H & ->). eauto.
  - exfalso. injection H as <- <-. apply Close_first in HC as [q HC]. rewrite ws_rest_ws in HC by exact Hw.
    destruct (GExpr_start _ _ _ He) as (c & q' & E & Hc). rewrite E in HC. destruct HC as [[= -> _]|[= -> _]]; discriminate.
Qed.

(** ** Entries *)
Lemma items_cons x s c q r' l' : ws_rest x = s -> s = c :: q -> c <> 125 -> OI x = Ok r' l' ->
  (ws_rest r' = [] \/ FirstIs 125 (ws_rest r')) ->
  exists k v l'' r0 r1 y, l' = (k, v) :: l'' /\ OA s = Ok r0 (k, v) /\ old_separator r0 = Ok r1 y /\ OI r1 = Ok r' l''.
Proof.
  intros Hx -> Hc H Hr. rewrite many0_eq in H by apply wf_upto_of, wf_old_item.
  assert (Hno : Ok x [] = Ok r' l' -> False).
  { intros [= <- <-]. rewrite Hx in Hr. destruct Hr as [Hr|[q' [= Hr _]]]; [discriminate|congruence]. }
  destruct (old_item U x) as [r1 [k v]| | | |] eqn:E; try discriminate; [|elim (Hno H)].
  destruct (str_eqb r1 x); [elim (Hno H)|]. apply map_res_ok in H as (l'' & H & ->).
  unfold old_item in E. rewrite wrap_ws, Hx in E. unfold terminated in E.
  apply bind_ok in E as (r0 & kv & E1 & E). apply bind_ok in E as (r2 & y & E2 & E). injection E as -> ->.
  exists k, v, l'', r0, r1, y. auto.
Qed.
Lemma entry_agree k e s i1 i2 s' r0 r k' v : GKey U k s (i1 ++ [61] ++ i2 ++ s') -> AgK k s (i1 ++ [61] ++ i2 ++ s') ->
  Iws i1 -> Iws i2 -> AgE e s' r0 -> OA s = Ok r (k', v) -> r = iws_rest r0 /\ KeyAs k k' /\ ExprAs e v.
Proof.
  intros Hk HK Hi1 Hi2 HE H. destruct (GKey_ws U _ _ _ Hk) as [_ Hs]. unfold old_attribute in H. rewrite iws_m in H.
  apply bind_ok in H as (r1 & kv & H & H9). injection H9 as <- ->.
  assert (Hws : ws_rest (iws_rest (i2 ++ s')) = ws_rest s') by (rewrite ws_rest_iws_rest; apply ws_rest_ws, Iws_Ws, Hi2).
  apply alt_inv in H as [H|[HA H]].
  - apply bind_ok in H as (r2 & k2 & H1 & H). rewrite wrap_iws, Hs in H1. apply HK in H1 as [-> HKA].
    apply bind_ok in H as (r3 & c & H2 & H). rewrite wrap_iws in H2. cbn [app] in H2. rewrite iws_to_eq, char_p_eq in H2 by exact Hi1. injection H2 as <- _.
    apply bind_ok in H as (r4 & v4 & H3 & H). rewrite wrap_iws in H3. injection H as -> -> ->.
    destruct (HE _ _ _ Hws H3) as [-> HV]. auto.
  - exfalso. apply alt_inv in H as [H|[_ H]]; apply bind_ok in H as (r2 & i & H1 & H); rewrite wrap_iws, Hs in H1.
    + assert (Hkey : literal_key U s = Ok r2 (KeyIdent (cow_str i))).
      { unfold literal_key. apply alt_ok_l. rewrite (pmap_ok _ _ _ _ _ H1). reflexivity. }
      pose proof (HK _ _ Hkey) as [-> _]. apply bind_ok in H as (r3 & o & H2 & H). rewrite wrap_iws in H2. cbn [app] in H2.
      rewrite iws_to_eq in H2 by exact Hi1. unfold opt in H2. rewrite char_p_eq in H2. injection H2 as <- <-.
      apply bind_ok in H as (r4 & m & H3 & _). rewrite wrap_iws in H3.
      rewrite wrap_iws, Hs, Hkey in HA. cbn [bind app] in HA. rewrite wrap_iws, iws_to_eq, char_p_eq in HA by exact Hi1. cbn [bind] in HA.
      rewrite wrap_iws in HA. destruct (SV (iws_rest (i2 ++ s'))) eqn:E; try discriminate. apply SV_err_map in E. congruence.
    + assert (Hkey : literal_key U s = Ok r2 (KeyIdent (cow_str i))).
      { unfold literal_key. apply alt_ok_l. rewrite (pmap_ok _ _ _ _ _ H1). reflexivity. }
      pose proof (HK _ _ Hkey) as [-> _]. apply bind_ok in H as (r3 & ls & H2 & H). fold old_label in H2. cbn [app] in H2.
      rewrite many0_eq in H2 by apply wf_upto_of, wf_old_label. unfold old_label at 1 in H2. rewrite wrap_iws, iws_to_eq, string_literal_first in H2 by (exact Hi1 || lia).
      injection H2 as <- <-. apply bind_ok in H as (r4 & m & H3 & _). rewrite wrap_iws, iws_to_eq in H3 by exact Hi1.
      rewrite map_expression_first in H3; [discriminate|]. rewrite ws_rest_stop by lia. discriminate.
Qed.
Lemma sep_agree s1 s2 r1 y : VSep s1 s2 -> ~ FirstIs 44 (ws_rest s2) -> old_separator (iws_rest s1) = Ok r1 y -> ws_rest r1 = ws_rest s2.
Proof. intros H1 H2 H. destruct (old_separator_complete _ _ H1 H2) as (r & v & E & Hr & _). rewrite E in H. injection H as <- _. exact Hr. Qed.
Lemma sep_brace i q : Iws i -> old_separator (iws_rest (i ++ 125 :: q)) = Err.
Proof.
  intros Hi. rewrite iws_rest_iws by exact Hi. rewrite iws_rest_stop by lia. unfold old_separator. rewrite alt_err.
  - rewrite alt_err by (apply pmap_err, newline_first_err; lia). reflexivity.
  - rewrite ws_m, wrap_ws, ws_rest_stop by lia. reflexivity.
Qed.
Lemma GKey_start k s r : GKey U k s r -> exists c q, s = c :: q /\ c <> 125 /\ c <> 44.
Proof.
  intros [i s' r' H|e t r' H _].
  - apply GIdent_first in H as (c & q & -> & Hc). exists c, q. split; [reflexivity|].
    split; intros ->; rewrite id_first_ascii in Hc by lia; discriminate.
  - apply GTerm_first in H as (c & q & -> & Hc). exists c, q. split; [reflexivity|]. split; intros ->; discriminate.
Qed.
Lemma GMembers_start l s r : GMembers U l s r -> ~ FirstIs 44 (ws_rest s).
Proof.
  intros [w r' Hw|k e l' w i1 i2 i3 s0 s' s3 s4 r' Hw Hi1 Hi2 Hi3 Hk _ _ _]; rewrite ws_rest_ws by exact Hw.
  - cbn [app]. rewrite ws_rest_stop by lia. intros [q [=]].
  - destruct (GKey_ws U _ _ _ Hk) as [-> _]. destruct (GKey_start _ _ _ Hk) as (c & q & -> & _ & Hc). intros [q' [= -> _]]. congruence.
Qed.

Lemma GChars_mono (P Q : char -> Prop) v s r : (forall c, P c -> Q c) -> GChars P v s r -> GChars Q v s r.
Proof. intros H. induction 1; [constructor|constructor; auto|constructor; auto]. Qed.
Lemma first_not (c d : char) s : c <> d -> ~ FirstIs d (c :: s).
Proof. intros H [q [= E _]]. congruence. Qed.

Lemma expr_agree_mut :
  (forall e s r, GTerm U e s r -> AgT e s r) /\
  (forall e s r, GExpr U e s r -> AgE e s r) /\
  (forall l s r, GItems U l s r -> AgI l s r) /\
  (forall l s r, GMembers U l s r -> AgM l s r) /\
  (forall k s r, GKey U k s r -> AgK k s r).
Proof.
  apply grammar_mut.
  - (* null *) intros r. apply (AgT_simple _ VNull); [constructor|apply first_not; discriminate|discriminate|constructor].
  - (* true *) intros r. apply (AgT_simple _ (VBoolean true)); [constructor|apply first_not; discriminate|discriminate|constructor].
  - (* false *) intros r. apply (AgT_simple _ (VBoolean false)); [constructor|apply first_not; discriminate|discriminate|constructor].
  - (* number *) intros n t r Hn HL. destruct (literal_from_str_some n t Hn) as [v Hv]. apply (literal_from_str_spec n t v Hn) in Hv.
    destruct (NumLit_first _ _ Hn) as (c & t' & Et & Hc).
    apply (AgT_simple _ v); [econstructor; eassumption| |rewrite Et; discriminate|constructor; rewrite (NumLit_input _ _ Hn); exact Hv].
    rewrite Et. apply first_not. unfold is_dec_digit in Hc. lia.
  - (* quoted *) intros v s r H. apply (AgT_simple _ (VString v)); [apply VT_quoted, H|apply first_not; discriminate|discriminate|constructor].
  - (* heredoc *) intros v s r H. apply (AgT_simple _ (VString (cow_str v))); [apply VT_heredoc, H| | |constructor];
    (assert (Hs : exists s', s = 60 :: s') by (destruct H; eexists; reflexivity)); destruct Hs as [s' ->]; [apply first_not|]; discriminate.
  - (* tuple *) intros l s r HG HI x r' v Hx H. assert (E : x = 91 :: s).
    { eapply SV_lead'; [exact Hx|apply first_not; discriminate|discriminate|exact H]. }
    subst x. rewrite single_value_eq in H. unfold single_value_step in H.
    rewrite alt_err in H by reflexivity.
    rewrite alt_err in H by (apply literal_number_err, number_first_err; [reflexivity|discriminate..]).
    rewrite alt_err in H by reflexivity. rewrite alt_err in H by (apply pmap_err, string_p_first; discriminate).
    apply alt_inv in H as [H|[_ H]]; apply pmap_inv in H as (l' & H & ->).
    + apply vlist_ok in H as (s1 & r1 & [= <-] & H & HC). destruct (HI _ _ _ H HC) as [-> HF]. split; [reflexivity|constructor; exact HF].
    + rewrite map_expression_first in H; [discriminate|]. rewrite ws_rest_stop by lia. discriminate.
  - (* object *) intros l s r _ HM x r' v Hx H. cbn [app] in Hx. destruct (lead_char x 123 s Hx (or_introl eq_refl)) as (c0 & x' & Ex & Hc0).
    rewrite (old_compound U x c0 x' Ex) in H.
    2:{ destruct Hc0 as [H0|[H0|H0]]; auto. subst. rewrite ws_rest_stop in Hx by lia. discriminate. }
    apply pmap_inv in H as (m & H & ->). eapply map_expression_inv in H as (r0 & l' & H1 & -> & H2); [|exact Hx].
    destruct (HM _ _ _ (ws_rest_idem s) H1 (or_intror (ex_intro _ r' H2))) as [H3 H4]. split; [congruence|]. constructor. exact H4.
  - (* parentheses *) intros e w1 w2 s r _ _ _ _ x r' v Hx H. exfalso. assert (E : x = 40 :: w1 ++ s).
    { eapply SV_lead'; [exact Hx|apply first_not; discriminate|discriminate|exact H]. }
    subst x. rewrite SV_paren in H. discriminate.
  - (* GE_term *) intros e s r HT HA x r' v Hx. destruct (GTerm_ws U _ _ _ HT) as [E _]. rewrite E in Hx. apply HA, Hx.
  - (* GE_lead *) intros e w s r Hw _ HT HA x r' v Hx. rewrite ws_rest_ws in Hx by exact Hw. destruct (GTerm_ws U _ _ _ HT) as [E _]. rewrite E in Hx. apply HA, Hx.
  - (* GI_nil *) intros w r Hw r1 r' l' H HC. unfold vlist_items in H. rewrite separated_list_eq, wrap_ws, ws_rest_ws in H by exact Hw.
    cbn [app] in H. rewrite ws_rest_stop in H by lia. rewrite single_value_first_err in H by reflexivity. injection H as <- <-.
    split; [|constructor]. eapply Close_det; [exact HC|]. left; eauto.
  - (* GI_comma *) intros w1 w2 r Hw1 Hw2 r1 r' l' H HC. unfold vlist_items in H. rewrite separated_list_eq, wrap_ws, ws_rest_ws in H by exact Hw1.
    cbn [app] in H. rewrite ws_rest_stop in H by lia. rewrite single_value_first_err in H by reflexivity. injection H as <- <-.
    split; [|constructor]. eapply Close_det; [exact HC|]. right; eauto.
  - (* GI_last *) intros e w1 w2 s r Hw1 Hw2 He HE r1 r' l' H HC.
    destruct (items_first _ _ _ _ _ _ _ Hw1 He HE H HC) as (v & l'' & -> & HV & Hs).
    assert (HC' : Close (w2 ++ [93] ++ r) r) by (left; eauto). rewrite (vsep_close U _ _ HC') in Hs. injection Hs as <- <-.
    split; [eapply Close_det; eassumption|]. constructor; [exact HV|constructor].
  - (* GI_last_comma *) intros e w1 w2 w3 s r Hw1 Hw2 Hw3 He HE r1 r' l' H HC.
    destruct (items_first _ _ _ _ _ _ _ Hw1 He HE H HC) as (v & l'' & -> & HV & Hs).
    assert (HC' : Close (w2 ++ [44] ++ w3 ++ [93] ++ r) r) by (right; eauto). rewrite (vsep_close U _ _ HC') in Hs. injection Hs as <- <-.
    split; [eapply Close_det; eassumption|]. constructor; [exact HV|constructor].
  - (* GI_cons *) intros e e' l w1 w2 s s' r Hw1 Hw2 He HE HI HA r1 r' l' H HC.
    destruct (items_first _ _ _ _ _ _ _ Hw1 He HE H HC) as (v & l'' & -> & HV & Hs).
    rewrite vsep_unfold, ws_rest_ws in Hs by exact Hw2. cbn [app] in Hs. rewrite ws_rest_stop in Hs by lia. rewrite char_p_eq in Hs.
    destruct (SV (ws_rest s')) as [s3 v3| | | |] eqn:Ev; try discriminate.
    + destruct (Nat.eqb (length s3) (length s')) eqn:En; [discriminate|].
      assert (HI' : vlist_items U s' = Ok r1 l'').
      { unfold vlist_items. rewrite separated_list_eq, wrap_ws, Ev, En. exact Hs. }
      destruct (HA _ _ _ HI' HC) as [-> HF]. split; [reflexivity|]. constructor; assumption.
    + exfalso. injection Hs as <- <-. destruct (GItems_start _ _ _ _ HI) as (c & q & Ec & Hc).
      destruct HC as [(w & Hw & E)|(w & w' & Hw & Hw' & E)]; apply (f_equal ws_rest) in E;
        rewrite !ws_rest_ws in E by assumption; cbn [app] in E; rewrite !ws_rest_stop in E by lia; [discriminate|].
      injection E as E. rewrite E, ws_rest_ws in Ec by exact Hw'. rewrite ws_rest_stop in Ec by lia. injection Ec as <- _. discriminate.
  - (* GM_nil *) intros w r Hw x r' l' Hx H Hr. rewrite ws_rest_ws in Hx by exact Hw. cbn [app] in Hx. rewrite ws_rest_stop in Hx by lia.
    rewrite many0_eq in H by apply wf_upto_of, wf_old_item. rewrite (old_rbrace_no_item U x r Hx) in H. injection H as <- <-. split; [exact Hx|constructor].
  - (* GM_cons *) intros k e l w i1 i2 i3 s s' s3 s4 r Hw Hi1 Hi2 Hi3 Hk HK He HE Hs Hl HL x r' l' Hx H Hr.
    destruct (GKey_ws U _ _ _ Hk) as [Hk1 Hk2]. rewrite ws_rest_ws, Hk1 in Hx by exact Hw.
    destruct (GKey_start _ _ _ Hk) as (c & q & Es & Hc & _).
    destruct (items_cons _ _ c q _ _ Hx Es Hc H Hr) as (k' & v & l'' & r0 & r1 & y & -> & H1 & H2 & H3).
    destruct (entry_agree k e s i1 i2 s' (i3 ++ s3) r0 k' v Hk HK Hi1 Hi2 HE H1) as (-> & HKA & HVA).
    assert (Hr1 : ws_rest r1 = ws_rest s4).
    { destruct Hs as [->|[(n & Hn & ->)|[-> [q' ->]]]].
      - eapply sep_agree; [|eapply GMembers_start, Hl|exact H2]. apply VS_comma, Iws_Ws, Hi3.
      - eapply sep_agree; [|eapply GMembers_start, Hl|exact H2]. apply VS_line; assumption.
      - rewrite sep_brace in H2 by exact Hi3. discriminate. }
    destruct (HL _ _ _ Hr1 H3 Hr) as [H4 H5]. split; [exact H4|]. constructor; [split; assumption|exact H5].
  - (* GK_ident *) intros i s r Hi r' k' H. apply literal_key_ok in H. inversion H as [t s' r0 H'|v s' r0 H']; subst.
    + destruct (GIdent_unique U _ _ _ _ _ Hi H') as [-> ->]. split; [reflexivity|constructor].
    + exfalso. apply GIdent_first in Hi as (c & q & [= <- _] & Hc). rewrite id_first_ascii in Hc by lia. discriminate.
  - (* GK_expr *) intros e t r HT _ Hno r' k' H. apply literal_key_ok in H. remember (t ++ r) as S eqn:ES. destruct H as [t' s' r0 H'|v s' r0 H'].
    + subst. elim (Hno _ _ H').
    + assert (HG : GTerm U (EString (Owned v)) ([34] ++ s') r0).
      { apply GT_quoted. eapply GChars_mono; [|exact H']. unfold PlainLine, Plain. tauto. }
      apply GE_term, expression_complete in HG. apply GE_term, expression_complete in HT. rewrite HT in HG. injection HG as <- _.
      split; [reflexivity|]. destruct (GChars_replace _ _ _ _ [] H') as (t0 & -> & HR).
      assert (Et : t = [34] ++ t0 ++ [34]).
      { apply (app_inv_tail r). rewrite <- ES. rewrite <- !app_assoc. reflexivity. }
      subst t. apply (KA_quoted v (t0 ++ [34])), HR.
Qed.
Lemma expr_agree e s r : GExpr U e s r -> AgE e s r.
Proof. apply expr_agree_mut. Qed.

(** ** Bodies *)
Definition AgEl (el : element) (s r : str) : Prop := forall r' kv, OA s = Ok r' kv -> r' = iws_rest r /\ ElemAs el kv.
Definition AgB (b : body_t) (s r : str) : Prop := (r = [] \/ FirstIs 125 r) -> forall x r' l', ws_rest x = ws_rest s -> OI x = Ok r' l' ->
  (ws_rest r' = [] \/ FirstIs 125 (ws_rest r')) -> ws_rest r' = r /\ Forall2 ElemAs b l'.

(** A block: which alternative reads it, and how it goes on *)
Lemma block_agree t ls s s' q r kv : GIdent U t s s' -> GLabels U ls s' (123 :: q) -> OA s = Ok r kv ->
  exists r0 r1 l ls', OI (ws_rest q) = Ok r0 l /\ ws_rest r0 = 125 :: r1 /\ r = iws_rest r1 /\ ls = map LString ls' /\
    kv = (KeyIdent (cow_str t), match ls' with [] => VObject [Unmerged l] | _ => VBlock (Unmerged [(ls', Unmerged l)]) end).
Proof.
  intros Ht HL H. destruct (GIdent_ws U _ _ _ Ht) as [_ Hs]. unfold old_attribute in H. rewrite iws_m in H.
  apply bind_ok in H as (r1 & kv' & H & H9). injection H9 as <- <-.
  pose proof (labels_not_eq U _ _ _ HL (ex_intro _ q eq_refl)) as Hne.
  rewrite alt_err in H.
  2:{ eapply old_attribute_alt1_err; [|exact Hne]. apply (GIdent_borrowed U t s s' Ht). }
  apply identifier_ok in Ht. apply alt_inv in H as [H|[HB H]].
  - rewrite wrap_iws, Hs, Ht in H. cbn [bind] in H. rewrite wrap_iws, opt_none in H.
    2:{ destruct (iws_rest s') as [|c q']; [reflexivity|]. apply char_p_neq. intros ->. apply Hne. eexists; reflexivity. }
    cbn [bind] in H. rewrite wrap_iws, iws_rest_idem in H. apply bind_ok in H as (r2 & m & H & H9). injection H9 as <- <-.
    assert (E : ls = [] /\ ws_rest (iws_rest s') = 123 :: q).
    { rewrite ws_rest_iws_rest. inversion HL as [i r' Hi|l0 ls0 i s0 s1 r' Hi Hl HL']; subst.
      - split; [reflexivity|]. rewrite ws_rest_ws by (apply Iws_Ws, Hi). apply ws_rest_stop; lia.
      - exfalso. rewrite map_expression_first in H; [discriminate|]. rewrite ws_rest_iws_rest, ws_rest_ws by (apply Iws_Ws, Hi). intros q'.
        apply GLabel_first in Hl as (c & s2 & -> & Hc). destruct Hc as [Hc| ->].
        + rewrite ws_rest_nonws by (eapply id_first_nonws, Hc). intros [= -> _]. rewrite id_first_ascii in Hc by lia. discriminate.
        + rewrite ws_rest_stop by lia. discriminate. }
    destruct E as [-> E]. eapply map_expression_inv in H as (r0 & l & H1 & -> & H2); [|exact E].
    exists r0, r2, l, []. auto 10.
  - rewrite wrap_iws, Hs, Ht in H. cbn [bind] in H. fold old_label in H. apply bind_ok in H as (r2 & ls' & H2 & H).
    apply bind_ok in H as (r3 & m & H3 & H). injection H as <- <-. rewrite wrap_iws in H3.
    assert (Hnil : ls' <> []).
    { intros ->. rewrite many0_eq in H2 by apply wf_upto_of, wf_old_label. assert (E2 : r2 = s').
      { destruct (old_label s') as [y0 y1| | | |]; try congruence. destruct (str_eqb y0 s'); [congruence|]. apply map_res_ok in H2 as (? & _ & [=]). }
      subst r2. rewrite wrap_iws, Hs, Ht in HB. cbn [bind] in HB. rewrite wrap_iws, opt_none in HB.
      - cbn [bind] in HB. rewrite wrap_iws, iws_rest_idem, H3 in HB. discriminate.
      - destruct (iws_rest s') as [|c q']; [reflexivity|]. apply char_p_neq. intros ->. apply Hne. eexists; reflexivity. }
    clear Ht Hne Hs HB.
    assert (E : ls = map LString ls' /\ ws_rest (iws_rest r2) = 123 :: q).
    { clear s Hnil. remember (123 :: q) as R eqn:ER. revert r2 ls' H2 H3. induction HL as [i R' Hi|l0 ls0 i s0 s1 R' Hi Hl HL' IH]; intros r2 ls' H2 H3;
        rewrite many0_eq in H2 by apply wf_upto_of, wf_old_label; unfold old_label at 1 in H2; rewrite wrap_iws in H2; rewrite iws_rest_iws in H2 by exact Hi.
      - subst R'. rewrite iws_rest_stop, string_literal_first in H2 by lia. injection H2 as <- <-. split; [reflexivity|].
        rewrite ws_rest_iws_rest, ws_rest_ws by (apply Iws_Ws, Hi). apply ws_rest_stop; lia.
      - rewrite (GLabel_ws U _ _ _ Hl) in H2. inversion Hl as [j s2 r' Hj|v s2 r' Hv]; subst.
        + exfalso. apply GIdent_first in Hj as (c & s3 & -> & Hc). pose proof (id_first_not U _ Hc) as Hcn.
          rewrite string_literal_first in H2 by tauto. injection H2 as <- <-. rewrite map_expression_first in H3; [discriminate|].
          rewrite ws_rest_iws_rest, ws_rest_ws by (apply Iws_Ws, Hi). rewrite ws_rest_nonws by (eapply id_first_nonws, Hc). intros q' [= -> _]. tauto.
        + assert (Ev : string_literal (34 :: s2) = Ok s1 v) by (apply string_literal_ok; eauto). cbn [app] in H2. rewrite Ev in H2.
          destruct (str_eqb s1 (i ++ 34 :: s2)) eqn:Eq.
          * exfalso. apply str_eqb_eq in Eq. apply (f_equal (@length _)) in Eq. rewrite app_length in Eq. apply GChars_len in Hv. cbn [length app] in *. lia.
          * apply map_res_ok in H2 as (ls2 & H2 & ->). destruct (IH eq_refl _ _ H2 H3) as [-> E]. auto. }
    destruct E as [-> E]. eapply map_expression_inv in H3 as (r0 & l & H1 & -> & H4); [|exact E].
    exists r0, r3, l, ls'. split; [exact H1|]. split; [exact H4|]. split; [reflexivity|]. split; [reflexivity|].
    destruct ls'; [congruence|reflexivity].
Qed.
Lemma GElem_start el s r : GElem U el s r -> ws_rest s = s /\ exists c q, s = c :: q /\ c <> 125 /\ c <> 44.
Proof.
  assert (Hi : forall t s r, GIdent U t s r -> ws_rest s = s /\ exists c q, s = c :: q /\ c <> 125 /\ c <> 44).
  { intros t s0 r0 Hi. split; [apply (GIdent_ws U _ _ _ Hi)|]. apply GIdent_first in Hi as (c & q & -> & Hc). exists c, q. split; [reflexivity|].
    split; intros ->; rewrite id_first_ascii in Hc by lia; discriminate. }
  intros [i e s0 r0 [i' e' i1 i2 s1 s' r1 _ _ Ht _]|t ls i1 s0 s' r0 _ Ht _|t ls n v i1 i2 s0 s' s2 r0 _ _ Ht _ _|t ls b i1 n s0 s' s2 r0 _ _ Ht _ _]; eapply Hi, Ht.
Qed.
Lemma GBody_start b s r : GBody U b s r -> r = [] \/ FirstIs 125 r -> ~ FirstIs 44 (ws_rest s).
Proof.
  intros [w r' Hw|el b' w i s0 s1 s2 r' Hw _ He _ _] Hr; rewrite ws_rest_ws by exact Hw.
  - destruct Hr as [->|[q ->]]; [intros [q [=]]|]. rewrite ws_rest_stop by lia. intros [q' [=]].
  - apply GElem_start in He as (-> & c & q & -> & _ & Hc). intros [q' [= -> _]]. congruence.
Qed.
Lemma ElemAs_block t ls b l : Forall2 ElemAs b l ->
  ElemAs (Blk t (map LString ls) b) (KeyIdent (cow_str t), match ls with [] => VObject [Unmerged l] | _ => VBlock (Unmerged [(ls, Unmerged l)]) end).
Proof. intros H. destruct ls as [|l0 ls]; [apply EA_unlabelled, H|]. apply (EA_labelled t (l0 :: ls)); [discriminate|exact H]. Qed.

Lemma body_agree_mut :
  (forall el s r, GElem U el s r -> AgEl el s r) /\ (forall b s r, GBody U b s r -> AgB b s r).
Proof.
  apply body_mut.
  - (* attribute *) intros i e s r [i' e' i1 i2 s0 s' r' Hi1 Hi2 Hi He] r0 [k v] H.
    assert (HK : GKey U (KIdent i') s0 (i1 ++ [61] ++ i2 ++ s')) by (constructor; exact Hi).
    destruct (entry_agree _ _ _ _ _ _ _ _ _ _ HK (proj2 (proj2 (proj2 (proj2 expr_agree_mut))) _ _ _ HK) Hi1 Hi2 (expr_agree _ _ _ He) H) as (-> & HKA & HVA).
    split; [reflexivity|]. inversion HKA; subst. constructor. exact HVA.
  - (* one line, empty *) intros t ls i1 s s' r Hi1 Ht HL r' kv H.
    destruct (block_agree _ _ _ _ _ _ _ Ht HL H) as (r0 & r1 & l & ls' & H1 & H2 & -> & -> & ->).
    rewrite ws_rest_ws in H1 by (apply Iws_Ws, Hi1). cbn [app] in H1. rewrite ws_rest_stop in H1 by lia.
    rewrite many0_eq in H1 by apply wf_upto_of, wf_old_item. rewrite (old_rbrace_no_item U _ r) in H1 by (apply ws_rest_stop; lia).
    injection H1 as <- <-. rewrite ws_rest_stop in H2 by lia. injection H2 as <-. split; [reflexivity|]. apply ElemAs_block. constructor.
  - (* one line: never read *) intros t ls n v i1 i2 s s' s2 r Hi1 Hi2 Ht HL Ha r' kv H. exfalso.
    destruct (block_agree _ _ _ _ _ _ _ Ht HL H) as (r0 & r1 & l & ls' & H1 & H2 & -> & -> & ->).
    rewrite ws_rest_ws in H1 by (apply Iws_Ws, Hi1). destruct (GAttr_ws U _ _ _ _ Ha) as [Ea _]. rewrite Ea in H1.
    pose proof (GE_attr U n v s2 _ Ha) as He. apply GElem_start in He as (_ & c & q & Es & Hc & _).
    destruct (items_cons _ _ c q _ _ Ea Es Hc H1 (or_intror (ex_intro _ r1 H2))) as (k' & v' & l'' & r2 & r3 & y & -> & H3 & H4 & _).
    remember (i2 ++ [125] ++ r) as R eqn:ER. destruct Ha as [i' e' j1 j2 s0 s'' r'' Hj1 Hj2 Hi He]. subst r''.
    assert (HK : GKey U (KIdent i') s0 (j1 ++ [61] ++ j2 ++ s'')) by (constructor; exact Hi).
    assert (E : r2 = iws_rest (i2 ++ [125] ++ r)).
    { eapply (entry_agree _ _ _ _ _ _ _ _ _ _ HK (proj2 (proj2 (proj2 (proj2 expr_agree_mut))) _ _ _ HK) Hj1 Hj2 (expr_agree _ _ _ He) H3). }
    rewrite E in H4. cbn [app] in H4. rewrite sep_brace in H4 by exact Hi2. discriminate.
  - (* block *) intros t ls b i1 n s s' s2 r Hi1 Hn Ht HL Hb HB r' kv H.
    destruct (block_agree _ _ _ _ _ _ _ Ht HL H) as (r0 & r1 & l & ls' & H1 & H2 & -> & -> & ->).
    rewrite ws_rest_ws in H1 by (apply Iws_Ws, Hi1). rewrite LineEnd_ws_rest in H1 by exact Hn.
    destruct (HB (or_intror (ex_intro _ r eq_refl)) _ _ _ (ws_rest_idem s2) H1 (or_intror (ex_intro _ r1 H2))) as [H3 H4].
    rewrite H2 in H3. injection H3 as ->. split; [reflexivity|]. apply ElemAs_block, H4.
  - (* nil *) intros w r Hw Hr x r' l' Hx H Hr'. rewrite ws_rest_ws in Hx by exact Hw.
    assert (Hrr : ws_rest r = r) by (destruct Hr as [->|[q ->]]; [reflexivity|apply ws_rest_stop; lia]). rewrite Hrr in Hx.
    rewrite many0_eq in H by apply wf_upto_of, wf_old_item.
    assert (He : old_item U x = Err) by (destruct Hr as [->|[q ->]]; [apply old_nil_no_item, Hx|eapply old_rbrace_no_item, Hx]).
    rewrite He in H. injection H as <- <-. split; [exact Hx|constructor].
  - (* cons *) intros el b w i s s1 s2 r Hw Hi He HE Hsep Hb HB Hr x r' l' Hx H Hr'.
    destruct (GElem_start _ _ _ He) as (Hs & c & q & Es & Hc & _). rewrite ws_rest_ws, Hs in Hx by exact Hw.
    destruct (items_cons _ _ c q _ _ Hx Es Hc H Hr') as (k & v & l'' & r0 & r1 & y & -> & H1 & H2 & H3).
    destruct (HE _ _ H1) as [-> HA]. pose proof (GBody_start _ _ _ Hb Hr) as Hn44.
    assert (Hr1 : ws_rest r1 = ws_rest s2).
    { eapply sep_agree; [|exact Hn44|exact H2]. destruct Hsep as [(n & Hn & ->)|[-> ->]]; [apply VS_line; assumption|rewrite app_nil_r; apply VS_end, Hi]. }
    destruct (HB Hr _ _ _ Hr1 H3 Hr') as [H4 H5]. split; [exact H4|]. constructor; assumption.
Qed.
Theorem documents_agree b l s : GConfig U b s -> VDoc U l s -> DocAs b l.
Proof.
  intros HG HV. apply body_agree_mut in HG. unfold VDoc in HV. apply map_values_complete in HV; [|auto].
  rewrite map_values_unfold in HV. apply bind_ok in HV as (r0 & l0 & H & H9). injection H9 as H9 ->.
  eapply HG; [auto|reflexivity|exact H|auto].
Qed.
End WithTables.
