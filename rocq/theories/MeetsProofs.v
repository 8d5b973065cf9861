(** * MeetsProofs: the parser stops for good exactly on the documents of MeetsSpec *)
From Verif Require Import Base Nom NomFacts Ast Lex Grammar WsFacts NumFacts StrFacts HeredocFacts
  Parser ParserFacts ExprProofs BodyProofs MeetsSpec.

Inductive stop := SPanic | SFail (q : str).
Definition stopped {A} (k : stop) : res A := match k with SPanic => Panic | SFail q => Fail q end.

(** ** Stops pass through the combinators *)
Section Halt.
Context (K : stop).
Local Notation Halt := (stopped K).
Lemma ok_not_halt {A} r (v : A) : Ok r v = Halt -> False.
Proof. destruct K; discriminate. Qed.
Lemma err_not_halt {A} : @Err A = Halt -> False.
Proof. destruct K; discriminate. Qed.
Lemma fuel_not_halt {A} : @OutOfFuel A = Halt -> False.
Proof. destruct K; discriminate. Qed.
Ltac no H := exfalso; first [exact (ok_not_halt _ _ H)|exact (err_not_halt H)|exact (fuel_not_halt H)].
Lemma bind_halt {A B} (x : res A) (f : str -> A -> res B) : bind x f = Halt -> x = Halt \/ exists r v, x = Ok r v /\ f r v = Halt.
Proof. destruct x; cbn; intros H; try (no H); eauto; left; destruct K; cbn in *; congruence. Qed.
Lemma bind_ret_halt {A B} (x : res A) (f : str -> A -> str) (g : str -> A -> B) : bind x (fun r v => Ok (f r v) (g r v)) = Halt -> x = Halt.
Proof. intros H. apply bind_halt in H as [H|(r & v & _ & H)]; [exact H|no H]. Qed.
Lemma halt_bind {A B} (x : res A) (f : str -> A -> res B) : x = Halt -> bind x f = Halt.
Proof. intros ->. destruct K; reflexivity. Qed.
Lemma alt_halt_l {A} (p q : parser A) s : p s = Halt -> alt p q s = Halt.
Proof. intros H. unfold alt. rewrite H. destruct K; reflexivity. Qed.
Lemma pmap_halt {A B} (f : A -> B) p s : p s = Halt -> pmap f p s = Halt.
Proof. intros H. unfold pmap, map_res. rewrite H. destruct K; reflexivity. Qed.
Lemma alt_halt {A} (p q : parser A) s : alt p q s = Halt -> p s = Halt \/ (p s = Err /\ q s = Halt).
Proof. unfold alt. destruct (p s); auto; intros H; no H. Qed.
Lemma pmap_halt_inv {A B} (f : A -> B) p s : pmap f p s = Halt -> p s = Halt.
Proof. apply bind_ret_halt. Qed.
Lemma simple_halt {A} (p : parser A) s : simple p -> p s <> Halt.
Proof. intros H. destruct (H s) as [(r & v & ->)| ->]; intros E'; no E'. Qed.
Lemma map_res_halt {A B} (f : A -> B) x : map_res f x = Halt -> x = Halt.
Proof. apply bind_ret_halt. Qed.
Lemma ws_m_halt {A} (p : parser A) s : whitespace_m p s = Halt -> p s = Halt.
Proof. rewrite ws_m. intros H. apply bind_ret_halt in H. exact H. Qed.
Lemma iws_m_halt {A} (p : parser A) s : inline_whitespace_m p s = Halt -> p s = Halt.
Proof. rewrite iws_m. intros H. apply bind_ret_halt in H. exact H. Qed.
End Halt.

Section WithTables.
Context (U : ucd).
Local Notation E := (expression U).

(** ** Heredocs *)
Lemma heredoc_bad s : heredoc_string U s = Panic <-> BadHeredoc U s.
Proof.
  rewrite heredoc_string_panic. split.
  - intros (d & m & p & b & t & r & content & n & -> & HS & Eu).
    destruct HS as (Hm & Hd & Hc & Hn & Hp). destruct p as [|p0 p]; [destruct Hp as [-> ->]; discriminate|].
    destruct Hp as (e & He & Ep & ->). destruct Hd as [->| ->]; [discriminate|].
    assert (Hb : b <> []) by (intros ->; discriminate).
    exists m, e, content, b, t, r. rewrite Ep, <- !app_assoc. split; [reflexivity|].
    split; [exact Hm|]. split; [exact He|]. split; [exact Hc|]. split; [exact Hb|]. split.
    + intros p' y b' r' Hpy. apply (Hn p' y). rewrite Ep. exact Hpy.
    + intros out Ho. cbn [app] in Eu.
      assert (Eo : unindent_heredoc content (length b) = Some (Owned out)).
      { apply unindent_ok; [destruct b; [congruence|cbn; lia]|]. exists out. auto. }
      congruence.
  - intros (m & e & content & b & t & r & -> & Hm & He & Hc & Hb & Hn & Hu).
    exists [45], m, (e ++ content), b, t, r, content, (length b). split; [rewrite <- !app_assoc; reflexivity|]. split.
    + split; [exact Hm|]. split; [right; reflexivity|]. split; [exact Hc|]. split; [exact Hn|].
      assert (Hl : e ++ content <> []) by (destruct He; discriminate).
      destruct (e ++ content) as [|q0 q] eqn:Eq; [contradiction|]. exists e. auto.
    + destruct (unindent_heredoc content (length b)) as [v|] eqn:Ev; [|reflexivity]. exfalso.
      apply unindent_ok in Ev as (out & Ho & _); [exact (Hu out Ho)|]. destruct b; [contradiction|cbn; lia].
Qed.

(** ** Quoted texts *)
Definition NoEscape (p : str) : Prop :=
  ~ (exists n t r, p = t ++ r /\ EscShape n t /\ Longest (fun t' => exists n', EscShape n' t') t r /\ ScalarValue n).
Lemma unescape_bad p q : unescape p = Fail q <-> q = p /\ NoEscape p.
Proof.
  split.
  - intros H. destruct (unescape_outcome p) as [(r & v & Ho)|Ho]; [congruence|]. split; [congruence|].
    intros (n & t & r & -> & HE & HL & HS). assert (Ho2 : unescape (t ++ r) = Ok r [n]) by (apply unescape_ok; exists n, t; auto 6). congruence.
  - intros [-> H]. destruct (unescape_outcome p) as [(r & v & Ho)|Ho]; [|exact Ho]. exfalso.
    apply unescape_ok in Ho as (n & t & _ & -> & HE & HL & HS). apply H. exists n, t, r. auto.
Qed.
Lemma chars_bad normal P : (forall c, normal c = true <-> P c) -> normal 92 = false -> forall q s,
  escaped_transform normal unescape s = Fail q <-> exists v, GChars P v s (92 :: q) /\ q <> [] /\ NoEscape q.
Proof.
  intros HP Hb q s. split.
  - remember (length s) as k eqn:Ek. revert s Ek. induction k as [k IH] using lt_wf_ind; intros s -> H.
    destruct s as [|c s]; [rewrite escaped_transform_nil in H by apply wf_unescape; discriminate|].
    destruct (normal c) eqn:Ec.
    + rewrite escaped_transform_normal in H by (apply wf_unescape || exact Ec).
      destruct (escaped_transform normal unescape s) as [r v| |q'| |] eqn:Es; try discriminate. cbn in H. injection H as ->.
      destruct (IH (length s) ltac:(cbn; lia) s eq_refl Es) as (v & Hv & H1). exists (c :: v). split; [constructor; [apply HP, Ec|exact Hv]|exact H1].
    + destruct (N.eq_dec c 92) as [->|Hc].
      * rewrite escaped_transform_esc in H by (apply wf_unescape || exact Hb). destruct s as [|x s]; [discriminate|].
        destruct (unescape (x :: s)) as [r v| |q'| |] eqn:Eu; try discriminate; cbn [bind] in H.
        -- apply unescape_ok in Eu as (n & t & -> & Et & HE & HL & HS).
           destruct (escaped_transform normal unescape r) as [r' v'| |q'| |] eqn:Es; try discriminate. cbn in H. injection H as ->.
           assert (Hlen : (length r < length (92%N :: x :: s))%nat) by (rewrite Et; cbn [length]; rewrite app_length; lia).
           destruct (IH (length r) Hlen r eq_refl Es) as (v & Hv & H1). exists (n :: v). split; [|exact H1]. rewrite Et.
           apply (GC_esc P n t v r); assumption.
        -- injection H as ->. apply unescape_bad in Eu as [-> Hn]. exists []. split; [constructor|]. split; [discriminate|exact Hn].
      * rewrite escaped_transform_stop in H by (apply wf_unescape || exact Ec || exact Hc). discriminate.
  - intros (v & Hv & Hne & Hno). remember (92 :: q) as r eqn:Er. induction Hv as [r|c v s r Hc Hv IH|n t v s r HE HL HS Hv IH]; subst r.
    + rewrite escaped_transform_esc by (apply wf_unescape || exact Hb). destruct q as [|x q]; [congruence|].
      rewrite (proj2 (unescape_bad (x :: q) (x :: q))) by auto. reflexivity.
    + rewrite escaped_transform_normal by (apply wf_unescape || apply HP, Hc). rewrite IH by reflexivity. reflexivity.
    + cbn [app]. rewrite escaped_transform_esc by (apply wf_unescape || exact Hb).
      assert (Eu : unescape (t ++ s) = Ok s [n]) by (apply unescape_ok; exists n, t; auto 6).
      destruct (t ++ s) as [|x ts] eqn:Ets.
      * apply app_eq_nil in Ets as [-> _]. exfalso. apply EscShape_nonempty in HE. apply HE; reflexivity.
      * rewrite Eu. cbn [bind]. rewrite IH by reflexivity. reflexivity.
Qed.
Lemma delim_bad normal P : (forall c, normal c = true <-> P c) -> normal 92 = false -> forall q s,
  quoted normal s = Fail q <-> BadEscape P q s.
Proof.
  intros HP Hb q s. unfold quoted, delimited. split.
  - intros H. destruct (simple_tag [34] s) as [(r & v & Et)|Et]; rewrite Et in H; [|discriminate]. cbn [bind] in H.
    apply tag_ok in Et as [-> _]. destruct (escaped_transform normal unescape r) as [r' v'| |q'| |] eqn:Es; try discriminate; cbn [bind] in H.
    + destruct (simple_tag [34] r') as [(? & ? & Et)|Et]; rewrite Et in H; discriminate.
    + injection H as ->. apply (chars_bad normal P HP Hb) in Es as (w & Hw & H1 & H2). exists w, r. auto.
  - intros (v & s' & -> & Hv & Hne & Hno). rewrite tag_app. cbn [bind].
    rewrite (proj2 (chars_bad normal P HP Hb q s')); [reflexivity|]. exists v. auto.
Qed.
Lemma quoted_bad q s : quoted_string s = Fail q <-> BadEscape Plain q s.
Proof. exact (delim_bad _ _ legal_spec eq_refl q s). Qed.
Lemma literal_bad q s : string_literal s = Fail q <-> BadEscape PlainLine q s.
Proof. exact (delim_bad _ _ legal_line_spec eq_refl q s). Qed.
Lemma heredoc_fail q s : heredoc_string U s <> Fail q.
Proof. intros H. destruct (heredoc_string_outcome U s) as [(r & v & E')|[E'|E']]; congruence. Qed.
Lemma string_bad_heredoc s : string_p U s = Panic <-> BadHeredoc U s.
Proof.
  rewrite <- heredoc_bad. unfold string_p, alt, pmap, map_res. destruct (quoted_string_outcome s) as [(r & v & E')|[E'|(q & E')]]; rewrite E'; cbn [bind]; [|tauto|].
  - split; [discriminate|]. intros H. apply heredoc_bad in H as (m & e & c & b & t & r0 & -> & _). cbn [app] in E'. rewrite quoted_string_first in E' by lia. discriminate.
  - split; [discriminate|]. intros H. apply heredoc_bad in H as (m & e & c & b & t & r0 & -> & _). cbn [app] in E'. rewrite quoted_string_first in E' by lia. discriminate.
Qed.
Lemma string_bad_escape q s : string_p U s = Fail q <-> BadEscape Plain q s.
Proof.
  rewrite <- quoted_bad. unfold string_p, alt, pmap, map_res. destruct (quoted_string s); cbn [bind]; try (split; congruence).
  split; [intros H; destruct (heredoc_fail _ _ H)|discriminate].
Qed.

(** ** Either kind of stop *)
Section Stop.
Context (K : stop) (T L : str -> Prop).
Context (HT : forall s, string_p U s = stopped K <-> T s) (HLab : forall s, string_literal s = stopped K <-> L s).
Local Notation Halt := (stopped K).
Ltac nostop := exfalso; clear - K; intros; destruct K; discriminate.
Ltac no H := exfalso; first [exact (ok_not_halt K _ _ H)|exact (err_not_halt K H)|exact (fuel_not_halt K H)].
Lemma bad_first s : T s -> exists c s', s = c :: s' /\ (c = 60 \/ c = 34).
Proof.
  intros H. apply HT in H. destruct s as [|c s]; [exfalso; revert H; destruct K; vm_compute; discriminate|].
  exists c, s. split; [reflexivity|]. destruct (N.eq_dec c 34); [auto|]. destruct (N.eq_dec c 60); [auto|].
  rewrite string_p_first in H by assumption. no H.
Qed.
Lemma label_first s : L s -> exists s', s = 34 :: s'.
Proof.
  intros H. apply HLab in H. destruct s as [|c s]; [exfalso; revert H; destruct K; vm_compute; discriminate|].
  destruct (N.eq_dec c 34) as [->|Hc]; [eauto|]. rewrite string_literal_first in H by exact Hc. no H.
Qed.

(** ** Met implies stop *)
Lemma MeetsTerm_first s : MeetsTerm U T s -> exists c s', s = c :: s' /\ (c = 60 \/ c = 34 \/ c = 91 \/ c = 123 \/ c = 40).
Proof.
  intros [s' H|s' _|s' _|w s' _ _]; [apply bad_first in H as (c & q & -> & Hc); exists c, q; split; [reflexivity|tauto]|..];
    eexists _, _; (split; [reflexivity|]); tauto.
Qed.
Lemma MeetsTerm_ws s : MeetsTerm U T s -> ws_rest s = s /\ iws_rest s = s.
Proof.
  intros H. apply MeetsTerm_first in H as (c & s' & -> & H).
  assert (Hc : ws_char c = false) by (unfold ws_char; lia). split; [apply ws_rest_nonws|apply iws_rest_nonws]; exact Hc.
Qed.
Definition Halts (s : str) : Prop := E s = Halt /\ (FirstIs 123 s \/ FirstIs 40 s -> forall x, ws_rest x = s -> E x = Halt).
Definition HaltsLead (s : str) : Prop := E s = Halt /\ E (iws_rest s) = Halt /\ E (ws_rest s) = Halt.
Definition HaltsItems (s : str) : Prop := tuple_list E s = Halt.
Definition HaltsMembers (s : str) : Prop := forall x, ws_rest x = ws_rest s -> many0 (member U) x = Halt.

(* the alternatives before strings all fail on these *)
Lemma step_string c s : c = 60 \/ c = 34 \/ c = 91 -> expression_step U E (c :: s) =
  alt (pmap EString (string_p U)) (alt (pmap ETuple (tuple E)) (alt (pmap EObject (object U E)) (bracket_expression E))) (c :: s).
Proof.
  intros Hc. unfold expression_step.
  assert (Hn : c <> 110 /\ is_dec_digit c = false /\ c <> 46 /\ c <> 43 /\ c <> 45 /\ c <> 116 /\ c <> 102).
  { unfold is_dec_digit in *. lia. }
  rewrite alt_err by (apply pmap_err, null_first; tauto).
  rewrite alt_err by (apply pmap_err, number_first_err; tauto).
  rewrite alt_err by (apply pmap_err, boolean_first; tauto). reflexivity.
Qed.
Lemma sep_rest_halt r1 s' w2 : Ws w2 -> r1 = w2 ++ 44 :: s' -> E (ws_rest s') = Halt ->
  sep_rest (wrap whitespace (char_p c_comma)) (wrap whitespace E) r1 = Halt.
Proof.
  intros Hw -> H. rewrite sep_rest_unfold, ws_rest_ws by exact Hw. rewrite ws_rest_stop by lia. rewrite char_p_eq, H. destruct K; reflexivity.
Qed.
Lemma tuple_halt s : tuple_list E s = Halt -> tuple E (91 :: s) = Halt.
Proof.
  intros H. unfold tuple, preceded. rewrite char_p_eq. cbn [bind]. unfold terminated at 1. rewrite ws_m.
  unfold tuple_list in H. rewrite H. destruct K; reflexivity.
Qed.
Lemma object_halt x s1 : ws_rest x = 123 :: s1 -> many0 (member U) (ws_rest s1) = Halt -> object U E x = Halt.
Proof.
  intros H1 H2. unfold object. rewrite ws_m, wrap_ws, H1, char_p_eq. cbn [bind].
  rewrite ws_m, wrap_ws, ws_rest_idem. unfold object_body. rewrite ws_m. unfold member in H2. rewrite H2. destruct K; reflexivity.
Qed.
Lemma bracket_halt x s1 : ws_rest x = 40 :: s1 -> E (ws_rest s1) = Halt -> bracket_expression E x = Halt.
Proof.
  intros H1 H2. unfold bracket_expression. change (lit "(") with [40]. rewrite ws_m, wrap_ws, H1, tag1_eq. cbn [bind].
  rewrite ws_m, wrap_ws, ws_rest_idem, H2. destruct K; reflexivity.
Qed.
Lemma many0_member x : many0 (member U) x =
  match member U x with
  | Ok r v => if str_eqb r x then Ok x [] else map_res (cons v) (many0 (member U) r)
  | Err => Ok x [] | Fail q => Fail q | Panic => Panic | OutOfFuel => OutOfFuel
  end.
Proof. rewrite many0_eq by apply wf_upto_of, wf_member. reflexivity. Qed.

Lemma meets_halts :
  (forall s, MeetsTerm U T s -> Halts s) /\ (forall s, MeetsExpr U T s -> HaltsLead s) /\
  (forall s, MeetsItems U T s -> HaltsItems s) /\ (forall s, MeetsMembers U T s -> HaltsMembers s).
Proof.
  assert (Hno : forall c s', c <> 123 -> c <> 40 -> ~ (FirstIs 123 (c :: s') \/ FirstIs 40 (c :: s'))).
  { intros c s' H1 H2 [[q [= E1 _]]|[q [= E1 _]]]; congruence. }
  apply meets_mut.
  - intros s H. destruct (bad_first s H) as (c & s' & -> & Hc). apply HT in H. split.
    + rewrite expression_eq, step_string by tauto. apply (alt_halt_l K), (pmap_halt K). exact H.
    + intros Hf. exfalso. revert Hf. apply Hno; lia.
  - intros s _ H. split.
    + cbn [app]. rewrite expression_eq, step_string by tauto. rewrite alt_err by (apply pmap_err, string_p_first; lia).
      apply (alt_halt_l K), (pmap_halt K), tuple_halt, H.
    + intros Hf. exfalso. revert Hf. apply Hno; lia.
  - intros s _ H.
    assert (Hx : forall x, ws_rest x = 123 :: s -> E x = Halt).
    { intros x Hx. rewrite expression_eq. destruct (lead_char _ _ _ Hx) as (c0 & x' & -> & Hc); [auto|].
      rewrite (step_compound U E _ c0 x' eq_refl Hc). apply (alt_halt_l K), (pmap_halt K). eapply object_halt; [exact Hx|].
      apply H. apply ws_rest_idem. }
    split; [apply Hx, ws_rest_stop; lia|intros _; exact Hx].
  - intros w s Hw _ (H1 & _ & H2).
    assert (Hx : forall x, ws_rest x = 40 :: w ++ s -> E x = Halt).
    { intros x Hx. rewrite expression_eq. destruct (lead_char _ _ _ Hx) as (c0 & x' & -> & Hc); [auto|].
      rewrite (step_compound U E _ c0 x' eq_refl Hc). rewrite alt_err by (apply pmap_err; eapply object_first; [exact Hx|lia]).
      eapply bracket_halt; [exact Hx|]. rewrite ws_rest_ws by exact Hw. exact H2. }
    split; [apply Hx, ws_rest_stop; lia|intros _; exact Hx].
  - intros s Ht [H _]. destruct (MeetsTerm_ws s Ht) as [H1 H2]. split; [exact H|]. rewrite H1, H2. auto.
  - intros w s Hw Hf Ht [H Hl]. destruct (MeetsTerm_ws s Ht) as [H1 H2]. specialize (Hl Hf).
    assert (Hws : ws_rest (w ++ s) = s) by (rewrite ws_rest_ws by exact Hw; exact H1).
    split; [apply Hl, Hws|]. split; [apply Hl; rewrite ws_rest_iws_rest; exact Hws|]. rewrite Hws. exact H.
  - intros w s Hw _ (_ & _ & H). unfold HaltsItems, tuple_list. rewrite separated_list_eq, wrap_ws, ws_rest_ws by exact Hw.
    rewrite H. destruct K; reflexivity.
  - intros e w1 w2 s s' Hw1 Hw2 He _ H. pose proof (expression_reads U _ _ _ He) as (Hl & _ & _ & Hr & _).
    unfold HaltsItems, tuple_list in *. rewrite separated_list_eq in *. rewrite wrap_ws in *. rewrite ws_rest_ws by exact Hw1.
    rewrite Hr. destruct (Nat.eqb_spec (length (w2 ++ [44] ++ s')) (length (w1 ++ s))) as [Eq|_]; [rewrite (app_length w1) in Eq; lia|].
    rewrite sep_rest_unfold, ws_rest_ws by exact Hw2. cbn [app]. rewrite ws_rest_stop by lia. rewrite char_p_eq.
    destruct (E (ws_rest s')) as [r3 v| |q| |]; try (no H); try (destruct K; cbn in *; congruence).
    destruct (Nat.eqb _ _); [no H|]. destruct (sep_rest _ _ r3); cbn in H |- *; try (no H); destruct K; cbn in *; congruence.
  - intros w s Hw Ht [H _] x Hx. destruct (MeetsTerm_ws s Ht) as [H1 H2]. rewrite ws_rest_ws, H1 in Hx by exact Hw.
    rewrite many0_member. unfold member at 1. rewrite wrap_ws, Hx. unfold terminated, object_element. rewrite iws_m, wrap_iws, H2.
    unfold object_element_identifier. apply MeetsTerm_first in Ht as (c & s' & -> & Hc).
    rewrite alt_err. 2:{ apply pmap_err, identifier_first_err. rewrite id_first_ascii by lia. unfold is_ascii_alpha. lia. }
    unfold pmap, recognize. rewrite H. destruct K; reflexivity.
  - intros k w i1 i2 s s' Hw Hi1 Hi2 Hk _ (_ & H & _) x Hx. destruct (GKey_ws U _ _ _ Hk) as [H1 H2].
    rewrite ws_rest_ws, H1 in Hx by exact Hw.
    rewrite many0_member. unfold member at 1. rewrite wrap_ws, Hx. unfold terminated, object_element. rewrite iws_m, wrap_iws, H2.
    apply expression_complete_mut in Hk as [_ Hk]. rewrite Hk. cbn [bind app]. rewrite wrap_iws, iws_to_eq by exact Hi1.
    rewrite char_p_eq. cbn [bind]. rewrite wrap_iws, iws_rest_iws, H by exact Hi2. destruct K; reflexivity.
  - intros k e w i1 i2 i3 s s' s3 s4 Hw Hi1 Hi2 Hi3 Hk He Hs _ H x Hx. destruct (GKey_ws U _ _ _ Hk) as [H1 H2].
    pose proof (proj2 (proj2 (proj2 (proj2 (expression_complete_mut U)))) _ _ _ Hk) as Hrk.
    destruct (member_complete U k e w i1 i2 i3 s s' s3 s4 x Hrk H1 H2 (expression_reads U _ _ _ He) Hi1 Hi2 Hi3 Hs Hw Hx) as (r1 & Hm & Hr & Hne).
    rewrite many0_member, Hm. apply str_eqb_neq in Hne. rewrite Hne. rewrite (H r1 Hr). destruct K; reflexivity.
Qed.
Lemma meets_expr_halts s : MeetsExpr U T s -> HaltsLead s.
Proof. apply meets_halts. Qed.
Lemma attr_halts s x : MeetsAttr U T s -> iws_rest x = s -> attribute U x = Halt.
Proof.
  intros [i i1 i2 s0 s' Hi1 Hi2 Hi He] Hx. unfold attribute. rewrite iws_m, wrap_iws, Hx.
  apply identifier_ok in Hi. rewrite Hi. cbn [bind app]. rewrite wrap_iws, iws_to_eq by exact Hi1.
  rewrite char_p_eq. cbn [bind]. rewrite wrap_iws, iws_rest_iws by exact Hi2.
  apply meets_expr_halts in He as (_ & He & _). rewrite He. destruct K; reflexivity.
Qed.
Lemma MeetsAttr_ws s : MeetsAttr U T s -> ws_rest s = s /\ iws_rest s = s.
Proof. intros [i i1 i2 s0 s' _ _ Hi _]. eapply GIdent_ws, Hi. Qed.
Lemma many0_item x : many0 (body_item U) x =
  match body_item U x with
  | Ok r v => if str_eqb r x then Ok x [] else map_res (cons v) (many0 (body_item U) r)
  | Err => Ok x [] | Fail q => Fail q | Panic => Panic | OutOfFuel => OutOfFuel
  end.
Proof. rewrite many0_eq by apply wf_upto_of, wf_body_item. reflexivity. Qed.

Lemma labels_halt ls s r : GLabels U ls s r -> L r -> forall x, iws_rest x = iws_rest s -> block_labels U x = Halt.
Proof.
  induction 1 as [i r Hi|l ls i s s' r Hi Hl HL IH]; intros Hr x Hx.
  - destruct (label_first r Hr) as (q & ->). rewrite iws_rest_iws in Hx by exact Hi. rewrite iws_rest_stop in Hx by lia.
    unfold block_labels; fold (label_item U). rewrite many0_eq by apply wf_upto_of, wf_label_item. unfold label_item at 1. rewrite iws_m, wrap_iws, Hx.
    unfold block_label. rewrite alt_err by (apply pmap_err, identifier_first_err; rewrite id_first_ascii by lia; reflexivity).
    unfold pmap. rewrite (proj2 (HLab _) Hr). destruct K; reflexivity.
  - rewrite iws_rest_iws in Hx by exact Hi. rewrite (GLabel_ws U _ _ _ Hl) in Hx.
    assert (El : label_item U x = Ok (iws_rest s') l).
    { unfold label_item. rewrite iws_m, wrap_iws, Hx. apply block_label_ok in Hl. rewrite Hl. reflexivity. }
    specialize (IH Hr (iws_rest s') (iws_rest_idem s')). unfold block_labels in *; fold (label_item U) in *.
    rewrite many0_eq by apply wf_upto_of, wf_label_item. rewrite El.
    assert (Hne : iws_rest s' <> x).
    { intros Heq. apply GLabel_len in Hl. pose proof (suffix_len _ _ (iws_rest_suffix s')).
      pose proof (suffix_len _ _ (iws_rest_suffix x)) as H3. rewrite Hx in H3. rewrite Heq in H. lia. }
    apply str_eqb_neq in Hne. rewrite Hne, IH. destruct K; reflexivity.
Qed.
Lemma labels_not_eq_quote ls s r : GLabels U ls s r -> FirstIs 34 r -> ~ FirstIs 61 (iws_rest s).
Proof.
  intros [i r' Hi|l ls' i s0 s' r' Hi Hl HL] [q Hq]; rewrite iws_rest_iws by exact Hi.
  - subst. rewrite iws_rest_stop by lia. intros [q' [=]].
  - rewrite (GLabel_ws U _ _ _ Hl). apply GLabel_first in Hl as (c & s'' & -> & H).
    intros [q' [= -> _]]. destruct H as [H|H]; [apply id_first_not in H; lia|lia].
Qed.
Lemma meets_body_halts :
  (forall s, MeetsElem U T L s -> ws_rest s = s /\ body_element U (body U) s = Halt) /\
  (forall s, MeetsBody U T L s -> forall x, ws_rest x = ws_rest s -> body U x = Halt).
Proof.
  apply meets_body_mut.
  - intros s H. destruct (MeetsAttr_ws s H) as [H1 H2]. split; [exact H1|]. apply (alt_halt_l K), (pmap_halt K). eapply attr_halts; eassumption.
  - intros t ls s s' s2 Ht HL Hs2. destruct (GIdent_ws _ _ _ _ Ht) as [H1 H2]. split; [exact H1|]. unfold body_element.
    destruct (label_first s2 Hs2) as (q & Eq).
    rewrite alt_err by (apply pmap_err; eapply attribute_no_eq; [exact Ht|eapply labels_not_eq_quote; [exact HL|exists q; exact Eq]]).
    apply (alt_halt_l K). unfold one_line_block. rewrite iws_m, wrap_iws, H2. apply identifier_ok in Ht. rewrite Ht. cbn [bind].
    rewrite wrap_iws, (labels_halt _ _ _ HL Hs2 _ (iws_rest_idem s')). destruct K; reflexivity.
  - intros t ls i1 s s' s2 Hi1 Ht HL Ha. destruct (GIdent_ws _ _ _ _ Ht) as [H1 H2]. split; [exact H1|]. unfold body_element.
    rewrite alt_err by (apply pmap_err; eapply attribute_no_eq; [exact Ht|eapply labels_not_eq; [exact HL|eexists; reflexivity]]).
    apply (alt_halt_l K). rewrite (one_line_block_head U _ _ _ _ _ Ht HL). rewrite iws_rest_iws by exact Hi1.
    destruct (MeetsAttr_ws _ Ha) as [Ha1 Ha2]. rewrite Ha2. unfold one_line_block_body, opt. rewrite (attr_halts _ _ Ha Ha2). destruct K; reflexivity.
  - intros t ls i1 n s s' s2 Hi1 Hn Ht HL _ HB. destruct (GIdent_ws _ _ _ _ Ht) as [H1 H2]. split; [exact H1|]. unfold body_element.
    rewrite alt_err by (apply pmap_err; eapply attribute_no_eq; [exact Ht|eapply labels_not_eq; [exact HL|eexists; reflexivity]]).
    destruct (LineEnd_first n s2 Hn) as (c & q & Ec & Hc).
    rewrite alt_err.
    + rewrite (block_head U _ _ _ _ _ Ht HL). rewrite iws_rest_iws by exact Hi1. rewrite iws_rest_LineEnd by exact Hn.
      destruct (newline_complete n s2 Hn) as (r4 & v4 & H4 & H5). rewrite H4. cbn [bind].
      rewrite (HB (iws_rest r4)) by (rewrite ws_rest_iws_rest; exact H5). destruct K; reflexivity.
    + rewrite (one_line_block_head U _ _ _ _ _ Ht HL). rewrite iws_rest_iws by exact Hi1. rewrite iws_rest_LineEnd by exact Hn.
      unfold one_line_block_body. rewrite opt_none.
      * cbn [bind]. rewrite iws_rest_LineEnd by exact Hn. rewrite Ec. rewrite tag_first by lia. reflexivity.
      * eapply attribute_first_err; [rewrite iws_rest_LineEnd by exact Hn; exact Ec|apply id_first_not_eol, Hc].
  - intros w s Hw _ [Hs H] x Hx. rewrite ws_rest_ws, Hs in Hx by exact Hw. rewrite body_unfold, many0_item.
    unfold body_item at 1. rewrite wrap_ws, Hx. unfold terminated. rewrite H. destruct K; reflexivity.
  - intros el w i n s s2 Hw Hi He Hn _ H x Hx. destruct (proj1 (body_complete_mut U) _ _ _ He) as (Hl & Hs & HRe).
    rewrite ws_rest_ws, Hs in Hx by exact Hw.
    destruct (newline_complete n s2 Hn) as (r1 & v & H1 & H2).
    assert (Hit : body_item U x = Ok r1 el).
    { unfold body_item. rewrite wrap_ws, Hx. unfold terminated. rewrite HRe. cbn [bind].
      rewrite iws_rest_iws by exact Hi. rewrite iws_rest_LineEnd by exact Hn.
      rewrite (alt_ok_l _ _ _ r1 []); [reflexivity|]. apply (pmap_ok (fun _ => @nil char)) in H1. exact H1. }
    specialize (H r1 H2). rewrite body_unfold in H. rewrite body_unfold, many0_item, Hit.
    assert (Hne : r1 <> x).
    { intros ->. pose proof (suffix_len _ _ (ws_rest_suffix x)) as H3. rewrite Hx in H3.
      pose proof (wf_newline (n ++ s2)) as Hg. rewrite H1 in Hg. apply suffix_len in Hg. rewrite app_length in Hl. lia. }
    apply str_eqb_neq in Hne. rewrite Hne.
    destruct (many0 (body_item U) r1) as [r2 b2| |q| |]; cbn [bind map_res] in *; try (no H); destruct K; cbn in *; congruence.
Qed.

(** ** Panic implies met *)
Lemma SoundAll n : SoundBelow U n.
Proof. intros s r e _ H. apply expression_sound, H. Qed.
Lemma MeetsExpr_term s : MeetsExpr U T s -> ws_rest s = s -> MeetsTerm U T s.
Proof.
  intros [s' H|w s' Hw Hf H] Hs; [exact H|].
  rewrite ws_rest_ws in Hs by exact Hw. destruct (MeetsTerm_ws _ H) as [H1 _].
  rewrite H1 in Hs. assert (w = []) as ->; [|exact H].
  apply (f_equal (@length _)) in Hs. rewrite app_length in Hs. destruct w; [reflexivity|cbn in Hs; lia].
Qed.
Lemma MeetsMembers_ws w s : Ws w -> MeetsMembers U T s -> MeetsMembers U T (w ++ s).
Proof.
  intros Hw H. destruct H as [w' s Hw' H|k w' i1 i2 s s' Hw' H1 H2 Hk He|k e w' i1 i2 i3 s s' s3 s4 Hw' H1 H2 H3 Hk He Hs Hl]; rewrite app_assoc.
  - apply MM_key; [apply (Ws_app _ _ Hw Hw')|exact H].
  - eapply MM_value; [apply (Ws_app _ _ Hw Hw')|exact H1|exact H2|exact Hk|exact He].
  - eapply MM_next; [apply (Ws_app _ _ Hw Hw')|exact H1|exact H2|exact H3|exact Hk|exact He|exact Hs|exact Hl].
Qed.

Definition MetBelow (n : nat) : Prop := forall s, (length s < n)%nat -> E s = Halt -> MeetsExpr U T s.
Lemma sep_met n : MetBelow n -> forall k s, (length s <= k)%nat -> (length s < n)%nat ->
  sep_rest (wrap whitespace (char_p c_comma)) (wrap whitespace E) s = Halt ->
  exists w s', Ws w /\ s = w ++ [44] ++ s' /\ MeetsItems U T s'.
Proof.
  intros HM. induction k as [|k IH]; intros s Hk Hn H; rewrite sep_rest_unfold in H.
  - destruct s; [|cbn in Hk; lia]. cbn in H. no H.
  - destruct (simple_char c_comma (ws_rest s)) as [(s2 & c & Ec)|Ec]; rewrite Ec in H; [|no H].
    apply char_p_ok in Ec as [Ec _]. destruct (ws_split s) as (w1 & Hw1 & Es).
    pose proof (suffix_len _ _ (ws_rest_suffix s)) as Hl. rewrite Ec in Hl. cbn in Hl.
    pose proof (suffix_len _ _ (ws_rest_suffix s2)) as Hl2.
    exists w1, s2. split; [exact Hw1|]. split; [rewrite Es at 1; rewrite Ec; reflexivity|].
    destruct (ws_split s2) as (w2 & Hw2 & Es2).
    destruct (E (ws_rest s2)) as [s3 v| |q| |] eqn:Ev; try (no H).
    + pose proof (wf_expression U (ws_rest s2)) as Hg. rewrite Ev in Hg. cbn in Hg. apply suffix_len in Hg.
      destruct (Nat.eqb _ _); [no H|]. apply (map_res_halt K) in H.
      apply IH in H as (w3 & s' & Hw3 & -> & HI); [|lia|lia]. rewrite Es2. eapply MI_next; [exact Hw2|exact Hw3| |exact HI].
      apply expression_sound, Ev.
    + rewrite Es2. apply MI_here; [exact Hw2|]. apply HM; [lia|destruct K; cbn in *; congruence].
    + rewrite Es2. apply MI_here; [exact Hw2|]. apply HM; [lia|destruct K; cbn in *; congruence].
Qed.
Lemma tuple_met n s : MetBelow n -> (length s <= n)%nat -> tuple E s = Halt -> exists s1, s = 91 :: s1 /\ MeetsItems U T s1.
Proof.
  intros HM Hn H. unfold tuple, preceded in H. apply (bind_halt K) in H as [H|(s1 & v & H1 & H)]; [destruct (simple_halt K _ _ (simple_char _) H)|].
  apply char_p_ok in H1 as [-> _]. exists s1. split; [reflexivity|]. cbn in Hn.
  unfold terminated at 1 in H. apply (bind_halt K) in H as [H|(r1 & l & _ & H)].
  2:{ apply (bind_ret_halt K) in H. unfold terminated in H.
      apply (bind_halt K) in H as [H|(r2 & o & _ & H)].
      - apply (ws_m_halt K) in H. rewrite wrap_ws in H. destruct (simple_halt K _ _ (simple_opt _ (simple_char _)) H).
      - apply (bind_ret_halt K) in H. destruct (simple_halt K _ _ (simple_char _) H). }
  apply (ws_m_halt K) in H. rewrite separated_list_eq, wrap_ws in H.
  destruct (ws_split s1) as (w & Hw & Es). pose proof (suffix_len _ _ (ws_rest_suffix s1)) as Hl.
  destruct (E (ws_rest s1)) as [r2 v2| |q| |] eqn:Ev; try (no H).
  - destruct (Nat.eqb _ _); [no H|]. apply (map_res_halt K) in H.
    pose proof (wf_expression U (ws_rest s1)) as Hg. rewrite Ev in Hg. cbn in Hg. apply suffix_len in Hg.
    apply (sep_met n HM (length r2)) in H as (w2 & s' & Hw2 & -> & HI); [|lia|lia].
    rewrite Es. eapply MI_next; [exact Hw|exact Hw2| |exact HI]. apply expression_sound, Ev.
  - rewrite Es. apply MI_here; [exact Hw|]. apply HM; [lia|destruct K; cbn in *; congruence].
  - rewrite Es. apply MI_here; [exact Hw|]. apply HM; [lia|destruct K; cbn in *; congruence].
Qed.
Lemma sep_no_halt s : object_separator s <> Halt.
Proof.
  intros H. apply (alt_halt K) in H as [H|[_ H]]; [destruct (simple_halt K _ _ (simple_tag _) H)|].
  apply (alt_halt K) in H as [H|[_ H]]; apply (pmap_halt_inv K) in H; [destruct (simple_halt K _ _ simple_newline H)|destruct (simple_halt K _ _ (simple_peek _ (simple_char _)) H)].
Qed.
Lemma member_met n s : MetBelow n -> (length s < n)%nat -> member U s = Halt -> MeetsMembers U T s.
Proof.
  intros HM Hn H. unfold member in H. rewrite wrap_ws in H.
  destruct (ws_split s) as (w & Hw & Es). pose proof (suffix_len _ _ (ws_rest_suffix s)) as Hl0.
  unfold terminated in H. apply (bind_halt K) in H as [H|(r1 & ke & _ & H)].
  2:{ apply (bind_ret_halt K) in H. destruct (sep_no_halt _ H). }
  unfold object_element in H. apply (iws_m_halt K) in H. rewrite wrap_iws, iws_ws_rest in H.
  apply (bind_halt K) in H as [H|(q1 & k & Hk & H)].
  - apply (alt_halt K) in H as [H|[_ H]]; apply (pmap_halt_inv K) in H; [destruct (simple_halt K _ _ (simple_identifier U) H)|].
    unfold recognize in H. apply (bind_ret_halt K) in H.
    rewrite Es. apply MM_key; [exact Hw|]. apply MeetsExpr_term; [|apply ws_rest_idem]. apply HM; [lia|exact H].
  - pose proof (object_element_identifier_below U E n (wf_below_of _ _ (wf_expression U)) (ws_rest s) ltac:(lia)) as Hg.
    rewrite Hk in Hg. cbn in Hg. apply suffix_len in Hg.
    apply (key_sound U n) in Hk; [|apply SoundAll|lia|apply ws_rest_idem].
    apply (bind_halt K) in H as [H|(q2 & c & Hc & H)].
    { rewrite wrap_iws in H. destruct (simple_halt K _ _ (simple_char _) H). }
    rewrite wrap_iws in Hc. apply char_p_ok in Hc as [Hc _]. apply (bind_ret_halt K) in H. rewrite wrap_iws in H.
    pose proof (suffix_len _ _ (iws_rest_suffix q1)) as Hl1. rewrite Hc in Hl1. cbn in Hl1.
    pose proof (suffix_len _ _ (iws_rest_suffix q2)) as Hl2.
    destruct (iws_split q1) as (i1 & Hi1 & E1). destruct (iws_split q2) as (i2 & Hi2 & E2).
    rewrite Hc in E1. rewrite E1 in Hk. rewrite E2 in Hk. rewrite Es. eapply MM_value; [exact Hw|exact Hi1|exact Hi2|exact Hk|].
    apply HM; [lia|exact H].
Qed.
Lemma members_met n : MetBelow n -> forall k s, (length s <= k)%nat -> (length s < n)%nat ->
  many0 (member U) s = Halt -> MeetsMembers U T s.
Proof.
  intros HM. induction k as [|k IH]; intros s Hk Hn H; rewrite many0_member in H.
  - destruct s; [|cbn in Hk; lia]. cbn in H. no H.
  - pose proof (wf_member U s) as Hg.
    destruct (member U s) as [r1 [k1 e1]| |q| |] eqn:Em; try (no H); try (eapply member_met; [eassumption|eassumption|destruct K; cbn in *; congruence]).
    destruct (str_eqb r1 s) eqn:Eq; [no H|]. apply str_eqb_neq in Eq.
    cbn in Hg. pose proof (suffix_neq_len _ _ Hg Eq) as Hl. apply (map_res_halt K) in H.
    apply (member_sound U n) in Em; [|apply SoundAll|exact Hn].
    destruct Em as (w & i1 & i2 & i3 & s0 & s' & s3 & s4 & w2 & -> & Hw & Hi1 & Hi2 & Hi3 & Hkey & He & Hs & Hw2 & ->).
    eapply MM_next; [exact Hw|exact Hi1|exact Hi2|exact Hi3|exact Hkey|exact He|exact Hs|].
    apply MeetsMembers_ws; [exact Hw2|]. apply IH; [lia|lia|exact H].
Qed.
Lemma expr_met n : MetBelow n.
Proof.
  induction n as [|n IH]; [intros s H; lia|]. intros s Hs H. rewrite expression_eq in H. unfold expression_step in H.
  apply (alt_halt K) in H as [H|[_ H]]; [apply (pmap_halt_inv K) in H; destruct (simple_halt K null _ (simple_pmap _ _ (simple_tag _)) H)|].
  apply (alt_halt K) in H as [H|[_ H]]; [apply (pmap_halt_inv K) in H; destruct (simple_halt K _ _ simple_number H)|].
  apply (alt_halt K) in H as [H|[_ H]]; [apply (pmap_halt_inv K) in H; destruct (simple_halt K boolean _ (simple_alt _ _ (simple_pmap _ _ (simple_tag _)) (simple_pmap _ _ (simple_tag _))) H)|].
  apply (alt_halt K) in H as [H|[_ H]].
  { apply (pmap_halt_inv K) in H. apply ME_term, MT_here, HT, H. }
  apply (alt_halt K) in H as [H|[_ H]].
  { apply (pmap_halt_inv K) in H. apply (tuple_met n) in H as (s1 & -> & H); [|exact IH|lia]. apply ME_term, (MT_tuple U T s1), H. }
  destruct (ws_split s) as (w & Hw & Es). pose proof (suffix_len _ _ (ws_rest_suffix s)) as Hl.
  apply (alt_halt K) in H as [H|[_ H]].
  { apply (pmap_halt_inv K) in H. unfold object in H. apply (bind_halt K) in H as [H|(r1 & c & H1 & H)].
    { apply (ws_m_halt K) in H. rewrite wrap_ws in H. destruct (simple_halt K _ _ (simple_char _) H). }
    rewrite ws_m, wrap_ws in H1. apply bind_ok in H1 as (s1 & c1 & H1 & H9). injection H9 as <- <-. apply char_p_ok in H1 as [H1 _].
    apply (bind_halt K) in H as [H|(r2 & l & _ & H)].
    2:{ apply (bind_ret_halt K) in H. destruct (simple_halt K _ _ (simple_char _) H). }
    apply (ws_m_halt K) in H. rewrite wrap_ws, ws_rest_idem in H. unfold object_body in H. apply (ws_m_halt K) in H. fold (member U) in H.
    rewrite H1 in Hl. cbn in Hl. pose proof (suffix_len _ _ (ws_rest_suffix s1)) as Hl1.
    destruct (ws_split s1) as (w1 & Hw1 & Es1). rewrite Es, H1.
    apply ME_lead; [exact Hw|left; eexists; reflexivity|]. apply (MT_object U T s1).
    rewrite Es1. apply MeetsMembers_ws; [exact Hw1|].
    apply (members_met n IH (length (ws_rest s1))); [lia|lia|exact H]. }
  unfold bracket_expression in H. change (lit "(") with [40] in H. apply (bind_halt K) in H as [H|(r1 & c & H1 & H)].
  { apply (ws_m_halt K) in H. rewrite wrap_ws in H. destruct (simple_halt K _ _ (simple_tag _) H). }
  rewrite ws_m, wrap_ws in H1. apply bind_ok in H1 as (s1 & c1 & H1 & H9). injection H9 as <- <-. apply tag1_ok in H1.
  apply (bind_halt K) in H as [H|(r2 & l & _ & H)].
  2:{ apply (bind_ret_halt K) in H. destruct (simple_halt K _ _ (simple_tag _) H). }
  apply (ws_m_halt K) in H. rewrite wrap_ws, ws_rest_idem in H.
  rewrite H1 in Hl. cbn in Hl. pose proof (suffix_len _ _ (ws_rest_suffix s1)) as Hl1.
  destruct (ws_split s1) as (w1 & Hw1 & Es1). rewrite Es, H1.
  apply ME_lead; [exact Hw|right; eexists; reflexivity|]. rewrite Es1. apply (MT_paren U T w1); [exact Hw1|]. apply IH; [lia|exact H].
Qed.
Theorem expression_halts s : E s = Halt <-> MeetsExpr U T s.
Proof. split; [apply (expr_met (S (length s))); lia|intros H; apply meets_expr_halts, H]. Qed.

(** ** Attributes, blocks and bodies *)
Lemma attr_met s : attribute U s = Halt -> MeetsAttr U T (iws_rest s).
Proof.
  unfold attribute. intros H. apply (iws_m_halt K) in H. rewrite wrap_iws in H.
  apply (bind_halt K) in H as [H|(r1 & i & H1 & H)]; [destruct (simple_halt K _ _ (simple_identifier U) H)|].
  apply identifier_ok in H1. rewrite wrap_iws in H. apply (bind_halt K) in H as [H|(r2 & c & H2 & H)]; [destruct (simple_halt K _ _ (simple_char _) H)|].
  apply char_p_ok in H2 as [H2 _]. apply (bind_ret_halt K) in H. rewrite wrap_iws in H. apply expression_halts in H.
  destruct (iws_split r1) as (i1 & Hi1 & E1). destruct (iws_split r2) as (i2 & Hi2 & E2). rewrite H2 in E1. rewrite E1, E2 in H1.
  exact (MA U T i i1 i2 _ _ Hi1 Hi2 H1 H).
Qed.
Lemma GLabels_iws ls w s r : Iws w -> GLabels U ls s r -> GLabels U ls (w ++ s) r.
Proof.
  intros Hw [i r' Hi|l ls' i s0 s' r' Hi Hl H2]; rewrite app_assoc.
  - apply GLs_nil, Iws_app; assumption.
  - eapply GLs_cons; [apply (Iws_app _ _ Hw Hi)|exact Hl|exact H2].
Qed.
Lemma labels_met s : block_labels U s = Halt -> exists ls r, GLabels U ls s r /\ L r.
Proof.
  unfold block_labels. fold (label_item U). remember (length s) as k eqn:Ek. revert s Ek. induction k as [k IH] using lt_wf_ind. intros s -> H.
  rewrite many0_eq in H by apply wf_upto_of, wf_label_item. pose proof (wf_label_item U s) as Hg.
  destruct (iws_rest_sound s) as (w & Hw & Es).
  assert (Hhere : label_item U s = Halt -> exists ls r, GLabels U ls s r /\ L r).
  { intros El. unfold label_item in El. apply (iws_m_halt K) in El. rewrite wrap_iws in El. apply (alt_halt K) in El as [El|[_ El]]; apply (pmap_halt_inv K) in El.
    - destruct (simple_halt K _ _ (simple_identifier U) El).
    - exists [], (iws_rest s). split; [rewrite Es at 1; apply GLs_nil, Hw|apply HLab, El]. }
  destruct (label_item U s) as [r v| |q| |] eqn:El; try (no H); try (apply Hhere; destruct K; cbn in *; congruence).
  destruct (str_eqb r s) eqn:Eq; [no H|]. apply str_eqb_neq in Eq. cbn in Hg. pose proof (suffix_neq_len _ _ Hg Eq) as Hl.
  apply (map_res_halt K) in H. destruct (IH _ Hl r eq_refl H) as (ls & r' & HLs & Hr). exists (v :: ls), r'. split; [|exact Hr].
  unfold label_item in El. rewrite iws_m, wrap_iws in El. apply bind_ok in El as (r0 & v0 & El & H9). injection H9 as <- ->.
  apply block_label_ok in El. rewrite Es. eapply GLs_cons; [exact Hw|exact El|].
  destruct (iws_rest_sound r0) as (w0 & Hw0 & E0). rewrite E0. apply GLabels_iws; assumption.
Qed.
(* the head of a block *)
Lemma head_met {A} (k : cow -> list label -> parser A) s :
  (let* (r1, t) := wrap inline_whitespace (identifier U) s in
   let* (r2, ls) := wrap inline_whitespace (block_labels U) r1 in
   let* (r3, _o) := wrap inline_whitespace (tag (lit "{")) r2 in k t ls r3) = Halt ->
  MeetsElem U T L (iws_rest s) \/
  exists t ls s' q, GIdent U t (iws_rest s) s' /\ GLabels U ls s' (123 :: q) /\ k t ls q = Halt.
Proof.
  change (lit "{") with [123]. rewrite wrap_iws. intros H.
  apply (bind_halt K) in H as [H|(r1 & t & H1 & H)]; [destruct (simple_halt K _ _ (simple_identifier U) H)|]. apply identifier_ok in H1.
  destruct (iws_rest_sound r1) as (w & Hw & Ew).
  rewrite wrap_iws in H. apply (bind_halt K) in H as [H|(r2 & ls & H2 & H)].
  { left. apply labels_met in H as (ls & r & HLs & Hr). refine (MEl_label U T L t ls _ r1 r H1 _ Hr). rewrite Ew. apply GLabels_iws; assumption. }
  right. rewrite wrap_iws in H. apply (bind_halt K) in H as [H|(r3 & c & H3 & H)]; [destruct (simple_halt K _ _ (simple_tag _) H)|].
  apply tag1_ok in H3. exists t, ls, r1, r3. split; [exact H1|]. split; [|exact H].
  apply (labels_sound U (length (iws_rest r1))) in H2; [|lia]. rewrite H3 in H2. rewrite Ew. apply GLabels_iws; assumption.
Qed.
Lemma one_line_met s : one_line_block U s = Halt -> MeetsElem U T L (iws_rest s).
Proof.
  unfold one_line_block. intros H. apply (iws_m_halt K) in H.
  apply (head_met (fun t ls r3 => let* (r4, a) := wrap inline_whitespace (one_line_block_body U) r3 in
    let* (r5, _c) := wrap inline_whitespace (tag (lit "}")) r4 in Ok r5 (new_one_line t ls a))) in H as [H|(t & ls & s' & q & Ht & HL & H)]; [exact H|].
  rewrite wrap_iws in H. apply (bind_halt K) in H as [H|(r4 & a & _ & H)].
  - assert (Ha : attribute U (iws_rest q) = Halt).
    { unfold one_line_block_body, opt in H. destruct (attribute U (iws_rest q)); try (no H); destruct K; cbn in *; congruence. }
    apply attr_met in Ha. rewrite iws_rest_idem in Ha. destruct (iws_rest_sound q) as (i1 & Hi1 & E1). rewrite E1 in HL.
    exact (MEl_one_line U T L t ls i1 _ _ _ Hi1 Ht HL Ha).
  - rewrite wrap_iws in H. apply (bind_ret_halt K) in H. destruct (simple_halt K _ _ (simple_tag _) H).
Qed.
Definition BodyMet (n : nat) : Prop := forall s, (length s < n)%nat -> body U s = Halt -> MeetsBody U T L s.
Lemma MeetsBody_ws w s : Ws w -> MeetsBody U T L s -> MeetsBody U T L (w ++ s).
Proof.
  intros Hw H. destruct H as [w' s Hw' H|el w' i n s s2 Hw' Hi He Hn H]; rewrite app_assoc.
  - apply MB_here; [apply (Ws_app _ _ Hw Hw')|exact H].
  - eapply MB_next; [apply (Ws_app _ _ Hw Hw')|exact Hi|exact He|exact Hn|exact H].
Qed.
Lemma block_met n s : BodyMet n -> (length s <= n)%nat -> block U (body U) s = Halt -> MeetsElem U T L (iws_rest s).
Proof.
  intros HM Hn H. unfold block in H. apply (iws_m_halt K) in H.
  apply (head_met (fun t ls r3 => let* (r4, _n) := wrap inline_whitespace newline r3 in
    let* (r5, b) := wrap inline_whitespace (body U) r4 in
    let* (r6, _c) := wrap inline_whitespace (tag (lit "}")) r5 in Ok r6 (Blk t ls b))) in H as [H|(t & ls & s' & q & Ht & HL & H)]; [exact H|].
  rewrite wrap_iws in H. apply (bind_halt K) in H as [H|(r4 & nl & H4 & H)]; [destruct (simple_halt K _ _ simple_newline H)|].
  apply newline_sound in H4 as (n0 & w0 & Hn0 & Hw0 & H4); [|apply iws_rest_idem].
  rewrite wrap_iws in H. apply (bind_halt K) in H as [H|(r5 & b & _ & H)].
  2:{ rewrite wrap_iws in H. apply (bind_ret_halt K) in H. destruct (simple_halt K _ _ (simple_tag _) H). }
  destruct (iws_rest_sound q) as (i1 & Hi1 & E1). destruct (iws_rest_sound r4) as (i4 & Hi4 & E4).
  pose proof (GLabels_lt _ _ _ _ _ _ Ht HL) as L1. pose proof (suffix_len _ _ (iws_rest_suffix s)) as L0. cbn in L1.
  pose proof (suffix_len _ _ (iws_rest_suffix q)) as L4. pose proof (suffix_len _ _ (iws_rest_suffix r4)) as L5.
  rewrite H4, !app_length in L4. apply HM in H; [|lia]. rewrite E1, H4 in HL.
  refine (MEl_block U T L t ls i1 n0 _ _ (w0 ++ r4) Hi1 Hn0 Ht HL _).
  apply MeetsBody_ws; [exact Hw0|]. rewrite E4. apply MeetsBody_ws; [apply Iws_Ws, Hi4|exact H].
Qed.
Lemma BodySoundAll n : BodySound U n.
Proof. intros s r b _ H. apply body_sound, H. Qed.
Lemma items_met n : BodyMet n -> forall k s, (length s <= k)%nat -> (length s <= n)%nat ->
  many0 (body_item U) s = Halt -> MeetsBody U T L s.
Proof.
  intros HM. induction k as [|k IH]; intros s Hk Hn H; rewrite many0_item in H.
  - destruct s; [|cbn in Hk; lia]. cbn in H. no H.
  - pose proof (wf_body_item U s) as Hg.
    assert (Hc : body_item U s = Halt \/ exists r1 el, body_item U s = Ok r1 el).
    { destruct (body_item U s) as [r1 el| |q| |]; eauto; try (no H); left; destruct K; cbn in *; congruence. }
    destruct Hc as [El|(r1 & el & El)]; rewrite El in H; [clear H Hg|].
    2:{ destruct (str_eqb r1 s) eqn:Eq; [no H|]. rewrite El in Hg. apply str_eqb_neq in Eq.
      cbn in Hg. pose proof (suffix_neq_len _ _ Hg Eq) as Hl. apply (map_res_halt K) in H.
      apply (item_sound U n) in El; [|apply BodySoundAll|exact Hn].
      destruct El as (w & i & s0 & s1 & s2 & w2 & -> & Hw & Hi & He & Hs & Hw2 & ->).
      destruct Hs as [(n0 & Hn0 & ->)|[-> Hs2]].
      * eapply MB_next; [exact Hw|exact Hi|exact He|exact Hn0|]. apply MeetsBody_ws; [exact Hw2|]. apply IH; [lia|lia|exact H].
      * apply app_eq_nil in Hs2 as [-> ->]. no H. }
    { unfold body_item in El. rewrite wrap_ws in El. destruct (ws_rest_sound s) as (w & Hw & Es). pose proof (suffix_len _ _ (ws_rest_suffix s)) as Hl.
      unfold terminated in El. apply (bind_halt K) in El as [El|(r1 & el & _ & El)].
      * assert (HE : MeetsElem U T L (iws_rest (ws_rest s))).
        { apply (alt_halt K) in El as [El|[_ El]]; [apply (pmap_halt_inv K) in El; apply MEl_attr, attr_met, El|].
          apply (alt_halt K) in El as [El|[_ El]]; [apply one_line_met, El|]. eapply block_met; [exact HM|lia|exact El]. }
        rewrite iws_ws_rest in HE. rewrite Es. apply MB_here; assumption.
      * apply (bind_ret_halt K) in El. apply (alt_halt K) in El as [El|[_ El]].
        -- apply (pmap_halt_inv K) in El. destruct (simple_halt K _ _ simple_newline El).
        -- destruct r1; no El. }
Qed.
Lemma body_met n : BodyMet n.
Proof.
  induction n as [|n IH]; [intros s H; lia|]. intros s Hs H. rewrite body_unfold in H.
  apply (bind_ret_halt K) in H. apply (items_met n IH (length s)); [lia|lia|exact H].
Qed.
Theorem body_halts s : body U s = Halt <-> MeetsBody U T L s.
Proof. split; [apply (body_met (S (length s))); lia|intros H; apply (proj2 meets_body_halts s H s eq_refl)]. Qed.

End Stop.

(** ** The two kinds *)
Lemma no_literal_panic s : string_literal s = stopped SPanic <-> False.
Proof. split; [|tauto]. intros H. destruct (string_literal_outcome s) as [(r & v & E')|[E'|(? & E')]]; cbn in H; congruence. Qed.
Theorem parse_str_panics s : parse_str U s = PanicR <-> MeetsHeredoc U s.
Proof.
  unfold MeetsHeredoc. rewrite <- (body_halts SPanic (BadHeredoc U) (fun _ => False) string_bad_heredoc no_literal_panic).
  unfold parse_str, config_file, exact, terminated.
  destruct (body U s) as [[|c r] v| | | |]; cbn [bind eof stopped]; split; intros H; try discriminate; reflexivity.
Qed.
Theorem expression_panics s : E s = Panic <-> ExprMeetsHeredoc U s.
Proof. exact (expression_halts SPanic (BadHeredoc U) (fun _ => False) string_bad_heredoc no_literal_panic s). Qed.
Theorem expression_parse_panics s : expression_parse U s = PanicR <-> ExprMeetsHeredoc U s.
Proof.
  rewrite <- expression_panics. unfold expression_parse.
  destruct (expression U s) as [[|c r] v| | | |]; split; intros H; try discriminate; reflexivity.
Qed.
Theorem config_file_fails q s : config_file U s = Fail q <-> MeetsEscape U q s.
Proof.
  unfold MeetsEscape. rewrite <- (body_halts (SFail q) (BadEscape Plain q) (BadEscape PlainLine q) (string_bad_escape q) (literal_bad q)).
  unfold config_file, exact, terminated.
  destruct (body U s) as [[|c r] v| | | |]; cbn [bind eof stopped]; split; intros H; try discriminate; assumption.
Qed.
Theorem expression_fails q s : E s = Fail q <-> ExprMeetsEscape U q s.
Proof. exact (expression_halts (SFail q) (BadEscape Plain q) (BadEscape PlainLine q) (string_bad_escape q) (literal_bad q) s). Qed.
End WithTables.
