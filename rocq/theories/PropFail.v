(** * Property theorems: bad escape sequences end the reading at once (C93) *)
From Verif Require Import Base Ast Grammar Nom NomFacts WsFacts NumFacts StrFacts HeredocFacts Lex Parser ParserFacts ExprProofs BodyProofs DocProofs
  MoreProofs MeetsSpec MeetsProofs PropMeets NumConv Kvp Value OldParser OldGrammar OldFacts OldProofs OldPanic OldMeetsSpec OldMeets PropOld.

(** C93: [parser::config_file] gives [Err::Failure] - the error no alternative recovers
    from - exactly when the reader, going through well-formed syntax, meets a
    backslash in a quoted value or label with no escape sequence after it; the
    failure records the text after that backslash ([MeetsSpec.v]). *)
Theorem C93_config_file : forall U p s, config_file U s = Fail p <-> MeetsEscape U p s.
Proof. exact config_file_fails. Qed.
Theorem C93_expression : forall U p s, expression U s = Fail p <-> ExprMeetsEscape U p s.
Proof. exact expression_fails. Qed.
(** So the error of [parse_str], [Expression::parse] and [value::from_str] is
    [InvalidUnicodeCodePoint], with the text after that backslash, exactly then. *)
Theorem C93_parse_str : forall U p s, parse_str U s = ErrR (RCodePoint p) <-> MeetsEscape U p s.
Proof.
  intros U p s. rewrite <- config_file_fails. unfold parse_str. destruct (config_file U s) as [[|]| | | |]; split; congruence.
Qed.
Theorem C93_expression_parse : forall U p s, expression_parse U s = ErrR (RCodePoint p) <-> ExprMeetsEscape U p s.
Proof.
  intros U p s. rewrite <- expression_fails. unfold expression_parse. destruct (expression U s) as [[|]| | | |]; split; congruence.
Qed.
Theorem C93_value_from_str : forall U p s mb, from_str U s mb (VErr (RCodePoint p)) <-> VMeetsEscape U p s.
Proof.
  intros U p s mb. rewrite <- old_body_fails. unfold from_str. destruct (old_body U s) as [[|]| | | |]; split; try congruence.
  destruct mb as [[]|]; cbn; try discriminate. intros ([m'|e'] & _ & H); discriminate.
Qed.
(** The place is determined, and is the text after a backslash. *)
Theorem C93_place_unique : forall U p q s, MeetsEscape U p s -> MeetsEscape U q s -> p = q.
Proof. intros U p q s H H'. apply config_file_fails in H. apply config_file_fails in H'. congruence. Qed.
Lemma chars_suffix P v s r : GChars P v s r -> exists x, s = x ++ r.
Proof.
  induction 1 as [r|c v s r _ _ (x & ->)|n t v s r _ _ _ _ (x & ->)]; [exists []; reflexivity|exists (c :: x); reflexivity|].
  exists ([92] ++ t ++ x). rewrite <- !app_assoc. reflexivity.
Qed.
Definition After (p s : str) : Prop := exists x, s = x ++ [92] ++ p.
Lemma After_app w p s : After p s -> After p (w ++ s).
Proof. intros (x & ->). exists (w ++ x). rewrite <- app_assoc. reflexivity. Qed.
Lemma After_suffix p s s' : suffix s s' -> After p s -> After p s'.
Proof. intros (w & ->). apply After_app. Qed.
Lemma bad_after P p s : BadEscape P p s -> After p s.
Proof. intros (v & s' & -> & H & _). apply chars_suffix in H as (x & ->). exists ([34] ++ x). rewrite <- app_assoc. reflexivity. Qed.
Lemma ok_suffix {A} (f : parser A) s r v : wf f -> f s = Ok r v -> suffix r s.
Proof. intros Hw H. specialize (Hw s). rewrite H in Hw. exact Hw. Qed.
Lemma expr_suffix U e s r : GExpr U e s r -> suffix r s.
Proof. intros H. apply expression_spec in H. eapply ok_suffix; [apply wf_expression|exact H]. Qed.
Lemma ident_suffix U i s r : GIdent U i s r -> suffix r s.
Proof. intros (t & _ & -> & _). exists t. reflexivity. Qed.
Lemma key_suffix U k s r : GKey U k s r -> suffix r s.
Proof.
  intros H. destruct (proj2 (proj2 (proj2 (proj2 (expression_complete_mut U)))) _ _ _ H) as [_ Hk].
  eapply ok_suffix; [|exact Hk]. apply wf_alt; apply wf_pmap; [apply wf_identifier|apply wf_recognize, wf_expression].
Qed.
Lemma labels_suffix U ls s r : GLabels U ls s r -> suffix r s.
Proof.
  induction 1 as [i r _|l ls i s s' r _ Hl _ IH]; [exists i; reflexivity|]. eapply suffix_trans; [exact IH|].
  apply block_label_ok in Hl. eapply suffix_trans; [eapply ok_suffix; [apply wf_block_label|exact Hl]|exists i; reflexivity].
Qed.
Lemma elem_suffix U el s i n r : Iws i -> LineEnd n -> GElem U el s (i ++ n ++ r) -> suffix r s.
Proof.
  intros Hi Hn H. destruct (proj1 (body_complete_mut U) _ _ _ H) as (_ & _ & HR).
  rewrite iws_rest_iws, iws_rest_LineEnd in HR by assumption.
  eapply suffix_trans; [|eapply ok_suffix; [apply wf_body_element|exact HR]]. exists n. reflexivity.
Qed.
Lemma app_suffix (x y : str) : suffix y (x ++ y).
Proof. exists x. reflexivity. Qed.
Lemma meets_after U p :
  (forall s, MeetsTerm U (BadEscape Plain p) s -> After p s) /\ (forall s, MeetsExpr U (BadEscape Plain p) s -> After p s) /\
  (forall s, MeetsItems U (BadEscape Plain p) s -> After p s) /\ (forall s, MeetsMembers U (BadEscape Plain p) s -> After p s).
Proof.
  apply meets_mut; intros; repeat match goal with |- After _ (_ ++ _) => apply After_app end; try assumption.
  - eapply bad_after; eassumption.
  - eapply After_suffix; [|eassumption]. eapply suffix_trans; [|eapply expr_suffix; eassumption]. rewrite app_assoc. apply app_suffix.
  - eapply After_suffix; [|eassumption]. eapply suffix_trans; [|eapply key_suffix; eassumption]. rewrite !app_assoc. apply app_suffix.
  - eapply After_suffix; [|eassumption]. eapply suffix_trans; [|eapply key_suffix; eassumption]. rewrite !app_assoc.
    eapply suffix_trans; [|apply app_suffix]. eapply suffix_trans; [|eapply expr_suffix; eassumption].
    eapply suffix_trans; [|apply app_suffix]. destruct o as [->|[(n & _ & ->)|[-> _]]]; try apply app_suffix; apply suffix_refl.
Qed.
Lemma attr_after U p s : MeetsAttr U (BadEscape Plain p) s -> After p s.
Proof.
  intros [i i1 i2 s0 s' Hi1 Hi2 Hi He]. eapply After_suffix; [|apply meets_after in He; exact He].
  eapply suffix_trans; [|eapply ident_suffix, Hi]. rewrite !app_assoc. apply app_suffix.
Qed.
Theorem C93_place : forall U p s, MeetsEscape U p s -> exists x, s = x ++ [92] ++ p.
Proof.
  intros U p. enough (H : (forall s, MeetsElem U (BadEscape Plain p) (BadEscape PlainLine p) s -> After p s) /\
    (forall s, MeetsBody U (BadEscape Plain p) (BadEscape PlainLine p) s -> After p s)) by apply H.
  apply meets_body_mut; intros; repeat match goal with |- After _ (_ ++ _) => apply After_app end; try assumption.
  - apply attr_after with (U := U). assumption.
  - eapply After_suffix; [|eapply bad_after; eassumption]. eapply suffix_trans; [eapply labels_suffix; eassumption|eapply ident_suffix; eassumption].
  - eapply After_suffix; [|eapply attr_after; eassumption]. eapply suffix_trans; [|eapply ident_suffix; eassumption].
    eapply suffix_trans; [|eapply labels_suffix; eassumption]. rewrite !app_assoc. apply app_suffix.
  - eapply After_suffix; [|eassumption]. eapply suffix_trans; [|eapply ident_suffix; eassumption].
    eapply suffix_trans; [|eapply labels_suffix; eassumption]. rewrite !app_assoc. apply app_suffix.
  - eapply After_suffix; [|eassumption]. eapply elem_suffix; eassumption.
Qed.
(** Everything [config_file] can do; each of the four cases excludes the others. *)
Theorem C93_outcomes : forall U s,
  (exists b, config_file U s = Ok [] b /\ GConfig U b s /\ ~ MeetsHeredoc U s /\ forall p, ~ MeetsEscape U p s) \/
  (config_file U s = Panic /\ MeetsHeredoc U s /\ (forall b, ~ GConfig U b s) /\ forall p, ~ MeetsEscape U p s) \/
  (exists p, config_file U s = Fail p /\ MeetsEscape U p s /\ (forall b, ~ GConfig U b s) /\ ~ MeetsHeredoc U s) \/
  (config_file U s = Err /\ (forall b, ~ GConfig U b s) /\ ~ MeetsHeredoc U s /\ forall p, ~ MeetsEscape U p s).
Proof.
  intros U s. pose proof (config_file_fails U) as HF. pose proof (parse_str_panics U s) as HP.
  pose proof (fun b => parse_str_spec U s b) as HG. pose proof (parse_str_total U s) as H3. pose proof (parse_str_no_bug U s) as H4.
  assert (HE : forall p, MeetsEscape U p s <-> config_file U s = Fail p) by (intros p; symmetry; apply HF).
  unfold parse_str in *. destruct (config_file U s) as [[|c r] b| |q| |] eqn:Ec; try congruence.
  - left. exists b. split; [reflexivity|]. split; [apply HG; reflexivity|]. split; [rewrite <- HP; discriminate|]. intros p. rewrite HE. discriminate.
  - right. right. right. split; [reflexivity|]. split; [intros b; rewrite <- HG; discriminate|]. split; [rewrite <- HP; discriminate|].
    intros p. rewrite HE. discriminate.
  - right. right. left. exists q. split; [reflexivity|]. split; [apply HE; reflexivity|]. split; [intros b; rewrite <- HG; discriminate|].
    rewrite <- HP. discriminate.
  - right. left. split; [reflexivity|]. split; [apply HP; reflexivity|]. split; [intros b; rewrite <- HG; discriminate|]. intros p. rewrite HE. discriminate.
Qed.
(** The crate-internal parser behind [value::from_str] likewise ([OldMeetsSpec.v]). *)
Theorem C93_value_body : forall U p s, old_body U s = Fail p <-> VMeetsEscape U p s.
Proof. exact old_body_fails. Qed.
Theorem C93_value_body_outcomes : forall U s,
  (exists l, old_body U s = Ok [] (Unmerged l) /\ VDoc U l s /\ ~ VMeetsHeredoc U s /\ forall p, ~ VMeetsEscape U p s) \/
  (old_body U s = Panic /\ VMeetsHeredoc U s /\ (forall l, ~ VDoc U l s) /\ forall p, ~ VMeetsEscape U p s) \/
  (exists p, old_body U s = Fail p /\ VMeetsEscape U p s /\ (forall l, ~ VDoc U l s) /\ ~ VMeetsHeredoc U s) \/
  (old_body U s = Err /\ (forall l, ~ VDoc U l s) /\ ~ VMeetsHeredoc U s /\ forall p, ~ VMeetsEscape U p s).
Proof.
  intros U s. pose proof (old_body_panics U s) as HP.
  assert (HE : forall p, VMeetsEscape U p s <-> old_body U s = Fail p) by (intros p; symmetry; apply old_body_fails).
  assert (HD : forall l, VDoc U l s -> old_body U s = Ok [] (Unmerged l)) by (intros l H; apply old_body_spec; eauto).
  destruct (old_body_cases U s) as [[m E]|[E|[(q & E)|E]]].
  - left. pose proof E as E'. apply old_body_spec in E' as (l & -> & H). exists l. split; [exact E|]. split; [exact H|].
    split; [rewrite <- HP, E; discriminate|]. intros p. rewrite HE, E. discriminate.
  - right. right. right. split; [exact E|]. split; [intros l H; apply HD in H; congruence|]. split; [rewrite <- HP, E; discriminate|].
    intros p. rewrite HE, E. discriminate.
  - right. right. left. exists q. split; [exact E|]. split; [apply HE, E|]. split; [intros l H; apply HD in H; congruence|].
    rewrite <- HP, E. discriminate.
  - right. left. split; [exact E|]. split; [apply HP, E|]. split; [intros l H; apply HD in H; congruence|]. intros p. rewrite HE, E. discriminate.
Qed.
Print Assumptions C93_parse_str.
Print Assumptions C93_expression_parse.
Print Assumptions C93_value_from_str.
Print Assumptions C93_value_body.
Print Assumptions C93_value_body_outcomes.
Print Assumptions C93_config_file.
Print Assumptions C93_expression.
Print Assumptions C93_place_unique.
Print Assumptions C93_place.
Print Assumptions C93_outcomes.

(* in a label, in a value after good elements, in an object key; a surrogate; nothing but
   a backslash at the end of the document is an ordinary error *)
Example C93_nonvacuous :
  MeetsEscape ascii_ucd (lit "q"" {") (lit "a ""x"" ""\q"" {") /\
  MeetsEscape ascii_ucd (lit "uD800"" }") (lit "a = 1
b {
  c = [1, { k = 1, ""\uD800"" }") /\
  config_file ascii_ucd (lit "a = ""\") = Err /\
  config_file ascii_ucd (lit "a = ) ""\q""") = Err /\
  VMeetsEscape ascii_ucd (lit "z"" = 2") (lit "a = 1
""b"" = 2, ""\z"" = 2") /\
  VMeetsEscape ascii_ucd (lit "8"" { }") (lit "a ""x"" ""\8"" { }").
Proof.
  split; [|split]; [apply C93_config_file; vm_compute; reflexivity..|]. split; [vm_compute; reflexivity|]. split; [vm_compute; reflexivity|].
  split; apply C93_value_body; vm_compute; reflexivity.
Qed.
