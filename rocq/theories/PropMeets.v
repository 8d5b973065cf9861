(** * Property theorems: exactly which documents panic, which are errors and which parse (C89) *)
From Verif Require Import Base Ast Grammar Nom Lex Parser ParserFacts ExprProofs BodyProofs DocProofs PanicProofs
  MoreProofs MeetsSpec MeetsProofs.

(** C89: reading a document panics exactly when the reader, going through well-formed
    syntax, meets a "<<-" heredoc whose content cannot be unindented as far as its closing
    marker ([MeetsSpec.v]); what follows that heredoc is irrelevant. *)
Theorem C89_parse_str_panics : forall U s, parse_str U s = PanicR <-> MeetsHeredoc U s.
Proof. exact parse_str_panics. Qed.
Theorem C89_expression_panics : forall U s, expression_parse U s = PanicR <-> ExprMeetsHeredoc U s.
Proof. exact expression_parse_panics. Qed.
(** The outcomes are a tree, a panic and an error; the last one when the document is neither
    in the grammar nor meets a bad heredoc. *)
Theorem C89_parse_str_errors : forall U s, (exists e, parse_str U s = ErrR e) <->
  (forall b, ~ GConfig U b s) /\ ~ MeetsHeredoc U s.
Proof.
  intros U s. rewrite <- parse_str_panics.
  assert (HE : (forall b, ~ GConfig U b s) <-> forall b, parse_str U s <> OkR b).
  { split; intros H b Hb; apply (H b), parse_str_spec, Hb. }
  rewrite HE. split; [intros (e & ->); split; [intros b|]; discriminate|intros [H1 H2]].
  pose proof (parse_str_total U s) as H3.
  destruct (parse_str U s) as [b|e| |]; try congruence; eauto.
Qed.
(** The error says which: a bad escape sequence, with the text after the backslash, or a
    parse error (its place: C101). *)
Theorem C89_parse_str_outcomes : forall U s,
  (exists b, parse_str U s = OkR b /\ GConfig U b s /\ ~ MeetsHeredoc U s /\ forall p, ~ MeetsEscape U p s) \/
  (parse_str U s = PanicR /\ MeetsHeredoc U s /\ (forall b, ~ GConfig U b s) /\ forall p, ~ MeetsEscape U p s) \/
  (exists p, parse_str U s = ErrR (RCodePoint p) /\ MeetsEscape U p s /\ (forall b, ~ GConfig U b s) /\ ~ MeetsHeredoc U s) \/
  (exists rest, parse_str U s = ErrR (RParse rest) /\ (forall b, ~ GConfig U b s) /\ ~ MeetsHeredoc U s /\ forall p, ~ MeetsEscape U p s).
Proof.
  intros U s. pose proof (parse_str_panics U s) as HP.
  pose proof (fun b => parse_str_spec U s b) as HG. pose proof (parse_str_total U s) as H3. pose proof (parse_str_no_bug U s) as H4.
  assert (HE : forall p, MeetsEscape U p s <-> config_file U s = Fail p) by (intros p; symmetry; apply config_file_fails).
  unfold parse_str in *. destruct (config_file U s) as [[|c r] b| |q| |] eqn:Ec; try congruence.
  - left. exists b. split; [reflexivity|]. split; [apply HG; reflexivity|]. split; [rewrite <- HP; discriminate|]. intros p. rewrite HE. discriminate.
  - right. right. right. eexists. split; [reflexivity|]. split; [intros b; rewrite <- HG; discriminate|]. split; [rewrite <- HP; discriminate|].
    intros p. rewrite HE. discriminate.
  - right. right. left. exists q. split; [reflexivity|]. split; [apply HE; reflexivity|]. split; [intros b; rewrite <- HG; discriminate|].
    rewrite <- HP. discriminate.
  - right. left. split; [reflexivity|]. split; [apply HP; reflexivity|]. split; [intros b; rewrite <- HG; discriminate|]. intros p. rewrite HE. discriminate.
Qed.
Theorem C89_expression_outcomes : forall U s,
  (exists e, expression_parse U s = OkR e /\ GExpr U e s []) \/
  (exists e r, expression_parse U s = ErrR (RRemaining r) /\ r <> [] /\ GExpr U e s r) \/
  (expression_parse U s = PanicR /\ ExprMeetsHeredoc U s) \/
  (exists p, expression_parse U s = ErrR (RCodePoint p) /\ ExprMeetsEscape U p s) \/
  (expression_parse U s = ErrR (RParse None) /\ (forall e r, ~ GExpr U e s r) /\ ~ ExprMeetsHeredoc U s /\ forall p, ~ ExprMeetsEscape U p s).
Proof.
  intros U s. pose proof (expression_parse_total U s) as H3. pose proof (expression_panics U s) as HP.
  pose proof (fun p => expression_fails U p s) as HF.
  assert (HG : forall e r, GExpr U e s r -> expression U s = Ok r e) by (intros e r H; apply expression_spec, H).
  unfold expression_parse in *. destruct (expression U s) as [[|c r] v| | | |] eqn:Ex.
  - left. exists v. split; [reflexivity|]. apply expression_spec, Ex.
  - right. left. exists v, (c :: r). split; [reflexivity|]. split; [discriminate|]. apply expression_spec, Ex.
  - right. right. right. right. split; [reflexivity|]. split; [intros e r H; apply HG in H; discriminate|].
    split; [intros H; apply HP in H; discriminate|intros p H; apply HF in H; discriminate].
  - right. right. right. left. eexists. split; [reflexivity|]. apply HF. reflexivity.
  - right. right. left. split; [reflexivity|]. apply HP. reflexivity.
  - destruct (H3 eq_refl).
Qed.
Print Assumptions C89_parse_str_panics.
Print Assumptions C89_expression_panics.
Print Assumptions C89_parse_str_errors.
Print Assumptions C89_parse_str_outcomes.
Print Assumptions C89_expression_outcomes.

(* a bad heredoc in an object in a tuple in a nested block, after good elements; then
   anything, even a syntax error *)
Definition meets_doc : str := lit "a = 1
b ""l"" {
  c = 2
  d {
    e = [1, { k = 2, f = <<-EOF
x
 EOF
) oops".
(* the same heredoc after a syntax error *)
Definition unreached_doc : str := lit "a = )
f = <<-EOF
x
 EOF
".
Example C89_nonvacuous :
  parse_str ascii_ucd meets_doc = PanicR /\ MeetsHeredoc ascii_ucd meets_doc /\
  parse_str ascii_ucd unreached_doc = ErrR (RParse (Some unreached_doc)) /\ ~ MeetsHeredoc ascii_ucd unreached_doc /\
  (forall b, ~ GConfig ascii_ucd b meets_doc) /\
  expression_parse ascii_ucd (lit "1 1") = ErrR (RRemaining (lit " 1")).
Proof.
  assert (H1 : parse_str ascii_ucd meets_doc = PanicR) by (vm_compute; reflexivity).
  assert (H2 : parse_str ascii_ucd unreached_doc = ErrR (RParse (Some unreached_doc))) by (vm_compute; reflexivity).
  split; [exact H1|]. split; [apply C89_parse_str_panics, H1|]. split; [exact H2|].
  split; [apply C89_parse_str_errors; eauto|]. split; [|vm_compute; reflexivity].
  intros b H. apply parse_str_spec in H. congruence.
Qed.
