(** * Property theorems: exactly what [value::from_str] does on every text (C90) *)
From Coq Require Import ZArith.
From Verif Require Import Base Nom NomFacts Ast Lex Grammar Parser ParserFacts MeetsSpec MeetsProofs PropMeets
  Kvp Value ValueSpec ValueProofs OldParser OldGrammar OldFacts OldProofs OldPanic OldMeetsSpec OldMeets PropOld.
Close Scope Z_scope.

(** C90: a text is a document of the grammar of values ([OldGrammar.v]), or its reader meets
    a heredoc that cannot be unindented ([OldMeetsSpec.v]), or neither; never two of
    them. *)
Theorem C90_classes : forall U s,
  (exists l, VDoc U l s /\ ~ VMeetsHeredoc U s) \/
  (VMeetsHeredoc U s /\ forall l, ~ VDoc U l s) \/
  (~ VMeetsHeredoc U s /\ forall l, ~ VDoc U l s).
Proof.
  intros U s. pose proof (old_body_panics U s) as HP.
  assert (HD : forall l, VDoc U l s -> old_body U s = Ok [] (Unmerged l)) by (intros l H; apply old_body_spec; eauto).
  destruct (old_body_cases U s) as [[m E]|[E|[(? & E)|E]]].
  - left. pose proof E as E'. apply old_body_spec in E' as (l & -> & H). exists l. split; [exact H|].
    intros HM. apply HP in HM. rewrite E in HM. discriminate.
  - right. right. split; [intros HM; apply HP in HM; rewrite E in HM; discriminate|]. intros l H. apply HD in H. congruence.
  - right. right. split; [intros HM; apply HP in HM; rewrite E in HM; discriminate|]. intros l H. apply HD in H. congruence.
  - right. left. split; [apply HP, E|]. intros l H. apply HD in H. congruence.
Qed.
(** What happens in each of the three cases, for every merge behaviour: a document gives
    itself, its merge, the conflict, or (not implemented) a panic; meeting a bad heredoc
    always panics; everything else is a parse error. *)
Theorem C90_document : forall U s l, VDoc U l s -> forall o,
  (from_str U s None o <-> o = VOk (Unmerged l)) /\
  (from_str U s (Some MBError) o <->
     (exists m, map_merge (Unmerged l) (MOk m) /\ o = VOk m) \/ (exists e, map_merge (Unmerged l) (MErr e) /\ o = VMergeErr e)) /\
  (from_str U s (Some MBTakeFirst) o <-> o = VPanic) /\ (from_str U s (Some MBTakeLast) o <-> o = VPanic).
Proof.
  intros U s l H o. assert (E : old_body U s = Ok [] (Unmerged l)) by (apply old_body_spec; eauto).
  unfold from_str. rewrite E. cbn [apply_merge]. split; [reflexivity|]. split; [|split; reflexivity]. split.
  - intros ([m|e] & Hm & ->); [left|right]; eauto.
  - intros [(m & Hm & ->)|(e & Hm & ->)]; eauto.
Qed.
Theorem C90_meets : forall U s, VMeetsHeredoc U s -> forall mb o, from_str U s mb o <-> o = VPanic.
Proof. intros U s H mb o. apply old_body_panics in H. unfold from_str. rewrite H. reflexivity. Qed.
(** Neither: an error, whatever the merge behaviour, which says whether the reader met a bad
    escape sequence, with the text after the backslash. *)
Theorem C90_neither : forall U s, ~ VMeetsHeredoc U s -> (forall l, ~ VDoc U l s) ->
  exists e, (forall mb o, from_str U s mb o <-> o = VErr e) /\
    ((exists p, e = RCodePoint p /\ VMeetsEscape U p s) \/ (exists rest, e = RParse rest /\ forall p, ~ VMeetsEscape U p s)).
Proof.
  intros U s Hm Hd. rewrite <- old_body_panics in Hm. unfold from_str. destruct (old_body_cases U s) as [[m E]|[E|[(p & E)|E]]]; rewrite E.
  - exfalso. apply old_body_spec in E as (l & _ & Hl). exact (Hd l Hl).
  - eexists. split; [intros; reflexivity|]. right. eexists. split; [reflexivity|]. intros p H. apply old_body_fails in H. congruence.
  - eexists. split; [intros; reflexivity|]. left. exists p. split; [reflexivity|]. apply old_body_fails, E.
  - congruence.
Qed.
(** So [from_str] without merging, and with [MergeBehaviour::Error], panics on exactly the
    texts that meet a bad heredoc. *)
Theorem C90_from_str_panics : forall U s mb, mb = None \/ mb = Some MBError -> (from_str U s mb VPanic <-> VMeetsHeredoc U s).
Proof.
  intros U s mb Hmb. destruct (C90_classes U s) as [(l & H & HN)|[[H _]|[H1 H2]]].
  - destruct (C90_document U s l H VPanic) as (HA & HB & _). split; [|contradiction]. intros HP. exfalso.
    destruct Hmb as [-> | ->]; [apply HA in HP; discriminate|]. apply HB in HP as [(m & _ & [=])|(e & _ & [=])].
  - rewrite (C90_meets U s H mb). tauto.
  - destruct (C90_neither U s H1 H2) as (e & HE & _). rewrite (HE mb). split; [discriminate|contradiction].
Qed.
Print Assumptions C90_classes.
Print Assumptions C90_document.
Print Assumptions C90_meets.
Print Assumptions C90_neither.
Print Assumptions C90_from_str_panics.

(* in a list in an object in a labelled block after good entries *)
Definition old_meets_doc : str := lit "a = 1, ""b"" = 2
c ""l"" {
  d { e = [1, { f = <<-EOF
x
 EOF
) oops".
Definition old_broken_doc : str := lit "a = )".
Example C90_nonvacuous :
  from_str ascii_ucd old_meets_doc None VPanic /\ VMeetsHeredoc ascii_ucd old_meets_doc /\
  VDoc ascii_ucd old_doc_value old_doc /\ ~ VMeetsHeredoc ascii_ucd old_doc /\
  ~ VMeetsHeredoc ascii_ucd old_broken_doc /\ (forall l, ~ VDoc ascii_ucd l old_broken_doc).
Proof.
  assert (H1 : old_body ascii_ucd old_meets_doc = Panic) by (vm_compute; reflexivity).
  assert (H2 : old_body ascii_ucd old_broken_doc = Err) by (vm_compute; reflexivity).
  pose proof old_doc_parses as H3.
  split; [unfold from_str; rewrite H1; reflexivity|]. split; [apply old_body_panics, H1|].
  split. { apply old_body_spec in H3 as (l & [= <-] & H). exact H. }
  split; [rewrite <- old_body_panics; congruence|]. split; [rewrite <- old_body_panics; congruence|].
  intros l Hl. assert (E : old_body ascii_ucd old_broken_doc = Ok [] (Unmerged l)) by (apply old_body_spec; eauto). congruence.
Qed.
