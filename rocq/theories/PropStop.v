(** * Property theorems: the place a parse error names (C101) *)
From Verif Require Import Base Ast Grammar Nom NomFacts WsFacts Lex Parser ParserFacts ExprProofs BodyProofs DocProofs MoreProofs MeetsSpec MeetsProofs
  Serde Kvp Value OldParser OldGrammar OldFacts OldProofs OldPanic OldMeetsSpec OldMeets PropOld StopSpec StopProofs OldStop.

(** C101: when [parse_str] fails with a parse error, the text it names is exactly what
    follows the longest beginning of the document that is a sequence of elements
    ([StopSpec.v]); and it fails so exactly when there is such a place and the reader
    met neither a bad heredoc (a panic) nor a bad escape sequence (another error). *)
Theorem C101_parse_str : forall U s rest, parse_str U s = ErrR (RParse rest) <->
  exists r, rest = Some r /\ StopsAt U s r /\ ~ MeetsHeredoc U s /\ forall p, ~ MeetsEscape U p s.
Proof.
  intros U s rest. setoid_rewrite <- parse_str_panics.
  assert (HF : (forall p, ~ MeetsEscape U p s) <-> forall p, config_file U s <> Fail p).
  { split; intros H p Hp; apply (H p), config_file_fails, Hp. }
  setoid_rewrite HF. clear HF. unfold parse_str, config_file, exact, terminated, eof_rest.
  destruct (body U s) as [[|c r] b| |p| |] eqn:E; cbn [bind eof].
  - split; [discriminate|]. intros (r & _ & HS & _). destruct (stops_body U s r HS) as (b' & E'); try (rewrite E; discriminate).
    rewrite E in E'. injection E' as <- _. destruct HS as [H _]. congruence.
  - split.
    + intros [= <-]. exists (c :: r). split; [reflexivity|]. split; [apply (body_rest_stops U s _ b E); discriminate|]. split; [discriminate|]. intros p. discriminate.
    + intros (r' & -> & HS & _). destruct (stops_body U s r' HS) as (b' & E'); try (rewrite E; discriminate).
      rewrite E in E'. injection E' as -> _. reflexivity.
  - elim (body_no_err U s E).
  - split; [discriminate|]. intros (r & _ & _ & _ & H). elim (H p). reflexivity.
  - split; [discriminate|]. intros (r & _ & _ & H & _). elim H. reflexivity.
  - elim (body_no_fuel U s E).
Qed.
(** That place is determined by the text; it is a proper place in it, where no element line,
    white space or comment begins. *)
Theorem C101_unique : forall U s r r', StopsAt U s r -> StopsAt U s r' -> r = r'.
Proof.
  intros U s r r' (_ & (b & Hb) & Hm) (_ & (b' & Hb') & Hm'). apply Hm in Hb' as (w & ->). apply Hm' in Hb as (w' & E).
  apply (f_equal (@length char)) in E as E'. rewrite !app_length in E'. destruct w; [reflexivity|cbn in E'; lia].
Qed.
Theorem C101_place : forall U s r, StopsAt U s r ->
  (exists d, s = d ++ r) /\ r <> [] /\ ~ ElementLine U r /\ (forall w q, r = w ++ q -> Ws w -> w = []).
Proof.
  intros U s r H. destruct (stops_facts U s r H) as [H1 H2]. destruct H as (Hr & (b & Hb) & Hm).
  split; [|auto]. apply (Hm [] s). apply (GB_nil U []). constructor.
Qed.
(** So every document is exactly one of: a document of the grammar; one with a place where
    reading stops; or one that meets a bad heredoc or a bad escape sequence. *)
Theorem C101_total : forall U s, ~ MeetsHeredoc U s -> (forall p, ~ MeetsEscape U p s) ->
  (exists b, GConfig U b s) \/ exists r, StopsAt U s r.
Proof.
  intros U s H1 H2. destruct (body U s) as [[|c r] b| |p| |] eqn:E.
  - left. exists b. apply body_sound, E.
  - right. exists (c :: r). apply (body_rest_stops U s _ b E). discriminate.
  - elim (body_no_err U s E).
  - elim (H2 p). apply config_file_fails. unfold config_file, exact, terminated. rewrite E. reflexivity.
  - elim H1. apply parse_str_panics. unfold parse_str, config_file, exact, terminated. rewrite E. reflexivity.
  - elim (body_no_fuel U s E).
Qed.
(** The same for [value::from_str], whatever the merge behaviour: the longest beginning that
    is a sequence of entries with their separators. *)
Theorem C101_value_from_str : forall U s mb rest, OldParser.from_str U s mb (VErr (RParse rest)) <->
  exists r, rest = Some r /\ VStopsAt U s r /\ ~ VMeetsHeredoc U s /\ forall p, ~ VMeetsEscape U p s.
Proof.
  intros U s mb rest. setoid_rewrite <- old_body_panics.
  assert (HF : (forall p, ~ VMeetsEscape U p s) <-> forall p, old_body U s <> Fail p).
  { split; intros H p Hp; apply (H p), old_body_fails, Hp. }
  setoid_rewrite HF. clear HF. unfold OldParser.from_str, old_body, exact, terminated, eof_rest.
  destruct (map_values U s) as [[|c r] m| |p| |] eqn:E; cbn [bind eof].
  - split.
    + destruct mb as [[]|]; cbn; try discriminate. intros ([m'|e'] & _ & H); discriminate.
    + intros (r & _ & HS & _). destruct (stops_mv U s r HS) as (b' & E'); try (rewrite E; discriminate).
      rewrite E in E'. injection E' as <- _. destruct HS as [H _]. congruence.
  - split.
    + intros [= ->]. exists (c :: r). split; [reflexivity|]. split; [apply (mv_rest_stops U s _ m E); discriminate|]. split; [discriminate|]. intros p. discriminate.
    + intros (r' & -> & HS & _). destruct (stops_mv U s r' HS) as (b' & E'); try (rewrite E; discriminate).
      rewrite E in E'. injection E' as -> _. reflexivity.
  - elim (mv_no_err U s E).
  - split; [discriminate|]. intros (r & _ & _ & _ & H). elim (H p). reflexivity.
  - split; [discriminate|]. intros (r & _ & _ & H & _). elim H. reflexivity.
  - elim (map_values_no_fuel U s E).
Qed.
Theorem C101_value_unique : forall U s r r', VStopsAt U s r -> VStopsAt U s r' -> r = r'.
Proof.
  intros U s r r' (_ & (b & Hb) & Hm) (_ & (b' & Hb') & Hm'). apply Hm in Hb' as (w & ->). apply Hm' in Hb as (w' & E).
  apply (f_equal (@length char)) in E as E'. rewrite !app_length in E'. destruct w; [reflexivity|cbn in E'; lia].
Qed.
Theorem C101_value_place : forall U s r, VStopsAt U s r ->
  (exists d, s = d ++ r) /\ r <> [] /\ ~ EntryThen U r /\ (forall w q, r = w ++ q -> Ws w -> w = []).
Proof.
  intros U s r H. destruct (vstops_facts U s r H) as [H1 H2]. destruct H as (Hr & (b & Hb) & Hm).
  split; [|auto]. apply (Hm [] s). apply (VE_nil U []). constructor.
Qed.
Print Assumptions C101_parse_str.
Print Assumptions C101_unique.
Print Assumptions C101_place.
Print Assumptions C101_total.
Print Assumptions C101_value_from_str.
Print Assumptions C101_value_unique.
Print Assumptions C101_value_place.

(* the second line is fine, the third has two attributes: reading stops at its beginning,
   after the comment *)
Definition stop_doc : str := lit "a = 1
b { }
# note
c = 2 d = 3
e = 4
".
Definition stop_rest : str := lit "c = 2 d = 3
e = 4
".
Example C101_nonvacuous : parse_str ascii_ucd stop_doc = ErrR (RParse (Some stop_rest)) /\ StopsAt ascii_ucd stop_doc stop_rest /\
  OldParser.from_str ascii_ucd (lit "a = 1, b = 2 c = 3") None (VErr (RParse (Some (lit "b = 2 c = 3")))) /\
  VStopsAt ascii_ucd (lit "a = 1, b = 2 c = 3") (lit "b = 2 c = 3").
Proof.
  assert (H : parse_str ascii_ucd stop_doc = ErrR (RParse (Some stop_rest))) by (vm_compute; reflexivity).
  assert (H2 : OldParser.from_str ascii_ucd (lit "a = 1, b = 2 c = 3") None (VErr (RParse (Some (lit "b = 2 c = 3"))))) by (vm_compute; reflexivity).
  split; [exact H|]. split; [apply C101_parse_str in H as (r & [= <-] & H & _); exact H|]. split; [exact H2|].
  apply C101_value_from_str in H2 as (r & [= <-] & H2 & _). exact H2.
Qed.
