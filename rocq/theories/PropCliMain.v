(** * PropCliMain: C108 - what the command line tool says, and conversions between error types *)
From Verif Require Import Base Nom Lex Grammar Parser Utf8 IoSpec PropIo Kvp Value ValueSpec ValueProofs OldParser OldGrammar OldProofs PropOld PropValue Errors Cli PropCli.
From Verif Require Display PropDisplay.
From Verif Require Import CliMain.

(** The run prints one line and changes nothing else; exit code 1. *)
Definition Complains (w w2 : world) (code : N) (line : str) : Prop := code = 1 /\ w2 = World (files w) (stdout w ++ utf8 (lit "Error: " ++ line ++ [10])).

(** A name other than [parse] is refused. *)
Theorem C108_unknown : forall U debug nom_text bug io S w name args w2 code,
  ~ (name = lit "parse" /\ args <> None) ->
  (tool U debug nom_text bug io S w name args w2 code <-> Complains w w2 code (lit "Unknown command: " ++ name)).
Proof.
  intros U debug nom_text bug io S w name args w2 code Hn. split.
  - intros H. inversion H as [i o nm w' c E1 E2 E3|w' c E1 E2]; subst; [exfalso; apply Hn; split; [reflexivity|discriminate]|].
    cbn in E2. injection E2 as <- <-. split; reflexivity.
  - intros [-> ->]. apply Tool_unknown; [|reflexivity]. intros E. destruct args; [|reflexivity]. exfalso. apply Hn. split; [exact E|discriminate].
Qed.
Print Assumptions C108_unknown.

Lemma map_merge_det p res res' : map_merge p res -> map_merge p res' -> forall e, res = MErr e -> res' = MErr e.
Proof.
  intros H H' e ->. destruct (C48_map p) as (_ & HC & HF). destruct res' as [r|e'].
  - exfalso. assert (C : CanMergeMap p) by (apply HC; eauto). apply HF in H. exact (proj2 can_no_conflict p e C H).
  - f_equal. apply (proj2 conflict_det p); apply HF; assumption.
Qed.

(** An error outcome of [value::from_str] is the only one for that text. *)
Definition IsErr (o : voutcome) : Prop := match o with VErr _ | VMergeErr _ => True | _ => False end.
Lemma from_str_err_det U s mb o o' : from_str U s mb o -> IsErr o -> from_str U s mb o' -> o' = o.
Proof.
  unfold from_str. intros H He H'. destruct (old_body U s) as [[|c r] m| | | |]; try congruence.
  destruct mb as [[]|]; cbn in *; try congruence.
  destruct H as (res & H & ->), H' as (res' & H' & ->). destruct res as [r|e]; [destruct He|].
  rewrite (map_merge_det m _ _ H H' e eq_refl). reflexivity.
Qed.
(** What the tool says of an error outcome *)
Inductive Line (nom_text : option str -> str) (bug io : str) : voutcome -> str -> Prop :=
| L_parse rest : Line nom_text bug io (VErr (RParse rest)) (lit "Parser error: Generic Parse Error " ++ nom_text rest)
| L_escape t : Line nom_text bug io (VErr (RCodePoint t)) (lit "Parser error: Invalid Unicode Code Points \" ++ t)
| L_io : Line nom_text bug io (VErr RIo) (lit "Parser error: IO Error: " ++ io)
| L_twice k v n : PropDisplay.Named v n -> Line nom_text bug io (VMergeErr (IllegalMultipleEntries k v))
    (lit "Parser error: Variant " ++ n ++ lit " does not allow multiple values with the same key " ++ k)
| L_merge k a b n n' : PropDisplay.Named a n -> PropDisplay.Named b n' -> Line nom_text bug io (VMergeErr (ErrorMergingKeys k a b))
    (lit "Parser error: Error merging key " ++ k ++ lit " into `Value`: existing value of variant " ++ n ++
     lit " cannot be merged with variant " ++ n').
Lemma line_text nom_text bug io o line : Line nom_text bug io o line -> IsErr o /\ tool_text nom_text bug io (ParserError o) = line.
Proof.
  intros H. destruct H as [| | |k v n Hn|k a b n n' Hn Hn']; (split; [exact I|]); try reflexivity.
  - rewrite <- (PropDisplay.Named_name _ _ Hn). reflexivity.
  - rewrite <- (PropDisplay.Named_name _ _ Hn), <- (PropDisplay.Named_name _ _ Hn'). reflexivity.
Qed.
(** The wording of the crate's other errors, should one of them reach the tool: [value::from_reader] gives none of them (next lemma). *)
Theorem C108_other_errors : forall nom_text bug io t,
  tool_text nom_text bug io (ParserError (VErr (RRemaining t))) = lit "Parser error: Expected all input to be consumed, but the following remains: " ++ t /\
  tool_text nom_text bug io (ParserError (VErr RBug)) =
    lit "Parser error: Possible bug with the library encountered: " ++ bug ++ lit "; Please report to https://github.com/lawliet89/ferrous-chloride/issues" /\
  tool_text nom_text bug io (ParserError (VErr RUtf8)) = lit "Parser error: Bytes to be parsed is invalid UTF-8: " ++ io /\
  tool_text nom_text bug io IOError = lit "IO Error: " ++ io.
Proof. intros. repeat split. Qed.
Print Assumptions C108_other_errors.
(** Every error of a reader has a line. *)
Lemma reader_err_line U nom_text bug io ev mb o : from_reader U ev mb o -> IsErr o -> exists line, Line nom_text bug io o line.
Proof.
  unfold from_reader. destruct (read_to_string ev) as [b|]; [|intros ->; intros _; eexists; constructor].
  intros (o1 & H1 & H2). intros He. assert (E : o = o1) by (destruct o1; try exact H2; destruct H2 as (? & _ & ->); destruct He). subst o1.
  unfold from_str in H1. destruct (old_body_cases U b) as [[m E]|[E|[(p & E)|E]]]; rewrite E in H1; subst; try (destruct He; fail); try (eexists; constructor).
  destruct mb as [[]|]; cbn in H1; subst; try destruct He. destruct H1 as ([r|e] & _ & ->); [destruct He|]. destruct e as [k v|k a c].
  - destruct (PropDisplay.Named_all v) as [n Hn]. eexists. econstructor. exact Hn.
  - destruct (PropDisplay.Named_all a) as [n Hn]. destruct (PropDisplay.Named_all c) as [n' Hn']. eexists. econstructor; eassumption.
Qed.

(** A text on standard input that is rejected: every run says why, with the fixed wording,
    leaves every file alone and ends with 1; and there is such a run. *)
Theorem C108_rejected : forall U debug nom_text bug io S w s output no_merge o line,
  Delivers (stdin S) (utf8 s) -> IsStr s ->
  from_str U s (behaviour no_merge) o -> Line nom_text bug io o line ->
  forall w2 code, tool U debug nom_text bug io S w (lit "parse") (Some (lit "-", output, no_merge)) w2 code <-> Complains w w2 code line.
Proof.
  intros U debug nom_text bug io S w s output no_merge o line Hd Hs Ho HL w2 code. apply line_text in HL as [He <-].
  assert (Hr : read_to_string (stdin S) = Some s).
  { unfold read_to_string. apply read_to_end_delivers in Hd. rewrite Hd. apply from_utf8_complete. exact Hs. }
  assert (Hf : forall o', from_reader U (stdin S) (behaviour no_merge) o' <-> o' = o).
  { intros o'. unfold from_reader. rewrite Hr. split.
    - intros (o1 & H1 & H2). apply (from_str_err_det U s _ o o1 Ho He) in H1. subst o1. destruct o; destruct He; exact H2.
    - intros ->. exists o. split; [exact Ho|]. destruct o; destruct He; reflexivity. }
  split.
  - intros H. inversion H as [i o' nm w' c E1 E2 E3|w' c E1 E2]; subst; [|specialize (E1 eq_refl); discriminate].
    injection E2 as <- <- <-. inversion E3 as [w1 r w2' code' Hrun Hfin]; subst.
    inversion Hrun as [Hi|ev m w' res Hi Hm Hw|ev o' Hi Ho' H1 H2 H3|ev Hi Ho']; subst;
      inversion Hi as [Ei|path content ev' Hp _ _ _ Ei|path Hp _ Ei]; subst; try (elim Hp; reflexivity).
    + apply Hf in Hm. subst o. destruct He.
    + apply Hf in Ho'. subst o'. cbn in Hfin. injection Hfin as <- <-. split; reflexivity.
    + apply Hf in Ho'. subst o. destruct He.
  - intros [-> ->]. eapply Tool_parse; [reflexivity|reflexivity|]. apply (Cli_run _ _ _ _ _ _ _ _ w (CliErr (ParserError o))); [|reflexivity].
    apply (RP_parse_error U debug S w _ _ _ (stdin S) o); [constructor|apply Hf; reflexivity| | |]; destruct o; destruct He; discriminate.
Qed.
Print Assumptions C108_rejected.
(** Whatever ends with 1 has said one line last, and that line starts with the kind of problem. *)
Theorem C108_says_why : forall U debug nom_text bug io S w name args w2,
  tool U debug nom_text bug io S w name args w2 1 ->
  exists before line, stdout w2 = stdout w ++ before ++ utf8 (lit "Error: " ++ line ++ [10]) /\
    (line = lit "Unknown command: " ++ name \/ line = lit "IO Error: " ++ io \/
     exists input output no_merge ev o, args = Some (input, output, no_merge) /\ input_reader S w input (Some ev) /\
       from_reader U ev (behaviour no_merge) o /\ Line nom_text bug io o line /\ before = [] /\ forall f, files w2 f = files w f).
Proof.
  intros U debug nom_text bug io S w name args w2 H. inversion H as [i o' nm w' c E1 E2 E3|w' c E1 E2]; subst.
  - inversion E3 as [w1 r w2' code' Hrun Hfin]; subst. destruct r as [|e|]; cbn in Hfin; try discriminate. injection Hfin as <-.
    inversion Hrun as [Hi|ev m w' res Hi Hm Hw|ev o Hi Ho H1 H2 H3|ev Hi Ho]; subst.
    + exists [], (lit "IO Error: " ++ io). split; [reflexivity|]. right. left. reflexivity.
    + assert (G : exists before, stdout w1 = stdout w ++ before /\ e = IOError).
      { inversion Hw; subst; cbn; [eexists; split; reflexivity|exists []; split; [rewrite app_nil_r|]; reflexivity|exists []; split; [rewrite app_nil_r|]; reflexivity]. }
      destruct G as (before & G & ->). exists before, (lit "IO Error: " ++ io). split; [cbn; rewrite G, <- app_assoc; reflexivity|]. right. left. reflexivity.
    + assert (He : IsErr o) by (destruct o; try exact I; [elim (H1 m); reflexivity|elim H2; reflexivity|elim H3; reflexivity]).
      destruct (reader_err_line U nom_text bug io ev _ o Ho He) as [line HL]. exists [], line. cbn [app].
      split; [cbn; apply line_text in HL as [_ ->]; reflexivity|]. right. right. exists i, o', nm, ev, o. repeat (split; [first [reflexivity|assumption]|]). reflexivity.
  - cbn in E2. injection E2 as <-. exists [], (lit "Unknown command: " ++ name). split; [reflexivity|]. left. reflexivity.
Qed.
Print Assumptions C108_says_why.

(** ** Conversions between error types lose nothing. *)
Theorem C108_conversions : forall I U A B (io : I -> str) (u8 : U -> str) (ie : A -> str) (fe : B -> str),
  (forall e : Display.de_error_full I U A B, compat_into (compat_from e) = e /\ compat_deref (compat_from e) = e) /\
  (forall c : @compat I U A B, compat_from (compat_into c) = c) /\
  (forall e, Display.display_de io u8 ie fe (de_from_error e) = lit "HCL parse error: " ++ Display.display_error io u8 e) /\
  (forall e, @de_from_nom I U A B e = de_from_error e /\ compat_into (@compat_from_error I U A B e) = de_from_error e) /\
  (forall e, Display.display_de io u8 ie fe (de_from_int e) = lit "Error parsing integer: " ++ ie e) /\
  (forall e, Display.display_de io u8 ie fe (de_from_float e) = lit "Error parsing float: " ++ fe e) /\
  (forall msg, Display.display_de io u8 ie fe (compat_into (compat_custom msg)) = msg) /\
  (kind_to_u32 kind_from_utf8_error = 1 /\ kind_to_u32 kind_from_int_error = 2 /\ kind_to_u32 kind_from_float_error = 2).
Proof. intros I U A B io u8 ie fe. repeat split; try reflexivity; destruct c; reflexivity. Qed.
(** The default behaviour is that of the tool without [--no-merge]: conflicts are errors. *)
Theorem C108_default : forall U s o, from_str U s (Some default_behaviour) o <-> from_str U s (behaviour false) o.
Proof. reflexivity. Qed.

(** A document with a key written twice, on standard input *)
Definition twice : str := lit "a = 1
a = 2
".
Example C108_case :
  let S := System (fun _ => 0) (fun _ => true) (fun _ => true) [Chunk (utf8 twice)] in
  let w := World (fun _ => None) [] in
  let says := fun w2 code => Complains w w2 code (lit "Parser error: Variant Integer does not allow multiple values with the same key a") in
  (forall w2 code, tool ascii_ucd (fun _ => []) (fun _ => []) [] [] S w (lit "parse") (Some (lit "-", lit "out", false)) w2 code <-> says w2 code) /\
  exists w2, says w2 1.
Proof.
  cbv zeta. split; [|eexists; split; reflexivity].
  apply (C108_rejected ascii_ucd _ _ _ _ _ _ twice (lit "out") false (VMergeErr (IllegalMultipleEntries (lit "a") NInteger))).
  - apply read_to_end_delivers. vm_compute. reflexivity.
  - repeat constructor; lia.
  - assert (E : old_body ascii_ucd twice = Ok [] (Unmerged [(KeyIdent (lit "a"), VInteger 1); (KeyIdent (lit "a"), VInteger 2)])) by (vm_compute; reflexivity).
    unfold from_str. rewrite E. exists (MErr (IllegalMultipleEntries (lit "a") NInteger)). split; [|reflexivity].
    apply (C48_repeated_scalar [] (KeyIdent (lit "a")) (VInteger 1) [] (VInteger 2) []); [..|reflexivity]; try discriminate; auto.
    + constructor; [repeat constructor|]. intros k. unfold app. rewrite values_of_one. destruct (key_eqb _ _); [left; cbn; lia|left; cbn; lia].
    + apply CM_scalar. reflexivity.
  - apply (L_twice _ _ _ (lit "a") NInteger (lit "Integer")). constructor.
Qed.
