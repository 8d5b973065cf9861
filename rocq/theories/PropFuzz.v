(** * PropFuzz: C106 - what the fuzz drivers find *)
From Verif Require Import Base Ast Grammar Nom NomFacts WsFacts NumFacts StrFacts HeredocFacts Lex Parser ParserFacts ExprProofs BodyProofs DocProofs
  MoreProofs PanicProofs MeetsSpec MeetsProofs PropMeets Utf8 IoSpec PropIo PropSyntax Fuzz.
From Coq Require Import Lia.

(** A crashing input: the UTF-8 text of a document in which the reader meets a heredoc that
    cannot be unindented ([MeetsSpec.v], C89) *)
Definition CrashInput (U : ucd) (data : list N) : Prop := exists s, IsStr s /\ data = utf8 s /\ MeetsHeredoc U s.

Lemma parse_str_no_divergence U s : parse_str U s <> Diverges.
Proof.
  unfold parse_str. pose proof (wf_terminated _ _ (wf_body U) wf_eof s) as H. unfold config_file, exact.
  destruct (terminated (body U) eof s) as [[|? ?] ?| | | |]; try discriminate. destruct H.
Qed.
Theorem C106_one : forall U data, (fuzz_one U data = Crashes <-> CrashInput U data) /\ (fuzz_one U data = Survives <-> ~ CrashInput U data).
Proof.
  intros U data.
  assert (H : fuzz_one U data = Crashes <-> CrashInput U data).
  { unfold fuzz_one, CrashInput. split.
    - destruct (from_utf8 data) as [s|] eqn:E; [|discriminate]. pose proof (C89_parse_str_panics U s) as HP. destruct (parse_str U s); try discriminate.
      intros _. exists s. apply (from_utf8_sound (length data)) in E; [|lia]. destruct E as [E ->]. split; [exact E|split; [reflexivity|apply HP; reflexivity]].
    - intros (s & Hs & -> & HM). rewrite from_utf8_complete by exact Hs. apply C89_parse_str_panics in HM. rewrite HM. reflexivity. }
  assert (Hh : fuzz_one U data <> Hangs).
  { unfold fuzz_one. destruct (from_utf8 data) as [s|]; [|discriminate]. pose proof (parse_str_no_divergence U s). destruct (parse_str U s); congruence. }
  split; [exact H|]. rewrite <- H. destruct (fuzz_one U data); split; congruence.
Qed.
Print Assumptions C106_one.
(** A run goes through the inputs until it meets the first crashing one. *)
Theorem C106_loop : forall U inputs data r, fuzz_loop U inputs = Some (data, r) <->
  r = Crashes /\ CrashInput U data /\ exists before after, inputs = before ++ data :: after /\ Forall (fun d => ~ CrashInput U d) before.
Proof.
  intros U inputs data r. induction inputs as [|d rest IH]; cbn [fuzz_loop].
  - split; [discriminate|]. intros (_ & _ & [|? ?] & ? & E & _); discriminate.
  - destruct (C106_one U d) as [Hc Hs]. destruct (fuzz_one U d) eqn:E.
    + rewrite IH. assert (Hd : ~ CrashInput U d) by (apply Hs; reflexivity). split; intros (Hr & Hx & b & a & Hi & Hb); (split; [exact Hr|split; [exact Hx|]]).
      * exists (d :: b), a. split; [cbn; congruence|constructor; assumption].
      * destruct b as [|x b]; [injection Hi as -> ->; contradiction|]. injection Hi as -> ->. inversion Hb; subst. eauto.
    + assert (Hd : CrashInput U d) by (apply Hc; reflexivity). split.
      * intros [= <- <-]. split; [reflexivity|split; [exact Hd|]]. exists [], rest. split; [reflexivity|constructor].
      * intros (-> & Hx & b & a & Hi & Hb). destruct b as [|x b]; [injection Hi as -> ->; reflexivity|]. injection Hi as -> ->. inversion Hb; subst. contradiction.
    + exfalso. destruct (C106_one U d) as [_ H1]. rewrite E in *. assert (~ CrashInput U d) as Hn by (intros Hq; apply Hc in Hq; discriminate). apply Hs in Hn. discriminate.
Qed.
Print Assumptions C106_loop.
Theorem C106_survives : forall U inputs, fuzz_loop U inputs = None <-> Forall (fun d => ~ CrashInput U d) inputs.
Proof.
  intros U inputs. induction inputs as [|d rest IH]; cbn [fuzz_loop]; [split; auto|].
  destruct (C106_one U d) as [Hc Hs]. destruct (fuzz_one U d) eqn:E.
  - rewrite IH. split; [constructor; [apply Hs; reflexivity|assumption]|intros H; inversion H; assumption].
  - split; [discriminate|]. intros H. inversion H; subst. exfalso. apply H2, Hc. reflexivity.
  - split; [discriminate|]. intros H. inversion H; subst. apply Hs in H2. discriminate.
Qed.
Print Assumptions C106_survives.
(** There are such inputs: an indented heredoc with a line shorter than its indentation.
    Bytes that are not UTF-8 are passed over. *)
Definition crasher : str := lit "a = <<-EOT
x
  EOT
".
Example C106_cases : fuzz_one ascii_ucd (utf8 crasher) = Crashes /\ fuzz_one ascii_ucd (utf8 (lit "a = 1")) = Survives /\
  fuzz_one ascii_ucd [255%N; 60%N] = Survives /\
  fuzz_loop ascii_ucd [utf8 (lit "a = 1"); [255%N]; utf8 crasher; utf8 (lit "b")] = Some (utf8 crasher, Crashes).
Proof. vm_compute. repeat split; reflexivity. Qed.
