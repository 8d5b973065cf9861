(** * Property theorems: what more text can change for [value::from_str] (C99) *)
From Verif Require Import Base Ast Grammar Nom Lex Parser MeetsSpec NumConv Kvp Value OldParser OldGrammar OldFacts OldProofs OldPanic
  OldMeetsSpec OldMeets PropOld PropOldMeets PropFail AppendProofs PropAppend OldLocality.

(** C99: documents for [value::from_str] concatenate, separated by any line end: the entries
    of the first, then those of the second. *)
Theorem C99_concatenation : forall U d1 d2 l1 l2 n, from_str U d1 None (VOk (Unmerged l1)) -> from_str U d2 None (VOk (Unmerged l2)) ->
  LineEnd n -> from_str U (d1 ++ n ++ d2) None (VOk (Unmerged (l1 ++ l2))).
Proof.
  intros U d1 d2 l1 l2 n H1 H2 Hn. apply C70_from_str_grammar. apply C70_from_str_grammar in H1 as (? & [= <-] & H1).
  apply C70_from_str_grammar in H2 as (? & [= <-] & H2). eexists. split; [reflexivity|]. eapply VDoc_app; [exact H1|reflexivity|exact Hn|exact H2].
Qed.
(** With merging: the two lists of entries are merged together. *)
Theorem C99_concatenation_merged : forall U d1 d2 l1 l2 n o, from_str U d1 None (VOk (Unmerged l1)) -> from_str U d2 None (VOk (Unmerged l2)) ->
  LineEnd n -> from_str U (d1 ++ n ++ d2) (Some MBError) o <->
    (exists m, map_merge (Unmerged (l1 ++ l2)) (MOk m) /\ o = VOk m) \/
    (exists e, map_merge (Unmerged (l1 ++ l2)) (MErr e) /\ o = VMergeErr e).
Proof.
  intros U d1 d2 l1 l2 n o H1 H2 Hn. pose proof (C99_concatenation U d1 d2 l1 l2 n H1 H2 Hn) as H.
  apply C70_from_str_grammar in H as (? & [= <-] & H). apply (C90_document U _ _ H o).
Qed.
(** A panic over a heredoc is final: no text after the document takes it back, whatever the
    merge behaviour. *)
Theorem C99_panic_final : forall U s x, from_str U s None VPanic -> forall mb o, from_str U (s ++ x) mb o <-> o = VPanic.
Proof.
  intros U s x H. apply C90_from_str_panics in H; [|auto]. apply C90_meets, vmeets_heredoc_append, H.
Qed.
(** So is a bad escape sequence, unless the text goes on with its digits. *)
Theorem C99_escape_final : forall U s p x, old_body U s = Fail p -> StartsWithoutHex x -> old_body U (s ++ x) = Fail (p ++ x).
Proof.
  intros U s p x H Hx. apply C93_value_body. apply C93_value_body in H. apply vmeets_escape_append; [apply not_hex, Hx|exact H].
Qed.
Print Assumptions C99_concatenation.
Print Assumptions C99_concatenation_merged.
Print Assumptions C99_panic_final.
Print Assumptions C99_escape_final.

(* unlike for [parse_str] (C98) a text that is an error alone can be fine after a document:
   a comma may follow the line end *)
Example C99_nonvacuous :
  (exists l, from_str ascii_ucd (lit "a = 1") None (VOk (Unmerged l)) /\ length l = 1%nat) /\
  (exists l, from_str ascii_ucd (lit "b ""x"" { c = 2, }") None (VOk (Unmerged l)) /\ length l = 1%nat) /\
  from_str ascii_ucd (lit ", b = 2") None (VErr (RParse (Some (lit ", b = 2")))) /\
  (exists l, from_str ascii_ucd (lit "a = 1" ++ [10] ++ lit ", b = 2") None (VOk (Unmerged l)) /\ length l = 2%nat) /\
  parse_str ascii_ucd (lit "a = 1" ++ [10] ++ lit ", b = 2") = ErrR (RParse (Some (lit ", b = 2"))) /\
  from_str ascii_ucd bad_doc None VPanic /\
  old_body ascii_ucd (lit "a = ""\q""") = Fail (lit "q""").
Proof.
  split; [eexists; split; vm_compute; reflexivity|]. split; [eexists; split; vm_compute; reflexivity|]. split; [vm_compute; reflexivity|].
  split; [eexists; split; vm_compute; reflexivity|]. split; [vm_compute; reflexivity|]. split; vm_compute; reflexivity.
Qed.
