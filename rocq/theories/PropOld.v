(** * PropOld: C46, C53, C70, and the [value::from_str] parts of C02, C03, C20, C21, C52 *)
From Coq Require Import ZArith.
From Verif Require Import Base Nom NomFacts Ast Lex Grammar Parser ParserFacts PanicProofs PropSyntax NumConv NumSpec
  Utf8 IoSpec PropIo Kvp Value ValueSpec ValueProofs PropValue OldParser OldGrammar OldFacts OldProofs OldPanic.
Close Scope Z_scope.

(** ** Examples *)
Definition old_doc : str := lit "a = 1
b ""x"" ""y"" {
  c = [true, 2.5,]
}
b { d = {
  ""k"" = null, } ,
}
".
Definition old_doc_value : list (key * Value.value) :=
  [(KeyIdent (lit "a"), VInteger 1);
   (KeyIdent (lit "b"), VBlock (Unmerged [([lit "x"; lit "y"],
      Unmerged [(KeyIdent (lit "c"), VList [VBoolean true; VFloat (SpecFloat.S754_finite false 5629499534213120 (-51))])])]));
   (KeyIdent (lit "b"), VObject [Unmerged [(KeyIdent (lit "d"), VObject [Unmerged [(KeyString (lit "k"), VNull)]])]])].
Lemma old_doc_parses : old_body ascii_ucd old_doc = Ok [] (Unmerged old_doc_value).
Proof. vm_compute. reflexivity. Qed.

(** What the parser can return *)
Lemma old_body_cases U s : (exists m, old_body U s = Ok [] m) \/ old_body U s = Err \/ (exists q, old_body U s = Fail q) \/ old_body U s = Panic.
Proof.
  destruct (old_body U s) as [r m| |q| |] eqn:E; eauto.
  - left. exists m. rewrite <- E. apply old_body_rest in E as H. subst. exact E.
  - elim (old_body_no_fuel U s E).
Qed.
Lemma apply_merge_total mb m : exists o, apply_merge mb m o.
Proof.
  destruct mb as [[]|]; cbn; [|eexists; reflexivity..]. destruct (proj2 merge_total m) as [res H]. eexists. exists res. split; [exact H|reflexivity].
Qed.

(** ** C02: [from_str] always returns *)
Theorem C02_from_str_terminates : forall U s mb,
  (exists o, from_str U s mb o) /\ ~ from_str U s mb VDiverges.
Proof.
  intros U s mb. unfold from_str. destruct (old_body_cases U s) as [[m E]|[E|[(q & E)|E]]]; rewrite E.
  - split; [apply apply_merge_total|]. unfold apply_merge. destruct mb as [[]|]; try discriminate. intros ([m'|e] & _ & H); discriminate.
  - split; [eexists; reflexivity|discriminate].
  - split; [eexists; reflexivity|discriminate].
  - split; [eexists; reflexivity|discriminate].
Qed.
Theorem C02_from_str_fuel_irrelevant : forall U s fuel, (length s < fuel)%nat ->
  fst (old_f U fuel) s = single_value U s /\ snd (old_f U fuel) s = map_values U s.
Proof. intros U s fuel H. exact (old_enough U fuel s H). Qed.
Print Assumptions C02_from_str_terminates.
Print Assumptions C02_from_str_fuel_irrelevant.

(** ** C03 for [from_str] *)
Theorem C03_from_str_refuted : from_str ascii_ucd panic_doc None VPanic.
Proof. vm_compute. reflexivity. Qed.
(** Without merging, or with [MergeBehaviour::Error], the only cause of a panic is a
    "<<-" heredoc that cannot be unindented. *)
Theorem C03_from_str_panic_cause : forall U s mb, from_str U s mb VPanic -> mb = None \/ mb = Some MBError ->
  exists x m e content b t r,
    s = x ++ lit "<<-" ++ m ++ e ++ content ++ t /\ MarkerText U m /\ Eol e /\ Closing m b t r /\ b <> [] /\
    (forall p y b' r', e ++ content = p ++ y -> y <> [] -> ~ Closing m b' (y ++ t) r') /\
    ~ exists out, Unindent (length b) content out.
Proof.
  intros U s mb H Hm. apply PanicAt_shape, old_body_panic. unfold from_str in H.
  destruct (old_body_cases U s) as [[m E]|[E|[(q & E)|E]]]; rewrite E in H; try discriminate; [|exact E].
  exfalso. destruct Hm as [-> | ->]; cbn in H; [discriminate|]. destruct H as ([m'|e] & _ & H); discriminate.
Qed.
Theorem C03_from_str_partial : forall U s mb, (forall x y, s <> x ++ lit "<<-" ++ y) -> mb = None \/ mb = Some MBError ->
  ~ from_str U s mb VPanic.
Proof.
  intros U s mb H Hm E. apply C03_from_str_panic_cause in E as (x & m & e & c & b & t & r & E & _); [|exact Hm]. exact (H _ _ E).
Qed.
Print Assumptions C03_from_str_refuted.
Print Assumptions C03_from_str_panic_cause.
Print Assumptions C03_from_str_partial.

(** ** C70: [from_str] without merging accepts exactly the grammar *)
Theorem C70_from_str_grammar : forall U s m, from_str U s None (VOk m) <-> exists l, m = Unmerged l /\ VDoc U l s.
Proof.
  intros U s m. rewrite <- old_body_spec. unfold from_str. split.
  - destruct (old_body_cases U s) as [[m' E]|[E|[(? & E)|E]]]; rewrite E; cbn; try discriminate. intros [= ->]. reflexivity.
  - intros ->. reflexivity.
Qed.
(** Anything else is a parse error or a panic (see C03): never [Error::Bug], and the
    result does not depend on anything but the text. *)
Theorem C70_from_str_error : forall U s mb e, from_str U s mb (VErr e) ->
  ((exists rest, e = RParse rest) \/ (exists p, e = RCodePoint p)) /\ forall l, ~ VDoc U l s.
Proof.
  intros U s mb e H. split.
  - unfold from_str in H. destruct (old_body_cases U s) as [[m E]|[E|[(q & E)|E]]]; rewrite E in H; [|injection H as ->; eauto|injection H as ->; eauto|discriminate].
    exfalso. destruct mb as [[]|]; cbn in H; try discriminate. destruct H as ([m'|e'] & _ & H); discriminate.
  - intros l Hl. assert (E : old_body U s = Ok [] (Unmerged l)) by (apply old_body_spec; eauto). unfold from_str in H. rewrite E in H.
    destruct mb as [[]|]; cbn in H; try discriminate. destruct H as ([m'|e'] & _ & H); discriminate.
Qed.
Theorem C70_unambiguous : forall U s l l', VDoc U l s -> VDoc U l' s -> l = l'.
Proof.
  intros U s l l' H H'. assert (E : old_body U s = Ok [] (Unmerged l)) by (apply old_body_spec; eauto).
  assert (E' : old_body U s = Ok [] (Unmerged l')) by (apply old_body_spec; eauto). congruence.
Qed.
Print Assumptions C70_from_str_grammar.
Print Assumptions C70_from_str_error.
Print Assumptions C70_unambiguous.
Example C70_nonvacuous : VDoc ascii_ucd old_doc_value old_doc.
Proof.
  assert (H : exists l, Unmerged old_doc_value = Unmerged l /\ VDoc ascii_ucd l old_doc) by (apply old_body_spec, old_doc_parses).
  destruct H as (l & [= ->] & H). exact H.
Qed.

(** ** C46: nothing is merged, dropped or reordered *)
Lemma unmerged_mut U :
  (forall v s r, VTerm U v s r -> AllUnmerged v) /\
  (forall l s r, VItems U l s r -> Forall AllUnmerged l) /\
  (forall l s r, VEntries U l s r -> Forall (fun kv => AllUnmerged (snd kv)) l) /\
  (forall k v s r, VEntry U k v s r -> AllUnmerged v).
Proof.
  apply old_mut; intros; try (constructor; reflexivity); try (constructor; assumption); try assumption; auto.
  - match goal with H : NumberValue _ _ |- _ => destruct H; apply AU_scalar; reflexivity end.
  - apply AU_object. constructor; [|constructor]. constructor. assumption.
  - apply AU_object. constructor; [|constructor]. constructor. assumption.
  - apply AU_block. constructor; [|constructor]. constructor. assumption.
Qed.
Theorem C46_unmerged : forall U s m, from_str U s None (VOk m) -> AllUnmergedMap m.
Proof. intros U s m H. apply C70_from_str_grammar in H as (l & -> & H). constructor. eapply unmerged_mut, H. Qed.
(** The entries are the document's entries: the text is the concatenation of their
    texts, each followed by its separator, in the order of the result. *)
Inductive Sections (U : ucd) : list (key * Value.value) -> str -> Prop :=
| SE_nil w : Ws w -> Sections U [] w
| SE_cons k v l w s s1 s2 : Ws w -> VEntry U k v s s1 -> VSep s1 s2 -> Sections U l s2 -> Sections U ((k, v) :: l) (w ++ s).
Theorem C46_source_order : forall U s m, from_str U s None (VOk m) -> exists l, m = Unmerged l /\ Sections U l s.
Proof.
  intros U s m H. apply C70_from_str_grammar in H as (l & -> & H). exists l. split; [reflexivity|]. unfold VDoc in H.
  remember [] as r eqn:Er. induction H as [w r Hw|k v l w s s1 s2 r Hw He Hs Hl IH] using VEntries_ind; subst; [rewrite app_nil_r; constructor; exact Hw|].
  econstructor; [exact Hw|exact He|exact Hs|apply IH; reflexivity].
Qed.
Print Assumptions C46_unmerged.
Print Assumptions C46_source_order.
Example C46_nonvacuous : from_str ascii_ucd old_doc None (VOk (Unmerged old_doc_value)).
Proof. unfold from_str. rewrite old_doc_parses. reflexivity. Qed.

(** ** C53: merge behaviours.  REFUTED: two of the three variants panic on every
    document that parses. *)
Theorem C53_not_implemented_refuted : forall U s l, VDoc U l s ->
  forall o, (from_str U s (Some MBTakeFirst) o <-> o = VPanic) /\ (from_str U s (Some MBTakeLast) o <-> o = VPanic).
Proof.
  intros U s l H o. assert (E : old_body U s = Ok [] (Unmerged l)) by (apply old_body_spec; eauto).
  unfold from_str. rewrite E. cbn. split; reflexivity.
Qed.
(** [MergeBehaviour::Error]: the merged document when it can be merged, the first
    conflict as error when it cannot (see C48 for both). *)
Theorem C53_error_partial : forall U s l, VDoc U l s ->
  (forall r, from_str U s (Some MBError) (VOk r) <-> map_merge (Unmerged l) (MOk r)) /\
  ((exists r, from_str U s (Some MBError) (VOk r)) <-> CanMergeMap (Unmerged l)) /\
  (forall r, from_str U s (Some MBError) (VOk r) -> MapMergesTo (Unmerged l) r /\ AllMergedMap r) /\
  (forall e, from_str U s (Some MBError) (VMergeErr e) <-> FirstConflictMap (Unmerged l) e).
Proof.
  intros U s l H. assert (E : old_body U s = Ok [] (Unmerged l)) by (apply old_body_spec; eauto).
  assert (Hok : forall r, from_str U s (Some MBError) (VOk r) <-> map_merge (Unmerged l) (MOk r)).
  { intros r. unfold from_str. rewrite E. cbn [apply_merge]. split.
    - intros ([m|e] & Hm & Ho); [injection Ho as ->; exact Hm|discriminate].
    - intros Hm. exists (MOk r). auto. }
  destruct (C48_map (Unmerged l)) as (_ & H1 & H2). split; [exact Hok|]. split; [|split].
  - rewrite <- H1. split; intros [r Hr]; exists r; apply Hok; exact Hr.
  - intros r Hr. apply Hok in Hr. split; [apply mmerge_ok in Hr; apply Hr|].
    apply (C47_all_merged_map (Unmerged l)); [|exact Hr]. constructor. eapply unmerged_mut, H.
  - intros e. rewrite <- H2. unfold from_str. rewrite E. cbn [apply_merge]. split.
    + intros ([m|e'] & Hm & Ho); [discriminate|injection Ho as ->; exact Hm].
    + intros Hm. exists (MErr e). auto.
Qed.
Theorem C53_invalid : forall U s mb o, (forall l, ~ VDoc U l s) -> from_str U s mb o -> (exists e, o = VErr e) \/ o = VPanic.
Proof.
  intros U s mb o H Ho. unfold from_str in Ho. destruct (old_body_cases U s) as [[m E]|[E|[(q & E)|E]]]; rewrite E in Ho; eauto.
  exfalso. apply old_body_spec in E as (l & _ & Hl). exact (H l Hl).
Qed.
Print Assumptions C53_not_implemented_refuted.
Print Assumptions C53_error_partial.
Print Assumptions C53_invalid.

(** The documentation of [MergeBehaviour::Error] promises an error for duplicate labels;
    there is none (see C49). *)
Definition dup_doc : str := lit "b ""x"" {
  a = 1
}
b ""x"" {
  a = 2
}
".
Theorem C49_from_str_refuted : from_str ascii_ucd dup_doc (Some MBError) (VOk ex_dup_merged).
Proof.
  assert (E : old_body ascii_ucd dup_doc = Ok [] ex_dup) by (vm_compute; reflexivity). unfold from_str. rewrite E. cbn [apply_merge].
  exists (MOk ex_dup_merged). split; [exact run_dup|reflexivity].
Qed.
Print Assumptions C49_from_str_refuted.

(** ** C52: nulls are reachable, so the panics are *)
Theorem C52_reachable_refuted : exists s m v, from_str ascii_ucd s None (VOk m) /\
  get_single key_str str_eqb m (lit "a") (Some v) /\ v_len v = None /\ map_is_unmerged m = None /\ map_len_scalar m = None.
Proof.
  exists (lit "a = null
"), (Unmerged [(KeyIdent (lit "a"), VNull)]), VNull. split; [vm_compute; reflexivity|]. split; [|repeat split; reflexivity].
  vm_compute. reflexivity.
Qed.
(** ** C20, C21 for [from_slice] and [from_reader] *)
Theorem C20_from_slice_utf8 : forall U s mb o, IsStr s -> (from_slice U (utf8 s) mb o <-> from_str U s mb o).
Proof. intros U s mb o Hs. unfold from_slice. rewrite from_utf8_complete by exact Hs. reflexivity. Qed.
Theorem C20_from_slice_malformed : forall U bytes mb o, ~ (exists s, IsStr s /\ bytes = utf8 s) ->
  (from_slice U bytes mb o <-> o = VErr RUtf8).
Proof.
  intros U bytes mb o H. unfold from_slice. destruct (from_utf8 bytes) as [s|] eqn:E; [|reflexivity].
  exfalso. apply H. exists s. apply (from_utf8_sound (length bytes)); [lia|exact E].
Qed.
Theorem C21_from_reader_chunking : forall U r r' b mb o, Delivers r b -> Delivers r' b ->
  (from_reader U r mb o <-> from_reader U r' mb o).
Proof.
  intros U r r' b mb o H H'. apply read_to_end_delivers in H. apply read_to_end_delivers in H'.
  unfold from_reader, read_to_string. rewrite H, H'. reflexivity.
Qed.
(** [from_reader] returns a copy of what [from_str] returns on the bytes delivered. *)
Theorem C21_from_reader_is_str : forall U r s mb o, IsStr s -> Delivers r (utf8 s) -> from_reader U r mb o ->
  exists o1, from_str U s mb o1 /\
    match o1 with VOk m => exists m', o = VOk m' /\ meq m m' | _ => o = o1 end.
Proof.
  intros U r s mb o Hs Hd H. apply read_to_end_delivers in Hd. unfold from_reader, read_to_string in H.
  rewrite Hd, from_utf8_complete in H by exact Hs. destruct H as (o1 & H1 & H). exists o1. split; [exact H1|].
  destruct o1 as [m| | | |]; try exact H. destruct H as (m' & Hm & ->). exists m'. split; [reflexivity|]. apply C68_as_owned_map; [|exact Hm].
  unfold from_str in H1. destruct (old_body_cases U s) as [[m0 E]|[E|[(? & E)|E]]]; rewrite E in H1; try discriminate.
  apply old_body_spec in E as (l & -> & Hl). assert (HU : AllUnmergedMap (Unmerged l)) by (constructor; eapply unmerged_mut, Hl).
  destruct mb as [[]|]; cbn in H1; try discriminate.
  - destruct H1 as ([m1|e] & H1 & Ho); [|discriminate]. injection Ho as ->. eapply C47_all_merged_map; eassumption.
  - injection H1 as ->. apply (proj2 unmerged_tidy _ HU).
Qed.
Theorem C21_from_reader_read_error : forall U r mb o, FailsRead r -> (from_reader U r mb o <-> o = VErr RIo).
Proof. intros U r mb o H. apply read_to_end_fails in H. unfold from_reader, read_to_string. rewrite H. reflexivity. Qed.
Theorem C21_from_reader_total : forall U r mb, exists o, from_reader U r mb o.
Proof.
  intros U r mb. unfold from_reader. destruct (read_to_string r) as [b|]; [|eexists; reflexivity].
  destruct (C02_from_str_terminates U b mb) as [[o1 H1] _]. destruct o1 as [m|e|e| |] eqn:E1.
  - destruct (proj2 as_owned_total m) as [m' Hm]. exists (VOk m'), (VOk m). eauto.
  - exists (VErr e), (VErr e). auto.
  - exists (VMergeErr e), (VMergeErr e). auto.
  - exists VPanic, VPanic. auto.
  - exists VDiverges, VDiverges. auto.
Qed.
Print Assumptions C52_reachable_refuted.
Print Assumptions C20_from_slice_utf8.
Print Assumptions C20_from_slice_malformed.
Print Assumptions C21_from_reader_chunking.
Print Assumptions C21_from_reader_is_str.
Print Assumptions C21_from_reader_read_error.
Print Assumptions C21_from_reader_total.
