(** * PropVReach: C114, the values [value::from_str] can return *)
From Coq Require Import ZArith Reals SpecFloat Lia.
From Verif Require Import Base Ast NumConv NumSpec Utf8 IoSpec PropIo Kvp Value ValueSpec ValueProofs PropValue PropMerge OldParser OldGrammar OldProofs PropOld
  ReachSpec VReachSpec VReachProofs VReachMerge.
Local Open Scope nat_scope.

(** ** Without merging: exactly the lists of entries of the specification *)
Theorem C114_values : forall U m,
  (exists s, IsStr s /\ from_str U s None (VOk m)) <-> exists l, m = Unmerged l /\ Forall (REntry U) l.
Proof.
  intros U m. split.
  - intros (s & Hs & H). apply C70_from_str_grammar in H as (l & -> & H). exists l. split; [reflexivity|]. apply vdoc_values. eauto.
  - intros (l & -> & H). apply vdoc_values in H as (s & Hs & H). exists s. split; [exact Hs|]. apply C70_from_str_grammar. eauto.
Qed.
(** ** With [MergeBehaviour::Error]: exactly the tables of the specification ... *)
Lemma merging_outcome U s o : from_str U s (Some MBError) o -> (exists m, o = VOk m) \/ (exists e, o = VMergeErr e) ->
  exists l, VDoc U l s /\ exists res, map_merge (Unmerged l) res /\ o = match res with MOk m' => VOk m' | MErr e => VMergeErr e end.
Proof.
  unfold from_str. intros H Ho. destruct (old_body U s) as [[|c r] m| |q| |] eqn:E;
    try (destruct Ho as [(m' & ->)|(e & ->)]; discriminate H).
  apply old_body_spec in E as (l & -> & HD). exists l. split; [exact HD|]. exact H.
Qed.
Lemma merging_runs U s l res : VDoc U l s -> map_merge (Unmerged l) res ->
  from_str U s (Some MBError) (match res with MOk m' => VOk m' | MErr e => VMergeErr e end).
Proof.
  intros HD H. unfold from_str. assert (E : old_body U s = Ok [] (Unmerged l)) by (apply old_body_spec; eauto). rewrite E. exists res. auto.
Qed.
Theorem C114_merged : forall U m,
  (exists s, IsStr s /\ from_str U s (Some MBError) (VOk m)) <-> MMap U m.
Proof.
  intros U m. rewrite <- merged_values. split.
  - intros (s & Hs & H). apply merging_outcome in H as (l & HD & res & HM & E); [|eauto]. destruct res as [m'|e]; [injection E as ->|discriminate E].
    exists l. split; [apply vdoc_values; eauto|]. apply C67_exact_map, HM.
  - intros (l & HF & H). apply vdoc_values in HF as (s & Hs & HD). exists s. split; [exact Hs|]. apply (merging_runs U s l (MOk m) HD). apply C67_exact_map, H.
Qed.
(** ... and exactly its errors. *)
Theorem C114_merge_errors : forall U e,
  (exists s, IsStr s /\ from_str U s (Some MBError) (VMergeErr e)) <-> RError U e.
Proof.
  intros U e. rewrite <- error_values. split.
  - intros (s & Hs & H). apply merging_outcome in H as (l & HD & res & HM & E); [|eauto]. destruct res as [m'|e']; [discriminate E|injection E as ->].
    exists l. split; [apply vdoc_values; eauto|]. apply C67_exact_map, HM.
  - intros (l & HF & H). apply vdoc_values in HF as (s & Hs & HD). exists s. split; [exact Hs|]. apply (merging_runs U s l (MErr e) HD). apply C67_exact_map, H.
Qed.
(** ** The same values from bytes *)
Theorem C114_slice : forall U mb o, (forall e, o <> VErr e) ->
  ((exists bytes, from_slice U bytes mb o) <-> exists s, IsStr s /\ from_str U s mb o).
Proof.
  intros U mb o Ho. split.
  - intros (bytes & H). unfold from_slice in H. destruct (from_utf8 bytes) as [s|] eqn:E; [|elim (Ho _ H)].
    exists s. split; [|exact H]. eapply from_utf8_sound; [apply le_n|exact E].
  - intros (s & Hs & H). exists (utf8 s). unfold from_slice. rewrite from_utf8_complete by exact Hs. exact H.
Qed.
Print Assumptions C114_values.
Print Assumptions C114_merged.
Print Assumptions C114_merge_errors.
Print Assumptions C114_slice.

Definition C114_list : list (key * Value.value) :=
  [(KeyIdent (lit "a"), VFloat (S754_infinity true)); (KeyIdent (lit "a"), VList [VInteger (-5); VObject [Unmerged [(KeyString [10%N], VNull)]]]);
   (KeyIdent (lit "a"), VBlock (Unmerged [([lit "x"; []], Unmerged [])]))].
Lemma letter_name c : (97 <= c <= 122)%N -> Name ascii_ucd [c].
Proof.
  intros Hc. split.
  - exists c, []. split; [reflexivity|]. split; [left; left; unfold Grammar.Letter; lia|intros ? []].
  - repeat constructor. unfold valid_char. destruct (N.ltb_spec c 55296); [reflexivity|lia].
Qed.
Example C114_nonvacuous :
  (exists s, IsStr s /\ from_str ascii_ucd s None (VOk (Unmerged C114_list))) /\
  (exists s, IsStr s /\ from_str ascii_ucd s (Some MBError) (VMergeErr (IllegalMultipleEntries [10%N] NFloat))) /\
  (exists s, IsStr s /\ from_str ascii_ucd s (Some MBError) (VOk (Merged [(KeyIdent (lit "a"), VObject [Merged []; Merged []])]))) /\
  ~ (exists s, IsStr s /\ from_str ascii_ucd s None (VOk (Unmerged [(KeyIdent (lit "a"), VFloat S754_nan)]))) /\
  ~ (exists s, IsStr s /\ from_str ascii_ucd s (Some MBError) (VOk (Merged [(KeyIdent (lit "a"), VObject [])]))) /\
  ~ (exists s, IsStr s /\ from_str ascii_ucd s (Some MBError) (VMergeErr (ErrorMergingKeys [10%N] NBlock NNull))).
Proof.
  pose proof (letter_name 97 ltac:(lia)) as Ha. split; [|split; [|split; [|split; [|split]]]].
  - apply C114_values. exists C114_list. split; [reflexivity|]. repeat apply Forall_cons; try apply Forall_nil.
    + apply RE_value; [apply RK_ident, Ha|]. apply RV_float. right. eauto.
    + apply RE_value; [apply RK_ident, Ha|]. apply RV_list. repeat apply Forall_cons; try apply Forall_nil.
      * apply RV_int. cbn. lia.
      * apply RV_object. repeat apply Forall_cons; try apply Forall_nil. apply RE_value; [apply RK_string; repeat constructor|apply RV_null].
    + apply RE_block; [exact Ha|discriminate| |constructor]. repeat apply Forall_cons; try apply Forall_nil; repeat constructor.
  - apply C114_merge_errors. apply RR_illegal; [repeat constructor|discriminate|discriminate].
  - apply C114_merged. apply MM; [repeat constructor; intros []|]. repeat apply Forall_cons; try apply Forall_nil. apply MN_objects; [apply RK_ident, Ha|discriminate|].
    repeat apply Forall_cons; try apply Forall_nil; apply MM; constructor.
  - intros H. apply C114_values in H as (l & [= <-] & H). inversion H as [|? ? He _]; subst. inversion He as [? ? _ Hv|]; subst. inversion Hv as [| | |? Hf| | |]; subst. destruct Hf as [[]|[s Hs]]; discriminate.
  - intros H. apply C114_merged in H. inversion H as [? _ HF]; subst. inversion HF as [|? ? He _]; subst. inversion He as [? ? _ Hv|? ? _ Hne _|]; subst; [inversion Hv|congruence].
  - intros H. apply C114_merge_errors in H. inversion H as [| |? ? Hn _]; subst. destruct Hn as [(c & cs & E & Hc & _) _]. injection E as <- <-.
    destruct Hc as [[HL|[HL _]]|HL]; [unfold Grammar.Letter in HL; lia|lia|lia].
Qed.
