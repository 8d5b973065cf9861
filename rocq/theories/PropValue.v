(** * PropValue: C47-C52, C54, C67-C69, document values and merging *)
From Coq Require Import Permutation Lia ZArith.
From Verif Require Import Base NomFacts Kvp Value ValueSpec PropKvp ValueProofs.

(** Examples: documents as values *)
Definition ex_a := KeyIdent (lit "a").
Definition ex_b := KeyIdent (lit "b").
(** [b "x" { a = 1 }], [b "x" { a = 2 }] *)
Definition ex_dup : mapvalues :=
  Unmerged [(ex_b, VBlock (Unmerged [([lit "x"], Unmerged [(ex_a, VInteger 1)])]));
            (ex_b, VBlock (Unmerged [([lit "x"], Unmerged [(ex_a, VInteger 2)])]))].
Definition ex_dup_merged : mapvalues := Merged [(ex_b, VBlock (Merged [([lit "x"], Merged [(ex_a, VInteger 2)])]))].
(** the same with labels "x" and "y" *)
Definition ex_two : mapvalues :=
  Unmerged [(ex_b, VBlock (Unmerged [([lit "x"], Unmerged [(ex_a, VInteger 1)])]));
            (ex_b, VBlock (Unmerged [([lit "y"], Unmerged [(ex_a, VInteger 2)])]))].

(** A deterministic scheduler for running the examples: tables keep their order. *)
Lemma run_dup : map_merge ex_dup (MOk ex_dup_merged).
Proof.
  unfold ex_dup, ex_dup_merged, map_merge, map_merge_with. cbn [map_new_merged].
  assert (Hb : forall n, merge (VBlock (Unmerged [([lit "x"], Unmerged [(ex_a, VInteger n)])])) (MOk (VBlock (Merged [([lit "x"], Merged [(ex_a, VInteger n)])])))).
  { intros n. cbn [merge]. apply mbind_ok. exists [([lit "x"], Merged [(ex_a, VInteger n)])]. split.
    - apply mmap_ok. constructor; [|constructor]. apply mbind_ok. exists (Merged [(ex_a, VInteger n)]). split; [|apply mret_ok; reflexivity].
      cbn. apply mbind_ok. exists (VInteger n). split; [apply mret_ok; reflexivity|]. apply mbind_ok. exists [(ex_a, VInteger n)]. split; [apply mret_ok; reflexivity|].
      apply mbind_ok. exists [(ex_a, VInteger n)]. split; [apply mchoose_ok; reflexivity|]. apply mchoose_ok. exists [(ex_a, VInteger n)]. split; reflexivity.
    - apply mbind_ok. eexists. split; [|apply mret_ok; reflexivity]. cbn. apply mbind_ok. eexists. split; [apply mret_ok; reflexivity|].
      apply mbind_ok. eexists. split; [apply mchoose_ok; reflexivity|]. apply mchoose_ok. eexists. split; reflexivity. }
  apply mbind_ok. eexists. split; [apply (Hb 1%Z)|]. cbn [merge_entry]. apply mbind_ok. eexists. split; [apply mret_ok; reflexivity|].
  apply mbind_ok. eexists. split; [apply mchoose_ok; reflexivity|].
  apply mbind_ok. eexists. split; [apply (Hb 2%Z)|]. cbn [merge_entry]. rewrite key_eqb_refl. apply mbind_ok.
  eexists. split.
  - apply mbind_ok. exists (VBlock (Merged [([lit "x"], Merged [(ex_a, VInteger 2)])])). split; [|apply mret_ok; reflexivity].
    cbn [merge_into]. apply mchoose_ok. eexists. split; [|reflexivity]. cbn [entries kvp_extend]. eexists. split; [|reflexivity].
    eapply HX_cons; [reflexivity|]. constructor. reflexivity.
  - apply mbind_ok. eexists. split; [apply mchoose_ok; reflexivity|]. apply mchoose_ok. eexists. split; reflexivity.
Qed.

Lemma values_of_cons k k0 v l : values_of k ((k0, v) :: l) = (if key_eqb k0 k then [v] else []) ++ values_of k l.
Proof. change ((k0, v) :: l) with ([(k0, v)] ++ l). rewrite values_of_app, values_of_one. reflexivity. Qed.

(** ** C47 *)
(** Merging a value in which nothing was merged before (what [from_str(_, None)]
    returns) leaves nothing unmerged, at any depth, and every table has distinct keys. *)
Theorem C47_all_merged : forall v r, AllUnmerged v -> merge v (MOk r) ->
  AllMerged r /\ WfTables r /\ (NoNull v -> is_merged r = Some true).
Proof.
  intros v r HU H. apply merge_sound in H as [_ H]. destruct (proj1 unmerged_tidy v HU) as [HT HW].
  split; [apply (proj1 merged_AllMerged v r H HT)|]. split; [apply (proj1 merged_WfTables v r H HW)|].
  intros HN. apply (proj1 merged_NoNull v r H) in HN. destruct (proj1 methods_total r HN) as (_ & (b & E & Hb) & _). rewrite E. f_equal. apply Hb.
  apply (proj1 merged_AllMerged v r H HT).
Qed.
Theorem C47_all_merged_map : forall p r, AllUnmergedMap p -> map_merge p (MOk r) ->
  AllMergedMap r /\ WfTablesMap r /\ (NoNullMap p -> map_is_merged r = Some true).
Proof.
  intros v r HU H. apply merge_sound in H as [_ H]. destruct (proj2 unmerged_tidy v HU) as [HT HW].
  split; [apply (proj2 merged_AllMerged v r H HT)|]. split; [apply (proj2 merged_WfTables v r H HW)|].
  intros HN. apply (proj2 merged_NoNull v r H) in HN. destruct (proj2 methods_total r HN) as (_ & (b & E & Hb) & _). rewrite E. f_equal. apply Hb.
  apply (proj2 merged_AllMerged v r H HT).
Qed.
(** The keys of a merged map are the distinct keys of the input. *)
Theorem C47_keys : forall l r, map_merge (Unmerged l) (MOk r) ->
  exists m, r = Merged m /\ NoDup (map fst m) /\ forall k, In k (map fst m) <-> In k (map fst l).
Proof. intros l r H. apply merge_sound in H as [_ H]. inversion H; subst. eexists. auto. Qed.
(** Likewise the labels of a block. *)
Theorem C47_block_labels : forall b r, merge (VBlock b) (MOk r) ->
  exists m, r = VBlock (Merged m) /\ NoDup (map fst m) /\ forall ls, In ls (map fst m) <-> In ls (map fst (entries b)).
Proof.
  intros b r H. apply merge_sound in H as [_ H]. inversion H as [|? Hs| | |? l' m HF HT]; subst; [discriminate|]. exists m. split; [reflexivity|]. split; [apply HT|].
  intros ls. rewrite (TableOf_keys _ labels_eqb_eq _ _ _ HT), (Forall2_keys _ _ _ HF). reflexivity.
Qed.
(** But a map that is already a table is not looked into: for an arbitrary value the
    result can contain unmerged parts. *)
Theorem C47_inside_table_refuted : ~ (forall v r, merge v (MOk r) -> is_merged r = Some true).
Proof.
  intros H. specialize (H (VObject [Merged [(ex_a, VObject [Unmerged []])]]) (VObject [Merged [(ex_a, VObject [Unmerged []])]])).
  discriminate H. cbn. apply mbind_ok. eexists. split; [|apply mret_ok; reflexivity]. apply mbind_ok. eexists. split; [apply mret_ok; reflexivity|].
  apply mbind_ok. eexists. split; apply mret_ok; reflexivity.
Qed.
(** General form: it is enough that tables present in the input are merged inside. *)
Theorem C47_tidy_partial : forall v r, Tidy v -> WfTables v -> merge v (MOk r) -> AllMerged r /\ WfTables r.
Proof.
  intros v r HT HW H. apply merge_sound in H as [_ H]. split; [apply (proj1 merged_AllMerged v r H HT)|apply (proj1 merged_WfTables v r H HW)].
Qed.
Print Assumptions C47_all_merged.
Print Assumptions C47_all_merged_map.
Print Assumptions C47_keys.
Print Assumptions C47_block_labels.
Print Assumptions C47_inside_table_refuted.
Print Assumptions C47_tidy_partial.
Lemma ex_dup_unmerged : AllUnmergedMap ex_dup /\ NoNullMap ex_dup.
Proof.
  split; repeat (cbn; first [apply AU_map|apply AU_block|apply AU_scalar; reflexivity|apply NN_map|apply NN_block|apply NN_scalar; reflexivity|apply Forall_cons|apply Forall_nil]).
Qed.
Example C47_nonvacuous : AllUnmergedMap ex_dup /\ NoNullMap ex_dup /\ map_merge ex_dup (MOk ex_dup_merged) /\ map_is_merged ex_dup_merged = Some true /\
  map_is_merged ex_dup = Some false.
Proof. split; [apply ex_dup_unmerged|]. split; [apply ex_dup_unmerged|]. split; [exact run_dup|]. split; reflexivity. Qed.

(** ** C48 *)
(** [merge] always returns.  It succeeds exactly when, in every vector of pairs and for
    every key, the key occurs once, or only with objects, or only with blocks; and it
    returns an error exactly when there is a first conflict, that conflict's error. *)
Theorem C48_value : forall v,
  (exists res, merge v res) /\
  ((exists r, merge v (MOk r)) <-> CanMerge v) /\
  (forall e, merge v (MErr e) <-> FirstConflict v e).
Proof.
  intros v. destruct (proj1 merge_total v) as [res Hres]. split; [exists res; exact Hres|]. split.
  - split; [intros [r H]; exact (proj1 (merge_ok v r H))|]. intros HC. destruct res as [r|e]; [exists r; exact Hres|].
    apply merge_err in Hres. elim (proj1 can_no_conflict v e HC Hres).
  - intros e. split; [apply merge_err|]. intros HF. destruct res as [r|e'].
    + apply merge_ok in Hres as [HC _]. elim (proj1 can_no_conflict v e HC HF).
    + pose proof (merge_err v e' Hres) as HF'. rewrite (proj1 conflict_det v e e' HF HF'). exact Hres.
Qed.
Theorem C48_map : forall p,
  (exists res, map_merge p res) /\
  ((exists r, map_merge p (MOk r)) <-> CanMergeMap p) /\
  (forall e, map_merge p (MErr e) <-> FirstConflictMap p e).
Proof.
  intros v. destruct (proj2 merge_total v) as [res Hres]. split; [exists res; exact Hres|]. split.
  - split; [intros [r H]; exact (proj1 (mmerge_ok v r H))|]. intros HC. destruct res as [r|e]; [exists r; exact Hres|].
    apply mmerge_err in Hres. elim (proj2 can_no_conflict v e HC Hres).
  - intros e. split; [apply mmerge_err|]. intros HF. destruct res as [r|e'].
    + apply mmerge_ok in Hres as [HC _]. elim (proj2 can_no_conflict v e HC HF).
    + pose proof (mmerge_err v e' Hres) as HF'. rewrite (proj2 conflict_det v e e' HF HF'). exact Hres.
Qed.
(** The outcome does not depend on how hash tables are arranged. *)
Theorem C48_deterministic : forall v res res', merge v res -> merge v res' ->
  match res, res' with
  | MOk r, MOk r' => veq r r'
  | MErr e, MErr e' => e = e'
  | _, _ => False
  end.
Proof.
  intros v [r|e] [r'|e'] H H'; first [apply merge_ok in H|apply merge_err in H]; first [apply merge_ok in H'|apply merge_err in H'].
  - apply (proj1 MergesTo_det v); [apply H|apply H'].
  - exact (proj1 can_no_conflict v e' (proj1 H) H').
  - exact (proj1 can_no_conflict v e (proj1 H') H).
  - exact (proj1 conflict_det v e e' H H').
Qed.
(** In particular: a key written twice, first with a scalar, null or list. *)
Corollary C48_repeated_scalar : forall l1 k v l2 v' l3, CanMergeMap (Unmerged (l1 ++ (k, v) :: l2)) -> CanMerge v' ->
  ~ In k (map fst l1) -> variant_name v <> NObject -> variant_name v <> NBlock ->
  forall res, map_merge (Unmerged (l1 ++ (k, v) :: l2 ++ (k, v') :: l3)) res <-> res = MErr (IllegalMultipleEntries (key_str k) (variant_name v)).
Proof.
  intros l1 k v l2 v' l3 HC Hv' Hn H1 H2.
  assert (HF : FirstConflictMap (Unmerged (l1 ++ (k, v) :: l2 ++ (k, v') :: l3)) (IllegalMultipleEntries (key_str k) (variant_name v))).
  { rewrite app_comm_cons, app_assoc. apply FC_clash; [exact HC|exact Hv'|]. rewrite values_of_app. apply values_of_none in Hn. rewrite Hn.
    change ((k, v) :: l2) with ([(k, v)] ++ l2). rewrite values_of_app, values_of_one, key_eqb_refl. apply CL_illegal; assumption. }
  intros [r|e]; split; intros H; try discriminate.
  - exfalso. apply (proj2 can_no_conflict _ _ (proj1 (mmerge_ok _ r H)) HF).
  - f_equal. apply (proj2 conflict_det _ _ _ (mmerge_err _ e H) HF).
  - injection H as ->. apply C48_map. exact HF.
Qed.
Print Assumptions C48_value.
Print Assumptions C48_map.
Print Assumptions C48_deterministic.
Print Assumptions C48_repeated_scalar.
Example C48_nonvacuous :
  FirstConflict (VObject [Unmerged [(ex_a, VInteger 1); (ex_b, VNull); (ex_a, VString [])]]) (IllegalMultipleEntries (lit "a") NInteger) /\
  FirstConflict (VObject [Unmerged [(ex_a, VObject []); (ex_a, VInteger 1)]]) (ErrorMergingKeys (lit "a") NObject NInteger) /\
  CanMerge (VObject [ex_two]).
Proof.
  split; [|split].
  - apply (FC_object [] _ []); [constructor|]. apply (FC_clash [(ex_a, VInteger 1); (ex_b, VNull)] ex_a (VString []) []).
    + constructor; [repeat constructor|]. intros k. rewrite !values_of_cons. unfold SameKind. destruct (key_eqb ex_a k) eqn:E1, (key_eqb ex_b k) eqn:E2; try (left; cbn; lia).
      exfalso; apply key_eqb_eq in E1; apply key_eqb_eq in E2; subst; discriminate.
    + apply CM_scalar. reflexivity.
    + apply (CL_illegal ex_a (VInteger 1)); discriminate.
  - apply (FC_object [] _ []); [constructor|]. apply (FC_clash [(ex_a, VObject [])] ex_a (VInteger 1) []).
    + constructor; [constructor; [apply CM_object; constructor|constructor]|]. intros k. rewrite !values_of_cons. unfold SameKind. destruct (key_eqb ex_a k); left; cbn; lia.
    + apply CM_scalar. reflexivity.
    + apply (CL_object ex_a []). discriminate.
  - assert (HA : forall n, CanMergeMap (Unmerged [(ex_a, VInteger n)])).
    { intros n. constructor; [repeat constructor|]. intros k. rewrite !values_of_cons. unfold SameKind. destruct (key_eqb ex_a k); left; cbn; lia. }
    apply CM_object. constructor; [|constructor]. constructor.
    + constructor; [|constructor; [|constructor]]; cbn; (apply CM_block; cbn; constructor; [apply HA|constructor]).
    + intros k. rewrite !values_of_cons. destruct (key_eqb ex_b k); [|left; cbn; lia]. right; right. eexists [_; _]. reflexivity.
Qed.

(** ** C49 *)
(** The documentation of [MergeBehaviour::Error] says duplicate labels are an error.
    They are not: [ex_dup] merges, and one of the two blocks is gone. *)
Theorem C49_duplicate_labels_refuted :
  ~ (forall l k b1 b2, (exists l1 l2 l3, l = l1 ++ (k, VBlock b1) :: l2 ++ (k, VBlock b2) :: l3) ->
       (exists ls, In ls (map fst (entries b1)) /\ In ls (map fst (entries b2))) ->
       forall r, ~ map_merge (Unmerged l) (MOk r)).
Proof.
  intros H. eapply (H _ ex_b); [| |exact run_dup].
  - exists [], [], []. reflexivity.
  - exists [lit "x"]. cbn. auto.
Qed.
(** What happens instead: the blocks of a key become one table, in which each label
    list has the last of the blocks that carry it. *)
Theorem C49_last_block_wins_partial : forall l m, map_merge (Unmerged l) (MOk (Merged m)) ->
  forall k b, In (k, VBlock b) m ->
  exists bs rs mb, values_of k l = map VBlock bs /\ b = Merged mb /\
    Forall2 (fun b r => MergesTo (VBlock b) (VBlock r)) bs rs /\
    TableOf (concat (map entries rs)) mb.
Proof.
  intros l m H k b Hi. apply mmerge_ok in H as [_ H]. inversion H as [|? l' ? HF HD HK HC]; subst. specialize (HC _ _ Hi).
  assert (HV : Forall2 MergesTo (values_of k l) (values_of k l')) by apply values_of_Forall2, HF.
  assert (HB : forall rs, values_of k l' = map VBlock rs -> exists bs, values_of k l = map VBlock bs /\
     Forall2 (fun b r => MergesTo (VBlock b) (VBlock r)) bs rs).
  { intros rs E. rewrite E in HV. clear - HV. revert HV. generalize (values_of k l). intros vs HV. revert rs HV. induction vs as [|v vs IH]; intros [|r rs] HV; cbn in HV; inversion HV as [|? ? ? ? Hv Hl]; subst.
    - exists []. split; [reflexivity|constructor].
    - destruct (IH _ Hl) as (bs & -> & Hbs). pose proof (proj2 (MergesTo_shape _ _ Hv)) as E. destruct v; try discriminate E. exists (b :: bs). split; [reflexivity|constructor; [exact Hv|exact Hbs]]. }
  inversion HC as [v E1 E2| |b1 b2 bs mb HT E1 E2]; subst.
  - destruct (HB [b]) as (bs & E & HFb); [symmetry; exact E1|].
    assert (HBM : BlockMerged (VBlock b)).
    { pose proof (merges_blockmerged _ _ HV) as Hm. rewrite <- E1 in Hm. inversion Hm; assumption. }
    destruct (HBM b eq_refl) as (mb & -> & HDb). exists bs, [Merged mb], mb. split; [exact E|]. split; [reflexivity|]. split; [exact HFb|].
    cbn. rewrite app_nil_r. apply TableOf_self, HDb.
  - destruct (HB (b1 :: b2 :: bs)) as (bs0 & E & HFb); [symmetry; exact E1|]. exists bs0, (b1 :: b2 :: bs), mb. auto.
Qed.
Print Assumptions C49_duplicate_labels_refuted.
Print Assumptions C49_last_block_wins_partial.
Example C49_nonvacuous : map_merge ex_dup (MOk ex_dup_merged) /\ In (ex_b, VBlock (Merged [([lit "x"], Merged [(ex_a, VInteger 2)])])) (entries ex_dup_merged).
Proof. split; [exact run_dup|left; reflexivity]. Qed.

(** ** C50 *)
Theorem C50_scalars_lost_refuted : ~ (forall p r, map_merge p (MOk r) -> map_len_scalar r = map_len_scalar p).
Proof. intros H. specialize (H _ _ run_dup). discriminate H. Qed.
(** If no two blocks of one key carry the same labels, the number of scalars is kept. *)
Theorem C50_scalars_kept_partial : forall v r, DistinctLabels v -> merge v (MOk r) -> len_scalar r = len_scalar v.
Proof. intros v r HD H. apply merge_sound in H as [_ H]. apply (proj1 merged_len_scalar v r H HD). Qed.
Theorem C50_scalars_kept_map_partial : forall p r, DistinctLabelsMap p -> map_merge p (MOk r) -> map_len_scalar r = map_len_scalar p.
Proof. intros v r HD H. apply merge_sound in H as [_ H]. apply (proj2 merged_len_scalar v r H HD). Qed.
Print Assumptions C50_scalars_lost_refuted.
Print Assumptions C50_scalars_kept_partial.
Print Assumptions C50_scalars_kept_map_partial.
Example C50_nonvacuous : DistinctLabelsMap ex_two /\ (exists r, map_merge ex_two (MOk r)) /\ map_len_scalar ex_two = Some 2%nat.
Proof.
  split; [|split; [|reflexivity]].
  - assert (HN : forall n, DistinctLabelsMap (Unmerged [(ex_a, VInteger n)])).
    { intros n. constructor; [repeat constructor|]. intros k. rewrite !values_of_cons. destruct (key_eqb ex_a k); cbn; constructor. }
    constructor.
    + constructor; [|constructor; [|constructor]]; cbn; (apply DL_block; cbn; [repeat constructor; intros []|constructor; [apply HN|constructor]]).
    + intros k. rewrite !values_of_cons. destruct (key_eqb ex_b k); cbn; [|constructor]. constructor; [intros [H|[]]; discriminate|constructor; [intros []|constructor]].
  - apply C48_map. destruct C48_nonvacuous as (_ & _ & H). inversion H as [|? Hs| |? HA|]; subst; [discriminate|]. inversion HA; assumption.
Qed.

(** ** C51 *)
(** Merging the result of a merge succeeds and gives an equal value. *)
Theorem C51_idempotent : forall v r, merge v (MOk r) ->
  (exists res, merge r res) /\ forall res, merge r res -> exists r', res = MOk r' /\ veq r r'.
Proof.
  intros v r H. apply merge_sound in H as [_ H]. destruct (proj1 merged_again v r H) as [HC HE]. split; [apply merge_total|].
  intros [r'|e] Hr; first [apply merge_ok in Hr|apply merge_err in Hr].
  - exists r'. split; [reflexivity|]. apply HE, Hr.
  - elim (proj1 can_no_conflict r e HC Hr).
Qed.
(** A map that is a table comes back as it is. *)
Theorem C51_merged_map : forall m res, map_merge (Merged m) res <-> res = MOk (Merged m).
Proof. intros m res. reflexivity. Qed.
(** So does, up to table order, any value that is merged throughout. *)
Lemma AllMerged_again : (forall v, AllMerged v -> WfTables v -> CanMerge v /\ forall r', MergesTo v r' -> veq v r') /\ (forall p : mapvalues, True).
Proof.
  apply value_map_ind.
  1: intros _ _; split; [constructor|]; intros r' H'; inversion H'; subst; apply veq_refl.
  1-4: intros x _ _; (split; [apply CM_scalar; reflexivity|]); intros r' H'; inversion H'; subst; apply veq_refl.
  - intros l IH HM HW. inversion HM as [|? Hs|? HA| |]; subst; [discriminate|]. inversion HW as [|? Hs|? HB| |]; subst; [discriminate|].
    assert (HX : Forall (fun v => CanMerge v /\ forall r', MergesTo v r' -> veq v r') l).
    { clear - IH HA HB. induction l; constructor; inversion IH; inversion HA; inversion HB; subst; auto. }
    split; [constructor; eapply Forall_impl; [|exact HX]; intros a []; assumption|].
    intros r' H'. inversion H' as [|? Hs|? l2 HF'| |]; subst; [discriminate|]. constructor.
    clear - HX HF'. induction HF' as [|a b l' l2 Hab _ IHF]; [constructor|]. inversion HX as [|? ? [_ Ha] Hl]; subst. constructor; auto.
  - intros l _ HM HW. inversion HM as [|? Hs| |? HA|]; subst; [discriminate|].
    split; [constructor; eapply Forall_impl; [|exact HA]; intros a Ha; inversion Ha; constructor|].
    intros r' H'. inversion H' as [|? Hs| |? l2 HF'|]; subst; [discriminate|]. constructor.
    clear - HA HF'. induction HF' as [|a b l' l2 Hab _ IHF]; [constructor|]. inversion HA as [|? ? Hm Hl]; subst. inversion Hm; subst. inversion Hab; subst. constructor; [apply veq_refl|auto].
  - intros b _ HM HW. inversion HM as [|? Hs| | |m HA]; subst; [discriminate|]. inversion HW as [|? Hs| | |? HN HB]; subst; [discriminate|].
    split; [constructor; cbn; eapply Forall_impl; [|exact HA]; intros a Ha; inversion Ha; constructor|].
    intros r' H'. inversion H' as [|? Hs| | |? l2 m' HF' HT']; subst; [discriminate|]. cbn in HF'.
    assert (E : l2 = m).
    { clear - HA HF'. induction HF' as [|[ka a] [kb b] l' l2 [E Hab] _ IHF]; [reflexivity|]. inversion HA as [|? ? Hm Hl]; subst. cbn in *. inversion Hm; subst. inversion Hab; subst. f_equal. auto. }
    subst l2. apply (VE_block_m m m' m'); [apply TableOf_distinct; [exact HN|exact HT']|]. apply Forall2_refl_in. apply Forall_forall. intros x _. split; [reflexivity|apply veq_refl].
  - intros; exact I.
Qed.
Theorem C51_merged_value : forall v, AllMerged v -> WfTables v ->
  (exists res, merge v res) /\ forall res, merge v res -> exists r, res = MOk r /\ veq v r.
Proof.
  intros v HM HW. destruct (proj1 AllMerged_again v HM HW) as [HC HE]. split; [apply merge_total|].
  intros [r'|e] Hr; first [apply merge_ok in Hr|apply merge_err in Hr].
  - exists r'. split; [reflexivity|]. apply HE, Hr.
  - elim (proj1 can_no_conflict v e HC Hr).
Qed.
Print Assumptions C51_idempotent.
Print Assumptions C51_merged_map.
Print Assumptions C51_merged_value.
Example C51_nonvacuous : exists v r, merge v (MOk r) /\ AllMerged r /\ WfTables r /\ ~ AllMerged v.
Proof.
  exists (VObject [ex_dup]), (VObject [ex_dup_merged]). split.
  - cbn. apply mbind_ok. eexists. split; [|apply mret_ok; reflexivity]. apply mbind_ok. eexists. split; [exact run_dup|].
    apply mbind_ok. eexists. split; apply mret_ok; reflexivity.
  - split; [repeat (cbn; first [apply AM_map|apply AM_object|apply AM_block|apply AM_scalar; reflexivity|apply Forall_cons|apply Forall_nil])|]. split; [repeat (cbn; first [apply WF_map|apply WF_object|apply WF_block|apply WF_scalar; reflexivity|apply Forall_cons|apply Forall_nil|apply NoDup_cons; [intros []|]|apply NoDup_nil])|].
    intros H. inversion H as [|? Hs| |? HA|]; subst; [discriminate|]. inversion HA as [|? ? Hm _]; subst. inversion Hm.
Qed.

(** ** C52 (the values the parser returns: see also PropOld) *)
(** [len] and [is_empty] panic exactly on null. *)
Theorem C52_null_refuted : v_len VNull = None /\ v_is_empty VNull = None /\ len_scalar VNull = None /\
  is_merged VNull = None /\ is_unmerged VNull = None.
Proof. repeat split; reflexivity. Qed.
Theorem C52_len_partial : forall v, (v_len v = None <-> v = VNull) /\ (v_is_empty v = None <-> v = VNull).
Proof. intros v; destruct v; cbn; split; split; intros H; try reflexivity; discriminate. Qed.
(** Without nulls, no method panics, and the two predicates say what they should. *)
Theorem C52_total_partial : forall v, NoNull v ->
  (exists n, v_len v = Some n) /\ (exists b, v_is_empty v = Some b) /\ (exists n, len_scalar v = Some n) /\
  (exists b, is_merged v = Some b /\ (b = true <-> AllMerged v)) /\
  (exists b, is_unmerged v = Some b /\ (b = true <-> AllUnmerged v)).
Proof.
  intros v HN. split; [|split; [|apply (proj1 methods_total v HN)]].
  - destruct (v_len v) eqn:E; [eexists; reflexivity|]. apply C52_len_partial in E. subst. inversion HN; discriminate.
  - destruct (v_is_empty v) eqn:E; [eexists; reflexivity|]. apply C52_len_partial in E. subst. inversion HN; discriminate.
Qed.
Theorem C52_total_map_partial : forall p, NoNullMap p ->
  (exists n, map_len_scalar p = Some n) /\
  (exists b, map_is_merged p = Some b /\ (b = true <-> AllMergedMap p)) /\
  (exists b, map_is_unmerged p = Some b /\ (b = true <-> AllUnmergedMap p)).
Proof. apply methods_total. Qed.
Print Assumptions C52_null_refuted.
Print Assumptions C52_len_partial.
Print Assumptions C52_total_partial.
Print Assumptions C52_total_map_partial.
Example C52_nonvacuous : NoNullMap ex_dup /\ map_is_unmerged ex_dup = Some true /\ map_is_unmerged (Unmerged [(ex_a, VNull)]) = None.
Proof. split; [apply ex_dup_unmerged|split; reflexivity]. Qed.

(** ** C54 *)
(** [Borrow] asks that keys be equal exactly when their borrowed forms are. *)
Theorem C54_borrow_contract_refuted : ~ (forall k k', key_eqb k k' = true <-> key_str k = key_str k').
Proof. intros H. specialize (H (KeyIdent (lit "a")) (KeyString (lit "a"))). destruct H as [_ H]. specialize (H eq_refl). discriminate. Qed.
(** So a merged map can hold two entries for one text, and a lookup may return either. *)
Theorem C54_ambiguous_lookup_refuted : exists l m, map_merge (Unmerged l) (MOk (Merged m)) /\
  get_single key_str str_eqb (Merged m) (lit "a") (Some (VInteger 1)) /\
  get_single key_str str_eqb (Merged m) (lit "a") (Some (VInteger 2)).
Proof.
  exists [(KeyIdent (lit "a"), VInteger 1); (KeyString (lit "a"), VInteger 2)], [(KeyIdent (lit "a"), VInteger 1); (KeyString (lit "a"), VInteger 2)].
  split; [|split; [exists (KeyIdent (lit "a"))|exists (KeyString (lit "a"))]; cbn; auto].
  cbn. apply mbind_ok. eexists. split; [apply mret_ok; reflexivity|]. apply mbind_ok. eexists. split; [apply mret_ok; reflexivity|].
  apply mbind_ok. eexists. split; [apply mchoose_ok; reflexivity|]. apply mbind_ok. eexists. split; [apply mret_ok; reflexivity|].
  apply mbind_ok. eexists. split.
  - cbn. apply mbind_ok. eexists. split; apply mret_ok; reflexivity.
  - apply mbind_ok. eexists. split; [apply mchoose_ok; reflexivity|]. apply mchoose_ok. eexists. split; reflexivity.
Qed.
(** The rest of the contract holds: equality is an equivalence that decides equality of
    keys, equal keys have equal hashes and equal borrowed forms, a key hashes like its
    borrowed form, and its entry is never missed. *)
Theorem C54_key_partial :
  (forall k k', key_eqb k k' = true <-> k = k') /\
  (forall k k', key_eqb k k' = true -> key_hash_input k = key_hash_input k' /\ key_str k = key_str k') /\
  (forall k, key_hash_input k = key_str k) /\
  (forall s s', key_eqb (key_from_str s) (key_from_str s') = true <-> s = s') /\
  (forall k, key_eqb (key_as_owned k) k = true) /\
  (forall V (p : kvp key V) k v, In (k, v) (entries p) -> exists r, get_single key_str str_eqb p (key_str k) (Some r)) /\
  (forall V (p : kvp key V) k v, In (k, v) (entries p) -> ~ get_single key_str str_eqb p (key_str k) None).
Proof.
  split; [exact key_eqb_eq|]. split; [intros k k' H; apply key_eqb_eq in H; subst; auto|]. split; [reflexivity|].
  split; [intros s s'; cbn; apply str_eqb_eq|]. split; [intros []; cbn; apply str_eqb_refl|].
  assert (HF : forall V (l : list (key * V)) k v, In (k, v) l -> exists kv, find (fun kv => str_eqb (key_str k) (key_str (fst kv))) l = Some kv).
  { intros V l k v Hi. destruct (find _ l) as [kv|] eqn:E; [exists kv; reflexivity|]. pose proof (find_none _ _ E _ Hi) as H. cbn in H. rewrite str_eqb_refl in H. discriminate. }
  split.
  - intros V [m|l] k v Hi; cbn in *; [exists v, k; split; [exact Hi|apply str_eqb_refl]|]. destruct (HF V l k v Hi) as [[k' v'] E]. exists v'. rewrite E. reflexivity.
  - intros V [m|l] k v Hi; cbn in *; [intros H; specialize (H k v Hi); rewrite str_eqb_refl in H; discriminate|]. destruct (HF V l k v Hi) as [[k' v'] E]. rewrite E. discriminate.
Qed.
Print Assumptions C54_borrow_contract_refuted.
Print Assumptions C54_ambiguous_lookup_refuted.
Print Assumptions C54_key_partial.

(** ** C67: the result of a merge, in closed form *)
Theorem C67_result : forall v r, merge v (MOk r) -> MergesTo v r.
Proof. intros v r H. apply (merge_ok v r H). Qed.
Theorem C67_result_map : forall p r, map_merge p (MOk r) -> MapMergesTo p r.
Proof. intros v r H. apply (mmerge_ok v r H). Qed.
(** ... which determines it, up to the order of tables, and is always possible. *)
Theorem C67_closed_form : forall v, 
  (CanMerge v -> exists r, merge v (MOk r) /\ MergesTo v r) /\
  (forall r r', MergesTo v r -> MergesTo v r' -> veq r r') /\
  (forall r, MergesTo v r -> CanMerge v -> exists r', merge v (MOk r') /\ veq r' r).
Proof.
  intros v. split; [|split].
  - intros HC. apply C48_value in HC as [r H]. exists r. split; [exact H|apply C67_result, H].
  - apply MergesTo_det.
  - intros r Hr HC. apply C48_value in HC as [r' H]. exists r'. split; [exact H|]. apply (proj1 MergesTo_det v); [apply C67_result, H|exact Hr].
Qed.
(** [Block::merge] of a vector of blocks agrees with [Value::merge] of the block value. *)
Lemma block_new_merged_map l : forall h0 h m r, Forall2 (fun a b => fst b = fst a /\ (CanMergeMap (snd a) /\ MapMergesTo (snd a) (snd b))) h0 h -> TableOf h m ->
  block_new_merged map_merge m l r ->
  match r with
  | MOk b => CanMerge (VBlock (Unmerged (h0 ++ l))) /\ MergesTo (VBlock (Unmerged (h0 ++ l))) (VBlock b)
  | MErr e => FirstConflict (VBlock (Unmerged (h0 ++ l))) e
  end.
Proof.
  induction l as [|[ls p] l IH]; intros h0 h m r HF HT H; cbn in H.
  - rewrite app_nil_r. destruct H as (b & (m' & HP & ->) & ->). split.
    + apply CM_block. cbn. clear - HF. induction HF as [|a b l l' (_ & H & _) _ IH]; constructor; auto.
    + apply (MT_block (Unmerged h0) h m'); [|eapply TableOf_perm; eassumption]. cbn. eapply Forall2_imp; [|exact HF]. intros a b (? & _ & ?). auto.
  - destruct H as [(p' & Hp & H)|(e & He & ->)].
    + apply mmerge_ok in Hp. destruct H as [(m2 & HP & H)|(e & He & _)]; [|elim (mchoose_err _ _ He)]. rewrite mchoose_ok in HP.
      specialize (IH (h0 ++ [(ls, p)]) (h ++ [(ls, p')]) m2 r). rewrite <- app_assoc in IH. apply IH; [|eapply TableOf_perm; [exact HP|apply TableOf_put; [exact labels_eqb_eq|exact HT]]|exact H].
      apply Forall2_app; [exact HF|]. constructor; [|constructor]. cbn. auto.
    + apply mmerge_err in He. apply (FC_block _ h0 ls p l); [reflexivity| |exact He].
      clear - HF. induction HF as [|a b l l' (_ & H & _) _ IH]; constructor; auto.
Qed.
Theorem C67_block_merge : forall l res, block_merge (Unmerged l) res ->
  match res with
  | MOk b => CanMerge (VBlock (Unmerged l)) /\ MergesTo (VBlock (Unmerged l)) (VBlock b)
  | MErr e => FirstConflict (VBlock (Unmerged l)) e
  end.
Proof. intros l res H. apply (block_new_merged_map l [] [] [] res); [constructor|apply TableOf_nil|exact H]. Qed.
Print Assumptions C67_result.
Print Assumptions C67_result_map.
Print Assumptions C67_closed_form.
Print Assumptions C67_block_merge.
Example C67_nonvacuous : MapMergesTo ex_dup ex_dup_merged /\ ~ MapMergesTo ex_dup (Merged []).
Proof.
  split; [apply C67_result_map, run_dup|]. intros H. inversion H as [|? ? ? ? ? HK]; subst. destruct (HK ex_b) as [_ HK']. apply HK'. left. reflexivity.
Qed.

(** ** C68: [as_owned] of a value is an equal value *)
Theorem C68_as_owned : forall v, WfTables v -> (exists r, v_as_owned v r) /\ forall r, v_as_owned v r -> veq v r.
Proof. intros v HW. split; [apply as_owned_total|]. intros r H. apply (proj1 as_owned_eq v r H HW). Qed.
Theorem C68_as_owned_map : forall p, WfTablesMap p -> (exists r, m_as_owned p r) /\ forall r, m_as_owned p r -> meq p r.
Proof. intros v HW. split; [apply as_owned_total|]. intros r H. apply (proj2 as_owned_eq v r H HW). Qed.
(** [Block::borrow_keys] is the same block: the same flavour, the same blocks under the same
    labels, in the same order if it is unmerged. *)
Theorem C68_borrow_keys : forall b, match b with Merged m => NoDup (map fst m) | Unmerged _ => True end ->
  (exists r, borrow_keys b r) /\
  forall r, borrow_keys b r -> match b with Unmerged l => r = Unmerged l | Merged m => exists m', r = Merged m' /\ Permutation m m' end.
Proof.
  intros [m|l] H; cbn [borrow_keys].
  - split. { destruct (hm_extend_total labels_eqb m []) as (m' & Hm). exists (Merged m'), m'. auto. }
    intros r (m' & Hm & ->). exists m'. split; [reflexivity|].
    exact (hm_extend_self _ labels_eqb_eq _ _ H Hm).
  - split; [exists (Unmerged l); reflexivity|]. intros r ->. reflexivity.
Qed.
Print Assumptions C68_borrow_keys.
Print Assumptions C68_as_owned.
Print Assumptions C68_as_owned_map.
Example C68_nonvacuous : WfTablesMap ex_dup_merged /\ meq (Merged [(ex_a, VNull); (ex_b, VNull)]) (Merged [(ex_b, VNull); (ex_a, VNull)]) /\
  ~ meq (Unmerged [(ex_a, VNull); (ex_b, VNull)]) (Unmerged [(ex_b, VNull); (ex_a, VNull)]).
Proof.
  split; [repeat (cbn; first [apply WF_map|apply WF_object|apply WF_block|apply WF_scalar; reflexivity|apply Forall_cons|apply Forall_nil|apply NoDup_cons; [intros []|]|apply NoDup_nil])|]. split.
  - apply (ME_m _ [(ex_b, VNull); (ex_a, VNull)]); [constructor|]. repeat constructor; apply VE_null.
  - intros H. inversion H as [? ? HF|]; subst. inversion HF as [|? ? ? ? [E _] _]; subst. discriminate.
Qed.

(** ** C69: unmerging and merging again *)
(** [unmerge] turns the outer table into a vector of the same entries; merging that gives
    the table back. *)
Lemma Combined_single (v r : value) : Combined [v] r -> r = v.
Proof. intros H. inversion H; reflexivity. Qed.
Lemma values_of_nodup k v m : NoDup (map fst m) -> In (k, v) m -> values_of k m = [v].
Proof.
  intros HD Hi. apply in_split in Hi as (m1 & m2 & ->). rewrite map_app in HD. cbn in HD. apply NoDup_remove_2 in HD. rewrite in_app_iff in HD.
  change ((k, v) :: m2) with ([(k, v)] ++ m2). rewrite !values_of_app, values_of_one, key_eqb_refl.
  assert (E1 : values_of k m1 = []) by (apply values_of_none; tauto). assert (E2 : values_of k m2 = []) by (apply values_of_none; tauto). rewrite E1, E2. reflexivity.
Qed.
Theorem C69_unmerge_merge : forall p m, AllUnmergedMap p -> map_merge p (MOk (Merged m)) ->
  unmerge (Merged m) = Unmerged m /\
  (exists res, map_merge (unmerge (Merged m)) res) /\
  forall res, map_merge (unmerge (Merged m)) res -> exists r, res = MOk r /\ meq (Merged m) r.
Proof.
  intros p m HU H. split; [reflexivity|]. split; [apply merge_total|]. cbn [unmerge].
  destruct (C47_all_merged_map p _ HU H) as (HM & HW & _). inversion HM as [? HMm]; subst. inversion HW as [? HN HWm]; subst. cbn in HN, HWm.
  assert (HX : Forall (fun kv => CanMerge (snd kv) /\ forall r', MergesTo (snd kv) r' -> veq (snd kv) r') m).
  { apply Forall_forall. intros kv Hi. rewrite Forall_forall in HMm, HWm. apply AllMerged_again; auto. }
  assert (HC : CanMergeMap (Unmerged m)).
  { constructor; [eapply Forall_impl; [|exact HX]; intros kv []; assumption|]. intros k. left. destruct (values_of k m) as [|v vs] eqn:E; [cbn; lia|].
    assert (Hi : In v (values_of k m)) by (rewrite E; left; reflexivity). apply values_of_in in Hi. rewrite (values_of_nodup k v m HN Hi) in E. injection E as <-. cbn. lia. }
  intros [r|e] Hr; first [apply mmerge_ok in Hr|apply mmerge_err in Hr]; [|elim (proj2 can_no_conflict _ e HC Hr)]. destruct Hr as [_ Hr]. exists r. split; [reflexivity|].
  inversion Hr as [|? l' m' HF HD HK HCo]; subst.
  assert (HF2 : Forall2 (fun a b => fst b = fst a /\ veq (snd a) (snd b)) m l').
  { clear - HX HF. induction HF as [|a b l l' [E Hab] _ IH]; constructor; inversion HX as [|? ? [_ Ha] Hl]; subst; auto. }
  destruct (tables_related veq m' m HN HD) as (m1 & HP & HR); [intros k; rewrite HK; reflexivity| |eapply ME_m; eassumption].
  intros k v v' Hi Hi'. apply HCo in Hi'. pose proof (values_of_Forall2 veq m l' k HF2) as HV. rewrite (values_of_nodup k v m HN Hi) in HV.
  inversion HV as [|? y ? ? Hy Hl Ev El]; subst. inversion Hl; subst. rewrite <- El in Hi'. apply Combined_single in Hi'. subst. exact Hy.
Qed.
Print Assumptions C69_unmerge_merge.
Example C69_nonvacuous : AllUnmergedMap ex_dup /\ map_merge ex_dup (MOk ex_dup_merged).
Proof. split; [apply ex_dup_unmerged|exact run_dup]. Qed.
