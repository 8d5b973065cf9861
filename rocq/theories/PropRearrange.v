(** * Property theorems: the order of entries and the merged value (C130) *)
From Coq Require Import Permutation.
From Verif Require Import Base Ast Grammar Nom Lex Parser NumConv Kvp PropKvp Value ValueSpec ValueProofs PropValue MergeExec
  OldParser OldGrammar PropOld OldMeetsSpec PropOldMeets PropOldAppend RearrangeSpec RearrangeProofs.

(** C130: a map and the same map rearranged can be merged, or not, alike, and the merged maps are equal. *)
Theorem C130_map : forall p p', RMap p p' ->
  ((exists r, map_merge p (MOk r)) <-> (exists r', map_merge p' (MOk r'))) /\
  (forall r r', map_merge p (MOk r) -> map_merge p' (MOk r') -> meq r r').
Proof.
  intros p p' H. apply rearranged in H as [HC HR]. split.
  - rewrite (proj1 (proj2 (C48_map p))), (proj1 (proj2 (C48_map p'))). exact HC.
  - intros r r' Hr Hr'. apply HR; [apply (mmerge_ok p r Hr)|apply (mmerge_ok p' r' Hr')].
Qed.
Theorem C130_value : forall v v', RVal v v' ->
  ((exists r, merge v (MOk r)) <-> (exists r', merge v' (MOk r'))) /\
  (forall r r', merge v (MOk r) -> merge v' (MOk r') -> veq r r').
Proof.
  intros p p' H. apply (proj1 (proj1 rearranged p)) in H as [HC HR]. split.
  - rewrite (proj1 (proj2 (C48_value p))), (proj1 (proj2 (C48_value p'))). exact HC.
  - intros r r' Hr Hr'. apply HR; [apply (merge_ok p r Hr)|apply (merge_ok p' r' Hr')].
Qed.
(** For documents: what [value::from_str] gives with merging. *)
Theorem C130_from_str : forall U s s' p p', from_str U s None (VOk p) -> from_str U s' None (VOk p') -> RMap p p' ->
  ((exists r, from_str U s (Some MBError) (VOk r)) <-> (exists r', from_str U s' (Some MBError) (VOk r'))) /\
  (forall r r', from_str U s (Some MBError) (VOk r) -> from_str U s' (Some MBError) (VOk r') -> meq r r').
Proof.
  intros U s s' p p' H H' HR. apply C70_from_str_grammar in H as (l & -> & H). apply C70_from_str_grammar in H' as (l' & -> & H').
  assert (E : forall x lx r, VDoc U lx x -> from_str U x (Some MBError) (VOk r) <-> map_merge (Unmerged lx) (MOk r)).
  { intros x lx r Hx. destruct (C90_document U x lx Hx (VOk r)) as (_ & HB & _). rewrite HB. split.
    - intros [(m & Hm & [= ->])|(e & _ & [=])]. exact Hm.
    - intros Hm. left. eauto. }
  destruct (C130_map _ _ HR) as [HC HQ]. split.
  - split; intros (r & Hr).
    + apply (E _ _ _ H) in Hr. destruct (proj1 HC (ex_intro _ r Hr)) as (r' & Hr'). exists r'. apply (E _ _ _ H'), Hr'.
    + apply (E _ _ _ H') in Hr. destruct (proj2 HC (ex_intro _ r Hr)) as (r' & Hr'). exists r'. apply (E _ _ _ H), Hr'.
  - intros r r' Hr Hr'. apply (E _ _ _ H) in Hr. apply (E _ _ _ H') in Hr'. apply HQ; assumption.
Qed.
Print Assumptions C130_map.
Print Assumptions C130_value.
Print Assumptions C130_from_str.

Lemma values_of_perm k l l' : Permutation l l' -> Permutation (values_of k l) (values_of k l').
Proof.
  intros H. unfold values_of. apply Permutation_map. induction H; cbn; try reflexivity.
  - destruct (key_eqb (fst x) k); [constructor|]; assumption.
  - destruct (key_eqb (fst x) k), (key_eqb (fst y) k); try reflexivity. constructor.
  - etransitivity; eassumption.
Qed.
Lemma RVal_refl_list vs : Forall2 RVal vs vs.
Proof. induction vs; constructor; [constructor|assumption]. Qed.
(** In particular entries with different keys can be put in any order ... *)
Theorem C130_permutation : forall l l', NoDup (map fst l) -> Permutation l l' -> RMap (Unmerged l) (Unmerged l').
Proof.
  intros l l' HD HP. constructor. intros k. constructor. pose proof (values_of_perm k l l' HP) as H.
  assert (length (values_of k l) <= 1)%nat as HL.
  { clear - HD. unfold values_of. rewrite map_length. induction l as [|[k0 v0] l IH]; cbn; [lia|]. cbn in HD. inversion HD as [|? ? Hn HD']; subst.
    destruct (key_eqb k0 k) eqn:E; cbn; [|apply IH, HD']. apply key_eqb_eq in E. subst k0.
    assert (values_of k l = []) as E by (apply values_of_none, Hn). unfold values_of in E. apply map_eq_nil in E. rewrite E. cbn. lia. }
  destruct (values_of k l) as [|x [|y vs]]; cbn in HL; [apply Permutation_nil in H; rewrite H; constructor|apply Permutation_length_1_inv in H; rewrite H; repeat constructor|lia].
Qed.
(** ... and two documents joined in either order, when their keys are different but for labelled blocks whose labels are
    different. *)
Definition BlocksApart (vs1 vs2 : list value) : Prop :=
  exists bs1 bs2, vs1 = map (fun x => VBlock (Unmerged x)) bs1 /\ vs2 = map (fun x => VBlock (Unmerged x)) bs2 /\
    forall ls, In ls (map fst (concat bs1)) -> In ls (map fst (concat bs2)) -> False.
Definition Apart (l1 l2 : list (key * value)) : Prop :=
  forall k, In k (map fst l1) -> In k (map fst l2) -> BlocksApart (values_of k l1) (values_of k l2).
Lemma bodies_of_none ls l : ~ In ls (map fst l) -> bodies_of ls l = [].
Proof.
  intros H. destruct (bodies_of ls l) as [|p q] eqn:E; [reflexivity|]. elim H. assert (In p (bodies_of ls l)) as Hi by (rewrite E; left; reflexivity).
  apply bodies_of_in in Hi. apply (in_map fst) in Hi. exact Hi.
Qed.
Lemma apart_swap l1 l2 : Apart l1 l2 -> RMap (Unmerged (l1 ++ l2)) (Unmerged (l2 ++ l1)).
Proof.
  intros H. constructor. intros k. rewrite !values_of_app.
  destruct (values_of k l1) as [|v1 vs1] eqn:E1; [rewrite app_nil_r; constructor; apply RVal_refl_list|].
  destruct (values_of k l2) as [|v2 vs2] eqn:E2; [rewrite app_nil_r; constructor; apply RVal_refl_list|].
  destruct (H k) as (bs1 & bs2 & B1 & B2 & HA).
  - apply values_of_key. rewrite E1. discriminate.
  - apply values_of_key. rewrite E2. discriminate.
  - rewrite <- E1, <- E2, B1, B2, <- !map_app. rewrite E1 in B1. rewrite E2 in B2. destruct bs1 as [|b1 bs1]; [discriminate|]. destruct bs2 as [|b2 bs2]; [discriminate|].
    change ((b1 :: bs1) ++ b2 :: bs2) with (b1 :: (bs1 ++ b2 :: bs2)). change ((b2 :: bs2) ++ b1 :: bs1) with (b2 :: (bs2 ++ b1 :: bs1)). refine (RVS_blocks _ _ _ _ _). intros ls.
    change (b1 :: (bs1 ++ b2 :: bs2)) with ((b1 :: bs1) ++ b2 :: bs2). change (b2 :: (bs2 ++ b1 :: bs1)) with ((b2 :: bs2) ++ b1 :: bs1).
    rewrite !concat_app, !bodies_of_app.
    assert (HR : forall x : list mapvalues, Forall2 RMap x x) by (induction x; constructor; [constructor|assumption]).
    destruct (in_dec (list_eq_dec (list_eq_dec N.eq_dec)) ls (map fst (concat (b1 :: bs1)))) as [Hi|Hi].
    + rewrite (bodies_of_none ls (concat (b2 :: bs2))) by (intros Hj; exact (HA ls Hi Hj)). rewrite app_nil_r. apply HR.
    + rewrite (bodies_of_none ls (concat (b1 :: bs1))) by exact Hi. rewrite app_nil_r. apply HR.
Qed.
Theorem C130_joined : forall U s1 s2 l1 l2 n n', from_str U s1 None (VOk (Unmerged l1)) -> from_str U s2 None (VOk (Unmerged l2)) ->
  LineEnd n -> LineEnd n' -> Apart l1 l2 ->
  ((exists r, from_str U (s1 ++ n ++ s2) (Some MBError) (VOk r)) <-> (exists r', from_str U (s2 ++ n' ++ s1) (Some MBError) (VOk r'))) /\
  (forall r r', from_str U (s1 ++ n ++ s2) (Some MBError) (VOk r) -> from_str U (s2 ++ n' ++ s1) (Some MBError) (VOk r') -> meq r r').
Proof.
  intros U s1 s2 l1 l2 n n' H1 H2 Hn Hn' HA. eapply C130_from_str; [eapply C99_concatenation; eassumption|eapply C99_concatenation; eassumption|].
  apply apart_swap, HA.
Qed.
Print Assumptions C130_permutation.
Print Assumptions C130_joined.

(** Where the order does matter: of two blocks with the same labels the last is kept, and objects of one key are kept in
    order; and when merging fails, which conflict is reported depends on the order. *)
Definition doc1 : str := lit "a = 1" ++ [10] ++ lit "b ""x"" { c = 2, }".
Definition doc2 : str := lit "b ""z"" { c = 3, d = [], }".
Definition entries1 : list (key * value) := Eval vm_compute in match old_body ascii_ucd doc1 with Ok _ (Unmerged l) => l | _ => [] end.
Definition entries2 : list (key * value) := Eval vm_compute in match old_body ascii_ucd doc2 with Ok _ (Unmerged l) => l | _ => [] end.
Example C130_nonvacuous :
  from_str ascii_ucd doc1 None (VOk (Unmerged entries1)) /\ from_str ascii_ucd doc2 None (VOk (Unmerged entries2)) /\ Apart entries1 entries2 /\
  (exists r, from_str ascii_ucd (doc1 ++ [10] ++ doc2) (Some MBError) (VOk r)) /\
  doc1 ++ [10] ++ doc2 <> doc2 ++ [10] ++ doc1.
Proof.
  assert (H1 : from_str ascii_ucd doc1 None (VOk (Unmerged entries1))) by (vm_compute; reflexivity).
  assert (H2 : from_str ascii_ucd doc2 None (VOk (Unmerged entries2))) by (vm_compute; reflexivity).
  split; [exact H1|]. split; [exact H2|]. split.
  - intros k H H'. cbn in H, H'. destruct H' as [<-|[]]. exists [[([lit "x"], Unmerged [(KeyIdent (lit "c"), VInteger 2)])]], [[([lit "z"], Unmerged [(KeyIdent (lit "c"), VInteger 3); (KeyIdent (lit "d"), VList [])])]].
    split; [reflexivity|]. split; [reflexivity|]. cbn. intros ls [<-|[]] [E|[]]. discriminate.
  - split; [|vm_compute; discriminate]. destruct (xmap_merge (Unmerged (entries1 ++ entries2))) as [r|e] eqn:E; [|vm_compute in E; discriminate].
    exists r. assert (LineEnd [10]) as HL by (constructor; constructor). apply (C99_concatenation_merged ascii_ucd doc1 doc2 entries1 entries2 [10] _ H1 H2 HL).
    left. exists r. split; [rewrite <- E; apply xmerge_ok|reflexivity].
Qed.
Definition one (n : Z) : mapvalues := Unmerged [(KeyIdent (lit "c"), VInteger n)].
Definition blk (n : Z) : key * value := (KeyIdent (lit "b"), VBlock (Unmerged [([lit "x"], one n)])).
Definition obj (n : Z) : key * value := (KeyIdent (lit "b"), VObject [one n]).
Definition att (k : str) (v : value) : key * value := (KeyIdent k, v).
Example C130_order_matters :
  xmap_merge (Unmerged [blk 1; blk 2]) <> xmap_merge (Unmerged [blk 2; blk 1]) /\
  xmap_merge (Unmerged [obj 1; obj 2]) <> xmap_merge (Unmerged [obj 2; obj 1]) /\
  (exists e e', xmap_merge (Unmerged [att (lit "a") VNull; att (lit "a") VNull; att (lit "b") (VList []); att (lit "b") VNull]) = MErr e /\
    xmap_merge (Unmerged [att (lit "b") (VList []); att (lit "b") VNull; att (lit "a") VNull; att (lit "a") VNull]) = MErr e' /\ e <> e').
Proof.
  split; [vm_compute; discriminate|]. split; [vm_compute; discriminate|]. eexists _, _. split; [vm_compute; reflexivity|]. split; [vm_compute; reflexivity|]. discriminate.
Qed.
