(** * Property theorems: the outcomes of merging are exactly those of the specification (C67) *)
From Coq Require Import Permutation.
From Verif Require Import Base NomFacts Kvp PropKvp Value ValueSpec ValueProofs PropValue MergeExec.

Lemma app_last_inv {A} (l1 l2 : list A) x y : l1 ++ [x] = l2 ++ [y] -> l1 = l2 /\ x = y.
Proof. apply app_inj_tail. Qed.
Lemma map_snoc {A B} (f : A -> B) l vs new : vs ++ [new] = map f l -> exists l0 x, l = l0 ++ [x] /\ vs = map f l0 /\ new = f x.
Proof.
  intros E. destruct (exists_last (l := l)) as (l0 & x & ->); [intros ->; destruct vs; discriminate|].
  rewrite map_app in E. cbn in E. apply app_inj_tail in E as [-> ->]. eauto.
Qed.
Lemma TableOf_hm_extend {K V} (e : K -> K -> bool) (He : Eqb e) (h m l m' : list (K * V)) : TableOf h m -> TableOf (h ++ l) m' -> hm_extend e m l m'.
Proof.
  intros Hm Hm'. destruct (hm_extend_total e l m) as (m2 & H2). pose proof (TableOf_extend e He _ _ _ _ Hm H2) as HT.
  pose proof (TableOf_unique _ _ _ HT Hm') as HP. clear - H2 HP. induction H2 as [m m2 H|m k v m1 l m2 H _ IH].
  - constructor. etransitivity; eassumption.
  - econstructor; [exact H|]. apply IH, HP.
Qed.
Lemma map_inj {A B} (f : A -> B) (g : B -> A) : (forall x, g (f x) = x) -> forall l l', map f l = map f l' -> l = l'.
Proof. intros H l l' E. apply (f_equal (map g)) in E. rewrite !map_map, (map_ext _ (fun x => x)), (map_ext (fun x => g (f x)) (fun x => x)), !map_id in E; auto. Qed.
Lemma map_objects_inj l l' : map VObject l = map VObject l' -> l = l'.
Proof. apply (map_inj VObject (fun v => match v with VObject x => x | _ => [] end)). reflexivity. Qed.
Lemma map_blocks_inj l l' : map VBlock l = map VBlock l' -> l = l'.
Proof. apply (map_inj VBlock (fun v => match v with VBlock x => x | _ => Unmerged [] end)). reflexivity. Qed.
Lemma Combined_objects ls old : Combined (map VObject ls) old -> old = VObject (concat ls).
Proof.
  intros H. remember (map VObject ls) as vs eqn:E. destruct H as [v|l1 l2 l|b1 b2 bs m HT].
  - destruct ls as [|a [|]]; try discriminate. injection E as ->. cbn. rewrite app_nil_r. reflexivity.
  - apply map_objects_inj in E. subst. reflexivity.
  - destruct ls as [|a ls]; discriminate.
Qed.
Lemma Combined_blocks bs old : Combined (map VBlock bs) old -> Forall BlockMerged (map VBlock bs) ->
  exists m, old = VBlock (Merged m) /\ TableOf (concat (map entries bs)) m.
Proof.
  intros H HB. remember (map VBlock bs) as vs eqn:E. destruct H as [v|l1 l2 l|b1 b2 bs' m HT].
  - destruct bs as [|a [|]]; try discriminate. injection E as ->. inversion HB as [|? ? H1 _]; subst. destruct (H1 a eq_refl) as (ma & -> & HN).
    exists ma. split; [reflexivity|]. cbn. rewrite app_nil_r. apply TableOf_self, HN.
  - destruct bs as [|a bs]; discriminate.
  - apply map_blocks_inj in E. subst. exists m. auto.
Qed.
Lemma combined_into k vs old new w : Combined vs old -> Forall BlockMerged vs -> BlockMerged new -> Combined (vs ++ [new]) w -> merge_into k old new (MOk w).
Proof.
  intros HC HB Hn HW. remember (vs ++ [new]) as l eqn:E. destruct HW as [v|l1 l2 ls|b1 b2 bs m HT].
  - destruct vs as [|a [|]]; [inversion HC|discriminate E|discriminate E].
  - symmetry in E. apply map_snoc in E as (l0 & x & E & -> & ->). destruct l0 as [|a l0]; [discriminate E|]. rewrite E.
    pose proof (Combined_objects _ _ HC) as Eo.
    subst old. cbn [merge_into]. unfold mret. do 2 f_equal. rewrite concat_app. cbn [concat]. rewrite app_nil_r. reflexivity.
  - symmetry in E. apply map_snoc in E as (l0 & x & E & -> & ->). destruct l0 as [|a l0]; [discriminate E|]. rewrite E, map_app, concat_app in HT.
    cbn [map concat] in HT. rewrite app_nil_r in HT.
    assert (Eo : exists mo, old = VBlock (Merged mo) /\ TableOf (concat (map entries (a :: l0))) mo).
    { apply Combined_blocks; assumption. }
    destruct Eo as (mo & -> & Ho). cbn [merge_into]. apply mchoose_ok. eexists. split; [|reflexivity]. exists m. split; [|reflexivity].
    eapply TableOf_hm_extend; [exact labels_eqb_eq|exact Ho|exact HT].
Qed.
Lemma entry_new k v m : ~ In k (map fst m) -> merge_entry k v m (MOk (m ++ [(k, v)])).
Proof.
  induction m as [|[k' o] m IH]; cbn; intros Hn; [reflexivity|]. destruct (key_eqb k' k) eqn:E; [apply key_eqb_eq in E; tauto|].
  apply mbind_ok. exists (m ++ [(k, v)]). split; [apply IH; tauto|reflexivity].
Qed.
Lemma entry_old k v old w m1 m2 : ~ In k (map fst m1) -> merge_into k old v (MOk w) -> merge_entry k v (m1 ++ (k, old) :: m2) (MOk (m1 ++ (k, w) :: m2)).
Proof.
  intros Hn Hw. induction m1 as [|[k' o] m1 IH]; cbn.
  - rewrite key_eqb_refl. apply mbind_ok. exists w. split; [exact Hw|reflexivity].
  - cbn in Hn. destruct (key_eqb k' k) eqn:E; [apply key_eqb_eq in E; tauto|]. apply mbind_ok. exists (m1 ++ (k, w) :: m2). split; [apply IH; tauto|reflexivity].
Qed.
Definition RunPair (f : value -> M value) (a b : key * value) : Prop := f (snd a) (MOk (snd b)) /\ MergedPair a b.
Lemma map_run f l l' : Forall2 (RunPair f) l l' -> forall l1 l1' m1 m, Inv l1 l1' m1 -> NoDup (map fst m) ->
  (forall k, In k (map fst m) <-> In k (map fst (l1' ++ l'))) -> (forall k v, In (k, v) m -> Combined (values_of k (l1' ++ l')) v) ->
  (forall k v, In (k, v) m1 -> ~ In k (map fst l') -> In (k, v) m) -> map_new_merged f m1 l (MOk (Merged m)).
Proof.
  induction 1 as [|[k v] [k' v'] l l' [Hf HP] HF IH]; intros l1 l1' m1 m HI HN HK HC Hin.
  - cbn. apply mchoose_ok. exists m. split; [|reflexivity]. rewrite app_nil_r in *. destruct HI as [_ HN1 HK1 _].
    apply NoDup_Permutation; [apply NoDup_fst, HN1|apply NoDup_fst, HN|]. intros [k v]. split; [intros H; apply Hin; [exact H|intros []]|].
    intros H. assert (Hk : In k (map fst m1)) by (apply HK1, HK; apply (in_map fst) in H; exact H).
    apply in_keys_split in Hk as (w & Hw). pose proof (Hin _ _ Hw (fun F => F)) as Hw'.
    assert (E : w = v).
    { clear - HN H Hw'. induction m as [|[a x] m IH]; [destruct H|]. cbn in HN. inversion HN as [|? ? Hno HN']; subst. destruct H as [H|H], Hw' as [Hw'|Hw'].
      - congruence.
      - injection H as -> ->. elim Hno. apply (in_map fst) in Hw'. exact Hw'.
      - injection Hw' as -> ->. elim Hno. apply (in_map fst) in H. exact H.
      - apply IH; assumption. }
    subst. exact Hw.
  - destruct HP as (Ek & Hcan & Hm). cbn [fst snd] in *. subst k'. cbn [map_new_merged]. apply mbind_ok. exists v'. split; [exact Hf|].
    assert (Hvals : values_of k (l1' ++ (k, v') :: l') = values_of k l1' ++ v' :: values_of k l').
    { rewrite values_of_app. f_equal. change ((k, v') :: l') with ([(k, v')] ++ l'). rewrite values_of_app, values_of_one, key_eqb_refl. reflexivity. }
    assert (Hkm : exists w, In (k, w) m) by (apply in_keys_split, HK; rewrite map_app, in_app_iff; right; left; reflexivity).
    destruct Hkm as (w & Hw). pose proof (HC _ _ Hw) as Hcw. rewrite Hvals in Hcw.
    (* one step *)
    assert (Hstep : exists m2, merge_entry k v' m1 (MOk m2) /\ Inv (l1 ++ [(k, v)]) (l1' ++ [(k, v')]) m2 /\
      forall k0 v0, In (k0, v0) m2 -> ~ In k0 (map fst l') -> In (k0, v0) m).
    { destruct (in_dec (fun a b : key => match key_eqb a b as c return key_eqb a b = c -> {a = b} + {a <> b} with true => fun E => left (proj1 (key_eqb_eq a b) E) | false => fun E => right (proj1 (key_eqb_neq a b) E) end eq_refl) k (map fst m1)) as [Hold|Hnew].
      - pose proof HI as [HP1 HN1 HK1 HC1]. apply in_keys_split in Hold as (old & Hold). apply in_split in Hold as (a & b & ->).
        assert (Hab : ~ In k (map fst a) /\ ~ In k (map fst b)).
        { rewrite map_app in HN1. cbn in HN1. apply NoDup_remove_2 in HN1. rewrite in_app_iff in HN1. tauto. }
        assert (Hco : Combined (values_of k l1') old) by (apply HC1; apply in_app_iff; right; left; reflexivity).
        assert (HB : Forall BlockMerged (values_of k l1')) by (eapply merges_blockmerged, pairs_values, HP1).
        assert (Hbv : BlockMerged v') by (apply (MergesTo_shape v v' Hm)).
        assert (Hx : exists x, merge_into k old v' (MOk x) /\ (~ In k (map fst l') -> x = w)).
        { destruct (values_of k l') as [|y ys] eqn:Ey.
          - exists w. split; [eapply combined_into; eassumption|auto].
          - destruct (merge_into_total k old v') as ([x|e] & Hx); [exists x|]; [split; [exact Hx|]|].
            + intros Hno. apply values_of_none in Hno. congruence.
            + exfalso. eapply Clash_samekind; [eapply merge_into_err; eassumption|eapply Combined_samekind; exact Hcw]. }
        destruct Hx as (x & Hx & Hxw). exists (a ++ (k, x) :: b). split; [apply entry_old; [apply Hab|exact Hx]|]. split; [eapply Inv_step_old; eassumption|].
        intros k0 v0 Hi Hno. apply in_app_iff in Hi as [Hi|[Hi|Hi]].
        + apply Hin; [apply in_app_iff; left; exact Hi|]. cbn. intros [<-|]; [|auto]. apply (proj1 Hab). apply (in_map fst) in Hi. exact Hi.
        + injection Hi as <- <-. rewrite (Hxw Hno). exact Hw.
        + apply Hin; [apply in_app_iff; right; right; exact Hi|]. cbn. intros [<-|]; [|auto]. apply (proj2 Hab). apply (in_map fst) in Hi. exact Hi.
      - exists (m1 ++ [(k, v')]). split; [apply entry_new, Hnew|]. split; [apply Inv_step_new; assumption|].
        intros k0 v0 Hi Hno. apply in_app_iff in Hi as [Hi|[Hi|[]]].
        + apply Hin; [exact Hi|]. cbn. intros [<-|]; [|auto]. apply Hnew. apply (in_map fst) in Hi. exact Hi.
        + injection Hi as <- <-. destruct HI as [_ _ HK1 _]. rewrite HK1 in Hnew. apply values_of_none in Hnew. apply values_of_none in Hno.
          rewrite Hnew, Hno in Hcw. cbn in Hcw. apply Combined_single in Hcw. subst. exact Hw. }
    destruct Hstep as (m2 & He & HI2 & Hin2). apply mbind_ok. exists m2. split; [exact He|]. apply mbind_ok. exists m2. split; [apply mchoose_ok; reflexivity|].
    apply (IH _ _ _ _ HI2 HN); [| |exact Hin2]; rewrite <- app_assoc; assumption.
Qed.
Lemma block_run l : forall h m m', TableOf h m -> TableOf (h ++ l) m' -> block_new_merged mret m l (MOk (Merged m')).
Proof.
  induction l as [|[ls p] l IH]; intros h m m' Hm Hm'; cbn.
  - rewrite app_nil_r in Hm'. apply mchoose_ok. exists m'. split; [|reflexivity]. eapply TableOf_unique; eassumption.
  - apply mbind_ok. exists p. split; [reflexivity|]. apply mbind_ok. eexists. split; [apply mchoose_ok; reflexivity|].
    apply (IH (h ++ [(ls, p)])); [apply TableOf_put; [exact labels_eqb_eq|exact Hm]|]. rewrite <- app_assoc. exact Hm'.
Qed.
Lemma merge_complete : (forall v r, MergesTo v r -> CanMerge v /\ merge v (MOk r)) /\ (forall p r, MapMergesTo p r -> CanMergeMap p /\ map_merge p (MOk r)).
Proof.
  apply value_map_ind.
  1-5: intros; match goal with H : MergesTo _ _ |- _ => inversion H; subst end; split; try reflexivity; first [apply CM_null|apply CM_scalar; assumption].
  - intros l IH r H. inversion H as [|? Hs|? l' HF| |]; subst; [discriminate|].
    assert (HB : Forall CanMerge l /\ Forall2 (fun x y => merge x (MOk y)) l l').
    { clear H. induction HF as [|a b l l' Hab _ IHl]; [split; constructor|]. inversion IH as [|? ? Ha IH']; subst. destruct (IHl IH'), (Ha _ Hab). split; constructor; assumption. }
    destruct HB as [HB1 HB2]. split; [apply CM_list, HB1|]. cbn. apply mbind_ok. exists l'. split; [apply mmap_ok, HB2|reflexivity].
  - intros l IH r H. inversion H as [|? Hs| |? l' HF|]; subst; [discriminate|].
    assert (HB : Forall CanMergeMap l /\ Forall2 (fun x y => map_merge x (MOk y)) l l').
    { clear H. induction HF as [|a b l l' Hab _ IHl]; [split; constructor|]. inversion IH as [|? ? Ha IH']; subst. destruct (IHl IH'), (Ha _ Hab). split; constructor; assumption. }
    destruct HB as [HB1 HB2]. split; [apply CM_object, HB1|]. cbn. apply mbind_ok. exists l'. split; [apply mmap_ok, HB2|reflexivity].
  - intros b IH r H. inversion H as [|? Hs| | |? l' m HF HT]; subst; [discriminate|].
    assert (HB : Forall (fun kv => CanMergeMap (snd kv)) (entries b) /\
      Forall2 (fun x y => mbind (map_merge_with merge (snd x)) (fun p => mret (fst x, p)) (MOk y)) (entries b) l').
    { clear H HT. revert IH HF. generalize (entries b). intros l IH HF. induction HF as [|x [k p] l l' [E Hab] _ IHl]; [split; constructor|].
      inversion IH as [|? ? Ha IH']; subst. destruct (IHl IH') as [H1 H2], (Ha _ Hab) as [H3 H4]. cbn in E, H4. subst k.
      split; constructor; try assumption. apply mbind_ok. exists p. split; [exact H4|reflexivity]. }
    destruct HB as [HB1 HB2]. split; [apply CM_block, HB1|]. cbn. apply mbind_ok. exists l'. split; [apply mmap_ok, HB2|].
    apply mbind_ok. exists (Merged m). split; [|reflexivity]. apply (block_run l' [] [] m); [apply TableOf_nil|exact HT].
  - intros p IH r H. inversion H as [m|l l' m HF HN HK HC]; subst; [split; [constructor|reflexivity]|]. cbn [entries] in IH.
    assert (HR : Forall2 (RunPair merge) l l').
    { clear - IH HF. induction HF as [|a b l l' [E Hab] _ IHl]; [constructor|]. inversion IH as [|? ? Ha IH']; subst. destruct (Ha _ Hab). constructor; [|apply IHl, IH'].
      split; [assumption|]. split; [exact E|]. split; assumption. }
    assert (Hrun : map_merge (Unmerged l) (MOk (Merged m))).
    { apply (map_run merge l l' HR [] [] [] m Inv_nil HN); [|exact HC|intros k v []]. intros k. cbn. rewrite HK. rewrite (Forall2_keys _ _ _ HF). reflexivity. }
    split; [|exact Hrun]. apply (mmerge_ok _ _ Hrun).
Qed.

(** The outcomes of merging a value, a map or a block are exactly those the specification
    describes: the set of results, with every order of the tables, and the one error. *)
Theorem C67_exact : forall v,
  (forall r, merge v (MOk r) <-> MergesTo v r) /\ (forall e, merge v (MErr e) <-> FirstConflict v e).
Proof.
  intros v. split; [|apply C48_value]. intros r. split; [apply C67_result|apply merge_complete].
Qed.
Theorem C67_exact_map : forall p,
  (forall r, map_merge p (MOk r) <-> MapMergesTo p r) /\ (forall e, map_merge p (MErr e) <-> FirstConflictMap p e).
Proof.
  intros v. split; [|apply C48_map]. intros r. split; [apply C67_result_map|apply merge_complete].
Qed.
(** A value merges exactly if it has a merged form. *)
Theorem C67_mergeable : forall v, CanMerge v <-> exists r, MergesTo v r.
Proof.
  intros v. split; [intros HC; apply C48_value in HC as [r H]; exists r; apply C67_result, H|intros [r H]; apply (proj1 merge_complete v r H)].
Qed.
Print Assumptions C67_exact.
Print Assumptions C67_exact_map.
Print Assumptions C67_mergeable.
(** Both orders of a table of two are outcomes. *)
Definition two : mapvalues := Unmerged [(ex_a, VInteger 1); (ex_b, VInteger 2)].
Example C67_exact_nonvacuous : map_merge two (MOk (Merged [(ex_a, VInteger 1); (ex_b, VInteger 2)])) /\
  map_merge two (MOk (Merged [(ex_b, VInteger 2); (ex_a, VInteger 1)])) /\ ~ map_merge two (MOk (Merged [(ex_a, VInteger 1)])).
Proof.
  assert (Hl : Forall2 (fun a b : key * value => fst b = fst a /\ MergesTo (snd a) (snd b)) [(ex_a, VInteger 1); (ex_b, VInteger 2)] [(ex_a, VInteger 1); (ex_b, VInteger 2)]).
  { repeat constructor. }
  split; [|split].
  - apply C67_exact_map. apply (MT_unmerged _ _ _ Hl).
    + repeat constructor; cbn; intuition discriminate.
    + intros k. reflexivity.
    + intros k v [[= <- <-]|[[= <- <-]|[]]]; apply CO_one.
  - apply C67_exact_map. apply (MT_unmerged _ _ _ Hl).
    + repeat constructor; cbn; intuition discriminate.
    + intros k. cbn. tauto.
    + intros k v [[= <- <-]|[[= <- <-]|[]]]; apply CO_one.
  - intros H. apply C67_exact_map in H. inversion H as [|? l' m HF HN HK HC]; subst. destruct (proj2 (HK ex_b) (or_intror (or_introl eq_refl))) as [E|[]]. discriminate.
Qed.
