(** * ValueProofs: proofs about merging *)
From Coq Require Import Permutation Lia.
From Verif Require Import Base NomFacts Kvp Value ValueSpec PropKvp.

Lemma Forall2_imp {A B} (P Q : A -> B -> Prop) l l' : (forall a b, P a b -> Q a b) -> Forall2 P l l' -> Forall2 Q l l'.
Proof. intros H. induction 1; constructor; auto. Qed.
(** ** Equality tests *)
Lemma key_eqb_eq : Eqb key_eqb.
Proof.
  intros [a|a] [b|b]; cbn; rewrite ?str_eqb_eq; split; intros H; try congruence; try discriminate; try (injection H as ->; reflexivity).
Qed.
Lemma labels_eqb_eq : Eqb labels_eqb.
Proof.
  intros a. induction a as [|x a IH]; intros [|y b]; cbn; split; intros H; try congruence; try reflexivity.
  - apply andb_prop in H as [H1 H2]. apply str_eqb_eq in H1. apply IH in H2. congruence.
  - injection H as -> ->. rewrite str_eqb_refl. apply IH. reflexivity.
Qed.
Lemma key_eqb_refl k : key_eqb k k = true.
Proof. apply key_eqb_eq. reflexivity. Qed.
Lemma key_eqb_neq a b : key_eqb a b = false <-> a <> b.
Proof.
  destruct (key_eqb a b) eqn:E; split; intros H; try congruence.
  - apply key_eqb_eq in E. congruence.
  - intros ->. rewrite key_eqb_refl in E. discriminate.
Qed.

(** ** The monad *)
Lemma mbind_ok {A B} (c : M A) (f : A -> M B) y : mbind c f (MOk y) <-> exists x, c (MOk x) /\ f x (MOk y).
Proof. unfold mbind. split; [intros [H|(e & _ & [=])]; exact H|intros H; left; exact H]. Qed.
Lemma mbind_err {A B} (c : M A) (f : A -> M B) e : mbind c f (MErr e) <-> c (MErr e) \/ exists x, c (MOk x) /\ f x (MErr e).
Proof.
  unfold mbind. split; [intros [H|(e' & H & [= ->])]; auto|intros [H|H]; [right; exists e; auto|left; exact H]].
Qed.
Lemma mret_ok {A} (x y : A) : mret x (MOk y) <-> y = x.
Proof. unfold mret. split; [intros [= ->]; reflexivity|intros ->; reflexivity]. Qed.
Lemma mret_err {A} (x : A) e : ~ mret x (MErr e).
Proof. intros [=]. Qed.
Lemma mchoose_ok {A} (P : A -> Prop) y : mchoose P (MOk y) <-> P y.
Proof. unfold mchoose. split; [intros (x & H & [= ->]); exact H|intros H; exists y; auto]. Qed.
Lemma mchoose_err {A} (P : A -> Prop) e : ~ mchoose P (MErr e).
Proof. intros (x & _ & [=]). Qed.
Lemma mbind_total {A B} (c : M A) (f : A -> M B) : (exists r, c r) -> (forall x, c (MOk x) -> exists r, f x r) -> exists r, mbind c f r.
Proof.
  intros [[x|e] H] Hf.
  - destruct (Hf x H) as [r Hr]. exists r. left. exists x. auto.
  - exists (MErr e). right. exists e. auto.
Qed.
Lemma mmap_ok {A B} (f : A -> M B) l l' : mmap f l (MOk l') <-> Forall2 (fun x y => f x (MOk y)) l l'.
Proof.
  revert l'. induction l as [|x l IH]; intros l'; cbn.
  - rewrite mret_ok. split; [intros ->; constructor|intros H; inversion H; reflexivity].
  - rewrite mbind_ok. split.
    + intros (y & Hy & H). apply mbind_ok in H as (ys & Hys & H). rewrite mret_ok in H. subst. constructor; [exact Hy|apply IH; exact Hys].
    + intros H. inversion H as [|? y ? ys Hy Hys]; subst. exists y. split; [exact Hy|]. apply mbind_ok. exists ys. split; [apply IH; exact Hys|apply mret_ok; reflexivity].
Qed.
Lemma mmap_err {A B} (f : A -> M B) l e : mmap f l (MErr e) ->
  exists l1 x l2 l1', l = l1 ++ x :: l2 /\ Forall2 (fun x y => f x (MOk y)) l1 l1' /\ f x (MErr e).
Proof.
  induction l as [|x l IH]; cbn; [intros H; elim (mret_err _ _ H)|]. rewrite mbind_err. intros [H|(y & Hy & H)].
  - exists [], x, l, []. repeat split; [constructor|exact H].
  - apply mbind_err in H as [H|(ys & _ & H)]; [|elim (mret_err _ _ H)].
    destruct (IH H) as (l1 & z & l2 & l1' & -> & H1 & H2). exists (x :: l1), z, l2, (y :: l1'). repeat split; [constructor; assumption|exact H2].
Qed.
Lemma mmap_total {A B} (f : A -> M B) l : Forall (fun x => exists r, f x r) l -> exists r, mmap f l r.
Proof.
  induction 1 as [|x l Hx _ IH]; cbn; [exists (MOk []); reflexivity|].
  apply mbind_total; [exact Hx|]. intros y _. apply mbind_total; [exact IH|]. intros ys _. eexists. reflexivity.
Qed.

(** ** Tables *)
Lemma LastIn_LastOf {K V} (k : K) (l : list (K * V)) v : LastIn k l v <-> LastOf k l v.
Proof. reflexivity. Qed.
Lemma TableOf_perm {K V} (l m m' : list (K * V)) : Permutation m m' -> TableOf l m -> TableOf l m'.
Proof.
  intros HP [HD H]. split; [eapply Permutation_NoDup; [apply Permutation_map; exact HP|exact HD]|].
  intros k v. rewrite <- H. split; apply Permutation_in; [symmetry|]; exact HP.
Qed.
Lemma TableOf_put {K V} (e : K -> K -> bool) (He : Eqb e) (l m : list (K * V)) k v :
  TableOf l m -> TableOf (l ++ [(k, v)]) (hm_put e k v m).
Proof.
  intros [HD H]. destruct (hm_put_spec e He k v m HD) as [HD' H']. split; [exact HD'|].
  intros k' v'. rewrite H', H. unfold LastIn. pose proof (LastOf_snoc k' k l v' v) as E. unfold LastOf in E. rewrite E. tauto.
Qed.
Lemma TableOf_extend {K V} (e : K -> K -> bool) (He : Eqb e) (h m l m' : list (K * V)) :
  TableOf h m -> hm_extend e m l m' -> TableOf (h ++ l) m'.
Proof.
  intros HT H. revert h HT. induction H as [m m' HP|m k v m1 l m' HP _ IH]; intros h HT.
  - rewrite app_nil_r. eapply TableOf_perm; eassumption.
  - replace (h ++ (k, v) :: l) with ((h ++ [(k, v)]) ++ l) by (rewrite <- app_assoc; reflexivity).
    apply IH. eapply TableOf_perm; [exact HP|]. apply TableOf_put; assumption.
Qed.
Lemma TableOf_nil {K V} : TableOf (@nil (K * V)) [].
Proof. split; [constructor|]. intros k v. split; [intros []|intros ([|? ?] & ? & H & _); discriminate]. Qed.
Lemma TableOf_self {K V} (m : list (K * V)) : NoDup (map fst m) -> TableOf m m.
Proof. intros HD. split; [exact HD|]. intros k v. symmetry. apply (LastOf_nodup k m v HD). Qed.
Lemma NoDup_fst {K V} (m : list (K * V)) : NoDup (map fst m) -> NoDup m.
Proof.
  induction m as [|[k v] m IH]; cbn; [constructor|]. intros H. inversion H as [|? ? Hn HD]; subst. constructor; [|auto].
  intros Hi. apply Hn. apply (in_map fst) in Hi. exact Hi.
Qed.
Lemma TableOf_unique {K V} (l m m' : list (K * V)) : TableOf l m -> TableOf l m' -> Permutation m m'.
Proof.
  intros [HD H] [HD' H']. apply NoDup_Permutation; [apply NoDup_fst; exact HD|apply NoDup_fst; exact HD'|].
  intros [k v]. rewrite H, H'. reflexivity.
Qed.
Lemma TableOf_distinct {K V} (l m : list (K * V)) : NoDup (map fst l) -> TableOf l m -> Permutation l m.
Proof. intros HD HT. eapply TableOf_unique; [apply TableOf_self; exact HD|exact HT]. Qed.

(** ** [values_of] *)
Lemma values_of_app k l1 l2 : values_of k (l1 ++ l2) = values_of k l1 ++ values_of k l2.
Proof. unfold values_of. rewrite filter_app, map_app. reflexivity. Qed.
Lemma values_of_one k k' v : values_of k [(k', v)] = if key_eqb k' k then [v] else [].
Proof. unfold values_of. cbn. destruct (key_eqb k' k); reflexivity. Qed.
Lemma values_of_none k l : ~ In k (map fst l) <-> values_of k l = [].
Proof.
  unfold values_of. induction l as [|[k' v] l IH]; cbn; [tauto|]. destruct (key_eqb k' k) eqn:E.
  - apply key_eqb_eq in E. split; [tauto|discriminate].
  - apply key_eqb_neq in E. rewrite <- IH. tauto.
Qed.
Lemma values_of_in k l v : In v (values_of k l) <-> In (k, v) l.
Proof.
  unfold values_of. rewrite in_map_iff. split.
  - intros ([k' v'] & <- & H). apply filter_In in H as [H E]. apply key_eqb_eq in E. cbn in *. subst. exact H.
  - intros H. exists (k, v). split; [reflexivity|]. apply filter_In. split; [exact H|apply key_eqb_refl].
Qed.

(** ** Inversion of [merge_entry] *)
Lemma merge_entry_spec k v m r : merge_entry k v m r ->
  (~ In k (map fst m) /\ r = MOk (m ++ [(k, v)])) \/
  (exists m1 old m2, m = m1 ++ (k, old) :: m2 /\
     ((exists v', merge_into k old v (MOk v') /\ r = MOk (m1 ++ (k, v') :: m2)) \/
      (exists e, merge_into k old v (MErr e) /\ r = MErr e))).
Proof.
  revert r. induction m as [|[k' old] m IH]; intros r; cbn.
  - intros ->. left. split; [tauto|reflexivity].
  - destruct (key_eqb k' k) eqn:E.
    + apply key_eqb_eq in E. subst k'. intros H. right. exists [], old, m. split; [reflexivity|].
      destruct H as [(v' & H & ->)|(e & H & ->)]; [left; exists v'|right; exists e]; auto.
    + apply key_eqb_neq in E. intros [(m'' & H & ->)|(e & H & ->)].
      * destruct (IH _ H) as [[Hn [= ->]]|(m1 & o & m2 & -> & [(v' & H1 & [= ->])|(e & _ & [=])])].
        -- left. split; [tauto|reflexivity].
        -- right. exists ((k', old) :: m1), o, m2. split; [reflexivity|]. left. exists v'. auto.
      * destruct (IH _ H) as [[Hn [=]]|(m1 & o & m2 & -> & [(v' & _ & [=])|(e' & H1 & [= ->])])].
        right. exists ((k', old) :: m1), o, m2. split; [reflexivity|]. right. exists e'. auto.
Qed.
Lemma hm_extend_total {K V} (e : K -> K -> bool) (l : list (K * V)) : forall m, exists m', hm_extend e m l m'.
Proof.
  induction l as [|[k v] l IH]; intros m; [exists m; constructor; reflexivity|].
  destruct (IH (hm_put e k v m)) as (m' & H). exists m'. econstructor; [reflexivity|exact H].
Qed.
Lemma merge_into_total k old new : exists r, merge_into k old new r.
Proof.
  destruct old; cbn; try (eexists; reflexivity); destruct new; try (eexists; reflexivity).
  destruct b as [m|l].
  - destruct (hm_extend_total labels_eqb (entries b0) m) as (m' & H). eexists. exists (VBlock (Merged m')). split; [|reflexivity].
    exists (Merged m'). split; [|reflexivity]. exists m'. auto.
  - eexists. exists (VBlock (Unmerged (l ++ entries b0))). split; [|reflexivity]. eexists. split; reflexivity.
Qed.
Lemma merge_entry_total k v m : exists r, merge_entry k v m r.
Proof.
  induction m as [|[k' old] m IH]; cbn; [eexists; reflexivity|]. destruct (key_eqb k' k).
  - apply mbind_total; [apply merge_into_total|]. intros; eexists; reflexivity.
  - apply mbind_total; [exact IH|]. intros; eexists; reflexivity.
Qed.
Lemma map_new_merged_total f l : (forall v, In v (map snd l) -> exists r, f v r) -> forall m, exists r, map_new_merged f m l r.
Proof.
  induction l as [|[k v] l IH]; intros Hf m.
  - eexists. exists (Merged m). split; [exists m; split; [reflexivity|reflexivity]|reflexivity].
  - cbn [map_new_merged]. apply mbind_total; [apply Hf; left; reflexivity|]. intros v' _.
    apply mbind_total; [apply merge_entry_total|]. intros m1 _.
    apply mbind_total; [exists (MOk m1), m1; split; [reflexivity|reflexivity]|]. intros m2 _. apply IH. intros v0 Hi. apply Hf. right. exact Hi.
Qed.
Lemma block_new_merged_total l : forall m, exists r, block_new_merged mret m l r.
Proof.
  induction l as [|[ls p] l IH]; intros m.
  - eexists. exists (Merged m). split; [exists m; split; [reflexivity|reflexivity]|reflexivity].
  - cbn. apply mbind_total; [eexists; reflexivity|]. intros p' _. apply mbind_total; [eexists; eexists; split; [reflexivity|reflexivity]|]. intros m2 _. apply IH.
Qed.
(** [Value::merge] always returns. *)
Lemma merge_total : (forall v, exists r, merge v r) /\ (forall p, exists r, map_merge p r).
Proof.
  apply value_map_ind; try (intros; eexists; reflexivity).
  - intros l IH. cbn. apply mbind_total; [apply mmap_total; exact IH|]. intros; eexists; reflexivity.
  - intros l IH. cbn. apply mbind_total; [apply mmap_total; exact IH|]. intros; eexists; reflexivity.
  - intros b IH. cbn. apply mbind_total.
    + apply mmap_total. change (match b with Merged m => m | Unmerged l => l end) with (entries b).
      eapply Forall_impl; [|exact IH]. intros [ls p] H. apply mbind_total; [exact H|]. intros; eexists; reflexivity.
    + intros l' _. apply mbind_total; [apply block_new_merged_total|]. intros; eexists; reflexivity.
  - intros [m|l] IH; unfold map_merge, map_merge_with; [eexists; reflexivity|].
    apply map_new_merged_total. intros v Hv. apply in_map_iff in Hv as (kv & <- & Hv). rewrite Forall_forall in IH. apply (IH kv Hv).
Qed.

(** ** Putting the values of a key together *)
(** merged values: a block is a table *)
Definition BlockMerged (v : value) : Prop := forall b, v = VBlock b -> exists m, b = Merged m /\ NoDup (map fst m).
Lemma MergesTo_shape v r : MergesTo v r -> BlockMerged r /\ variant_name r = variant_name v.
Proof.
  intros H. inversion H; subst; split; try reflexivity; intros b0 E; try discriminate; try (injection E as <-; eexists; split; [reflexivity|apply H1]).
  destruct b0; subst; discriminate.
Qed.
Lemma Combined_variant vs v v0 : Combined (v0 :: vs) v -> variant_name v = variant_name v0.
Proof. intros H. inversion H; subst; reflexivity. Qed.
Lemma Combined_samekind vs v : Combined vs v -> SameKind vs.
Proof.
  intros H. destruct H; [left; cbn; lia|right; left; eexists; reflexivity|right; right; eexists; reflexivity].
Qed.
Lemma merge_into_ok k vs old new v' : Combined vs old -> Forall BlockMerged vs -> BlockMerged new ->
  merge_into k old new (MOk v') -> Combined (vs ++ [new]) v'.
Proof.
  intros HC HB Hn H. destruct old; cbn in H; try discriminate H; destruct new; try discriminate H.
  - injection H as ->. inversion HC; subst.
    + replace (l ++ l0) with (concat [l; l0]) by (cbn; rewrite app_nil_r; reflexivity). apply (CO_objects l l0 []).
    + assert (E : map VObject (l1 :: l2 :: ls) ++ [VObject l0] = map VObject (l1 :: l2 :: (ls ++ [l0]))) by (rewrite <- (map_app VObject _ [l0]); reflexivity).
      rewrite E.
      match goal with |- Combined _ (VObject ?x) => replace x with (concat (l1 :: l2 :: (ls ++ [l0]))); [apply CO_objects|] end.
      cbn. rewrite concat_app. cbn. rewrite app_nil_r, <- !app_assoc. reflexivity.
  - apply mchoose_ok in H as (b' & H & ->). destruct (Hn b0 eq_refl) as (m0 & -> & HD0).
    inversion HC; subst.
    + inversion HB as [|? ? Hb _]; subst. destruct (Hb b eq_refl) as (m & -> & HD). destruct H as (m' & H & ->).
      apply (CO_blocks (Merged m) (Merged m0) []). cbn. rewrite app_nil_r.
      eapply TableOf_extend; [exact labels_eqb_eq|apply TableOf_self; exact HD|exact H].
    + destruct H as (m' & H & ->).
      assert (E : map VBlock (b1 :: b2 :: bs) ++ [VBlock (Merged m0)] = map VBlock (b1 :: b2 :: (bs ++ [Merged m0]))) by (rewrite <- (map_app VBlock _ [Merged m0]); reflexivity).
      rewrite E. constructor. eapply TableOf_extend in H; [|exact labels_eqb_eq|eassumption].
      replace (concat (map entries (b1 :: b2 :: bs ++ [Merged m0]))) with (concat (map entries (b1 :: b2 :: bs)) ++ entries (Merged m0)); [exact H|].
      cbn. rewrite map_app, concat_app. cbn. rewrite app_nil_r, <- !app_assoc. reflexivity.
Qed.
Lemma merge_into_err k vs old new e : Combined vs old -> merge_into k old new (MErr e) -> Clash k vs new e.
Proof.
  intros HC H. destruct vs as [|v0 vs]; [inversion HC|]. pose proof (Combined_variant _ _ _ HC) as HV.
  assert (HI : (variant_name old <> NObject -> variant_name old <> NBlock -> e = IllegalMultipleEntries (key_str k) (variant_name old) -> Clash k (v0 :: vs) new e)).
  { intros H1 H2 ->. rewrite HV. constructor; congruence. }
  destruct old; cbn in H; try (injection H as ->; apply HI; cbn; congruence).
  - destruct v0; try discriminate HV. destruct new; try discriminate H; injection H as ->; refine (CL_object _ _ _ _ _); discriminate.
  - destruct v0; try discriminate HV. destruct new; try (injection H as ->; refine (CL_block _ _ _ _ _); discriminate).
    elim (mchoose_err _ _ H).
Qed.

(** ** Soundness *)
Definition MergedPair (a b : key * value) : Prop := fst b = fst a /\ CanMerge (snd a) /\ MergesTo (snd a) (snd b).
Record Inv (l1 l1' m : list (key * value)) : Prop := {
  inv_pairs : Forall2 MergedPair l1 l1';
  inv_nodup : NoDup (map fst m);
  inv_keys : forall k, In k (map fst m) <-> In k (map fst l1');
  inv_comb : forall k v, In (k, v) m -> Combined (values_of k l1') v }.
Lemma pairs_keys l l' : Forall2 MergedPair l l' -> map fst l = map fst l'.
Proof. induction 1 as [|x y l l' [H _] _ IH]; cbn; congruence. Qed.
(** related pairs have related values under each key *)
Lemma values_of_Forall2 (R : value -> value -> Prop) l l' k : Forall2 (fun a b => fst b = fst a /\ R (snd a) (snd b)) l l' -> Forall2 R (values_of k l) (values_of k l').
Proof.
  induction 1 as [|[k1 v1] [k2 v2] l l' [E H] _ IH]; cbn in *; [constructor|]. subst k2. unfold values_of in *. cbn.
  destruct (key_eqb k1 k); cbn; [constructor; assumption|exact IH].
Qed.
Lemma pairs_values l l' k : Forall2 MergedPair l l' -> Forall2 MergesTo (values_of k l) (values_of k l').
Proof. intros H. apply values_of_Forall2. eapply Forall2_imp; [|exact H]. intros a b (? & _ & ?). auto. Qed.
Lemma merges_blockmerged vs vs' : Forall2 MergesTo vs vs' -> Forall BlockMerged vs'.
Proof. induction 1 as [|v r vs vs' H _ IH]; constructor; [apply (MergesTo_shape v r H)|exact IH]. Qed.
Lemma merges_variants vs vs' : Forall2 MergesTo vs vs' -> Forall2 (fun a b => variant_name b = variant_name a) vs vs'.
Proof. intros H. eapply Forall2_imp; [|exact H]. intros a b Hab. apply (MergesTo_shape a b Hab). Qed.
Lemma samekind_variants vs : SameKind vs <-> (length vs <= 1)%nat \/ Forall (fun v => variant_name v = NObject) vs \/ Forall (fun v => variant_name v = NBlock) vs.
Proof.
  assert (HO : (exists ls, vs = map VObject ls) <-> Forall (fun v => variant_name v = NObject) vs).
  { split; [intros (ls & ->); induction ls; constructor; auto|]. intros HF. induction HF as [|v vs H _ (ls & ->)]; [exists []; reflexivity|].
    destruct v; try discriminate. exists (l :: ls). reflexivity. }
  assert (HB : (exists bs, vs = map VBlock bs) <-> Forall (fun v => variant_name v = NBlock) vs).
  { clear HO. split; [intros (ls & ->); induction ls; constructor; auto|]. intros HF. induction HF as [|v vs H _ (ls & ->)]; [exists []; reflexivity|].
    destruct v; try discriminate. exists (b :: ls). reflexivity. }
  unfold SameKind. rewrite HO, HB. reflexivity.
Qed.
Lemma samekind_transfer vs vs' : Forall2 (fun a b => variant_name b = variant_name a) vs vs' -> SameKind vs' -> SameKind vs.
Proof.
  intros H. rewrite !samekind_variants. intros [HL|[HO|HO]].
  - left. replace (length vs) with (length vs'); [exact HL|]. clear - H. induction H; cbn; congruence.
  - right; left. induction H; [constructor|]. inversion HO; subst. constructor; [congruence|auto].
  - right; right. induction H; [constructor|]. inversion HO; subst. constructor; [congruence|auto].
Qed.
Lemma Clash_variants k vs vs' new new' e : Forall2 (fun a b => variant_name b = variant_name a) vs vs' -> variant_name new' = variant_name new ->
  Clash k vs' new' e -> Clash k vs new e.
Proof.
  intros H HN HC. destruct H as [|x y lx ly Hxy Hl]; [inversion HC|]. inversion HC; subst.
  - rewrite Hxy. apply CL_illegal; congruence.
  - destruct x; try discriminate Hxy. rewrite HN. apply CL_object. congruence.
  - destruct x; try discriminate Hxy. rewrite HN. apply CL_block. congruence.
Qed.
Lemma in_keys_split {V} k (m : list (key * V)) : In k (map fst m) -> exists v, In (k, v) m.
Proof. intros H. apply in_map_iff in H as ([k' v] & <- & H). exists v. exact H. Qed.
Lemma Inv_canmerge l1 l1' m : Inv l1 l1' m -> CanMergeMap (Unmerged l1).
Proof.
  intros [HP HD HK HC]. constructor.
  - clear - HP. induction HP as [|a b l l' (_ & H & _) _ IH]; constructor; auto.
  - intros k. apply (samekind_transfer _ (values_of k l1')); [apply merges_variants, pairs_values, HP|].
    destruct (values_of k l1') as [|v0 vs] eqn:E; [left; cbn; lia|]. rewrite <- E.
    assert (Hi : In k (map fst m)).
    { apply HK. assert (Hv : In v0 (values_of k l1')) by (rewrite E; left; reflexivity). apply values_of_in in Hv. apply (in_map fst) in Hv. exact Hv. }
    apply in_keys_split in Hi as (v & Hi). apply (Combined_samekind _ v), HC, Hi.
Qed.

Lemma Inv_step_new l1 l1' m k v v' : Inv l1 l1' m -> CanMerge v -> MergesTo v v' -> ~ In k (map fst m) ->
  Inv (l1 ++ [(k, v)]) (l1' ++ [(k, v')]) (m ++ [(k, v')]).
Proof.
  intros [HP HD HK HC] Hc Hm Hn. constructor.
  - apply Forall2_app; [exact HP|]. constructor; [|constructor]. repeat split; assumption.
  - rewrite map_app. cbn. apply Permutation_NoDup with (l := k :: map fst m); [apply Permutation_cons_append|constructor; assumption].
  - intros k0. rewrite !map_app, !in_app_iff, HK. cbn. tauto.
  - intros k0 v0 Hi. rewrite values_of_app, values_of_one. apply in_app_iff in Hi as [Hi|[[= <- <-]|[]]].
    + destruct (key_eqb k k0) eqn:E; [|rewrite app_nil_r; apply HC; exact Hi]. apply key_eqb_eq in E. subst. elim Hn. apply (in_map fst) in Hi. exact Hi.
    + rewrite key_eqb_refl. rewrite HK in Hn. apply values_of_none in Hn. rewrite Hn. constructor.
Qed.
Lemma Inv_step_old l1 l1' m1 m2 old k v v' w : Inv l1 l1' (m1 ++ (k, old) :: m2) -> CanMerge v -> MergesTo v v' ->
  merge_into k old v' (MOk w) -> Inv (l1 ++ [(k, v)]) (l1' ++ [(k, v')]) (m1 ++ (k, w) :: m2).
Proof.
  intros HI Hc Hm Hw. pose proof HI as [HP HD HK HC]. rewrite map_app in HD. cbn in HD. constructor.
  - apply Forall2_app; [exact HP|]. constructor; [|constructor]. repeat split; assumption.
  - rewrite map_app. exact HD.
  - intros k0. rewrite !map_app in *. cbn in *. specialize (HK k0). rewrite !in_app_iff in *. cbn in *. tauto.
  - intros k0 v0 Hi. rewrite values_of_app, values_of_one.
    assert (Hne : forall x, In (k, x) m1 \/ In (k, x) m2 -> False).
    { intros x Hx. apply NoDup_remove_2 in HD. apply HD. apply in_app_iff. destruct Hx as [Hx|Hx]; apply (in_map fst) in Hx; auto. }
    destruct (key_eqb k k0) eqn:E.
    + apply key_eqb_eq in E. subst k0. apply in_app_iff in Hi as [Hi|[Hi|Hi]]; [elim (Hne v0); auto| |elim (Hne v0); auto].
      injection Hi as <-. apply (merge_into_ok k _ old); [apply HC; apply in_app_iff; right; left; reflexivity| | |exact Hw].
      * eapply merges_blockmerged, pairs_values, HP.
      * apply (MergesTo_shape v v' Hm).
    + rewrite app_nil_r. apply key_eqb_neq in E. apply HC. apply in_app_iff in Hi as [Hi|[Hi|Hi]]; apply in_app_iff; [auto|congruence|right; right; exact Hi].
Qed.
Lemma Inv_perm l1 l1' m m' : Permutation m m' -> Inv l1 l1' m -> Inv l1 l1' m'.
Proof.
  intros HP [H1 H2 H3 H4]. pose proof (Permutation_map fst HP) as HF. constructor; [exact H1|eapply Permutation_NoDup; eassumption| |].
  - intros k. rewrite <- H3. split; apply Permutation_in; [symmetry|]; exact HF.
  - intros k v Hi. apply H4. eapply Permutation_in; [symmetry; exact HP|exact Hi].
Qed.
Lemma map_new_merged_spec (f : value -> M value) (l : list (key * value)) : Forall (fun kv => (forall r, f (snd kv) (MOk r) -> CanMerge (snd kv) /\ MergesTo (snd kv) r) /\
                                          (forall e, f (snd kv) (MErr e) -> FirstConflict (snd kv) e)) l ->
  forall l1 l1' m r, Inv l1 l1' m -> map_new_merged f m l r ->
  match r with
  | MOk p => CanMergeMap (Unmerged (l1 ++ l)) /\ MapMergesTo (Unmerged (l1 ++ l)) p
  | MErr e => FirstConflictMap (Unmerged (l1 ++ l)) e
  end.
Proof.
  induction 1 as [|[k v] l [Hok Herr] _ IH]; intros l1 l1' m r HI H.
  - rewrite app_nil_r. cbn in H. destruct H as (p & (m' & HP & ->) & ->). apply (Inv_perm _ _ _ _ HP) in HI. split; [apply (Inv_canmerge _ _ _ HI)|].
    destruct HI as [H1 H2 H3 H4]. apply (MT_unmerged l1 l1' m'); auto.
    + eapply Forall2_imp; [|exact H1]. intros a b (? & _ & ?). auto.
    + intros k. rewrite H3, (pairs_keys _ _ H1). reflexivity.
  - cbn [map_new_merged] in H. cbn [snd] in *. destruct H as [(v' & Hv & H)|(e & He & ->)].
    2: { apply FC_inside; [apply (Inv_canmerge _ _ _ HI)|auto]. }
    destruct (Hok v' Hv) as [Hc Hm]. destruct H as [(m1 & Hm1 & H)|(e & He & ->)].
    + destruct H as [(m2 & HP & H)|(e & He & _)]; [|elim (mchoose_err _ _ He)]. rewrite mchoose_ok in HP.
      assert (HI2 : Inv (l1 ++ [(k, v)]) (l1' ++ [(k, v')]) m2).
      { apply (Inv_perm _ _ _ _ HP). apply merge_entry_spec in Hm1 as [[Hn [= ->]]|(m3 & old & m4 & -> & [(w & Hw & [= ->])|(e & _ & [=])])].
        - apply Inv_step_new; assumption.
        - eapply Inv_step_old; eassumption. }
      specialize (IH _ _ _ _ HI2 H). rewrite <- app_assoc in IH. exact IH.
    + apply merge_entry_spec in He as [[_ [=]]|(m3 & old & m4 & -> & [(w & _ & [=])|(e' & He & [= ->])])].
      apply FC_clash; [apply (Inv_canmerge _ _ _ HI)|exact Hc|].
      eapply (Clash_variants k _ (values_of k l1') v v'); [apply merges_variants, pairs_values, HI|apply (MergesTo_shape v v' Hm)|].
      eapply merge_into_err; [|exact He]. apply (inv_comb _ _ _ HI). apply in_app_iff. right. left. reflexivity.
Qed.
Lemma Inv_nil : Inv [] [] [].
Proof. constructor; [constructor|constructor|reflexivity|intros k v []]. Qed.
Lemma block_new_merged_spec l : forall h m r, TableOf h m -> block_new_merged mret m l r -> exists m', r = MOk (Merged m') /\ TableOf (h ++ l) m'.
Proof.
  induction l as [|[ls p] l IH]; intros h m r HT H; cbn in H.
  - destruct H as (p & (m' & HP & ->) & ->). exists m'. split; [reflexivity|]. rewrite app_nil_r. eapply TableOf_perm; eassumption.
  - destruct H as [(p' & Hp & H)|(e & He & _)]; [|elim (mret_err _ _ He)]. rewrite mret_ok in Hp. subst p'.
    destruct H as [(m2 & HP & H)|(e & He & _)]; [|elim (mchoose_err _ _ He)]. rewrite mchoose_ok in HP.
    replace (h ++ (ls, p) :: l) with ((h ++ [(ls, p)]) ++ l) by (rewrite <- app_assoc; reflexivity).
    apply (IH _ m2); [|exact H]. eapply TableOf_perm; [exact HP|]. apply TableOf_put; [exact labels_eqb_eq|exact HT].
Qed.

Definition Sound (v : value) : Prop := (forall r, merge v (MOk r) -> CanMerge v /\ MergesTo v r) /\ (forall e, merge v (MErr e) -> FirstConflict v e).
Definition SoundMap (p : mapvalues) : Prop := (forall r, map_merge p (MOk r) -> CanMergeMap p /\ MapMergesTo p r) /\ (forall e, map_merge p (MErr e) -> FirstConflictMap p e).
Lemma Forall2_both {A B} (P : A -> Prop) (F Q : A -> B -> Prop) l l' : Forall (fun a => forall b, F a b -> P a /\ Q a b) l -> Forall2 F l l' -> Forall P l /\ Forall2 Q l l'.
Proof.
  intros H H2. induction H2 as [|a b l l' Hab _ IH]; [split; constructor|]. inversion H as [|? ? Ha Hl]; subst.
  destruct (Ha b Hab), (IH Hl). split; constructor; assumption.
Qed.
Theorem merge_sound : (forall v, Sound v) /\ (forall p, SoundMap p).
Proof.
  apply value_map_ind; unfold Sound; cbn [merge].
  - split; [intros r H; rewrite mret_ok in H; subst; split; constructor|intros e H; elim (mret_err _ _ H)].
  - split; [intros r H; rewrite mret_ok in H; subst; split; constructor; reflexivity|intros e H; elim (mret_err _ _ H)].
  - split; [intros r H; rewrite mret_ok in H; subst; split; constructor; reflexivity|intros e H; elim (mret_err _ _ H)].
  - split; [intros r H; rewrite mret_ok in H; subst; split; constructor; reflexivity|intros e H; elim (mret_err _ _ H)].
  - split; [intros r H; rewrite mret_ok in H; subst; split; constructor; reflexivity|intros e H; elim (mret_err _ _ H)].
  - intros l IH. split.
    + intros r H. apply mbind_ok in H as (l' & H & Hr). rewrite mret_ok in Hr. subst r. apply mmap_ok in H.
      apply (Forall2_both CanMerge _ MergesTo) in H as [H1 H2]; [split; constructor; assumption|]. eapply Forall_impl; [|exact IH]. intros v [Hv _]. exact Hv.
    + intros e H. apply mbind_err in H as [H|(? & _ & H)]; [|elim (mret_err _ _ H)]. apply mmap_err in H as (l1 & x & l2 & l1' & -> & H1 & H2).
      apply Forall_app in IH as [IH1 IH2]. inversion IH2 as [|? ? [_ Hx] _]; subst. apply FC_list; [|auto].
      apply (Forall2_both CanMerge _ MergesTo) in H1 as [H1 _]; [exact H1|]. eapply Forall_impl; [|exact IH1]. intros v [Hv _]. exact Hv.
  - intros l IH. split.
    + intros r H. apply mbind_ok in H as (l' & H & Hr). rewrite mret_ok in Hr. subst r. apply mmap_ok in H.
      apply (Forall2_both CanMergeMap _ MapMergesTo) in H as [H1 H2]; [split; constructor; assumption|]. eapply Forall_impl; [|exact IH]. intros v [Hv _]. exact Hv.
    + intros e H. apply mbind_err in H as [H|(? & _ & H)]; [|elim (mret_err _ _ H)]. apply mmap_err in H as (l1 & x & l2 & l1' & -> & H1 & H2).
      apply Forall_app in IH as [IH1 IH2]. inversion IH2 as [|? ? [_ Hx] _]; subst. apply FC_object; [|auto].
      apply (Forall2_both CanMergeMap _ MapMergesTo) in H1 as [H1 _]; [exact H1|]. eapply Forall_impl; [|exact IH1]. intros v [Hv _]. exact Hv.
  - intros b IH. change (match b with Merged m => m | Unmerged l => l end) with (entries b).
    set (F := fun kv : list str * mapvalues => mbind (map_merge_with merge (snd kv)) (fun p => mret (fst kv, p))).
    assert (HF : Forall (fun a => forall c, F a (MOk c) -> CanMergeMap (snd a) /\ (fst c = fst a /\ MapMergesTo (snd a) (snd c))) (entries b)).
    { eapply Forall_impl; [|exact IH]. intros [ls p] [Hp _] c H. apply mbind_ok in H as (p' & H & Hr). rewrite mret_ok in Hr. subst c. cbn. destruct (Hp p' H). auto. }
    split.
    + intros r H. apply mbind_ok in H as (l' & H & Hr). apply mbind_ok in Hr as (b' & Hb & Hr). rewrite mret_ok in Hr. subst r. apply mmap_ok in H.
      apply (Forall2_both (fun kv => CanMergeMap (snd kv)) _ (fun a b => fst b = fst a /\ MapMergesTo (snd a) (snd b))) in H as [H1 H2]; [|exact HF].
      apply (block_new_merged_spec l' [] []) in Hb as (m' & [= ->] & HT); [|apply TableOf_nil]. split; [constructor; assumption|econstructor; eassumption].
    + intros e H. apply mbind_err in H as [H|(l' & _ & H)].
      * apply mmap_err in H as (l1 & [ls p] & l2 & l1' & E & H1 & H2). rewrite E in IH, HF. apply Forall_app in IH as [IH1 IH2]. apply Forall_app in HF as [HF1 _].
        inversion IH2 as [|? ? [_ Hx] _]; subst. apply (FC_block b l1 ls p l2); [exact E| |].
        -- apply (Forall2_both (fun kv => CanMergeMap (snd kv)) _ (fun a b => fst b = fst a /\ MapMergesTo (snd a) (snd b))) in H1 as [H1 _]; [exact H1|exact HF1].
        -- apply Hx. apply mbind_err in H2 as [H2|(? & _ & H2)]; [exact H2|elim (mret_err _ _ H2)].
      * apply mbind_err in H as [H|(? & _ & H)]; [|elim (mret_err _ _ H)].
        apply (block_new_merged_spec l' [] []) in H as (m' & [=] & _). apply TableOf_nil.
  - intros [m|l] IH; unfold SoundMap, map_merge, map_merge_with.
    + split; [intros r H; rewrite mret_ok in H; subst; split; constructor|intros e H; elim (mret_err _ _ H)].
    + split; [intros r H|intros e H]; exact (map_new_merged_spec merge l IH [] [] [] _ Inv_nil H).
Qed.

Lemma merge_ok v r : merge v (MOk r) -> CanMerge v /\ MergesTo v r.
Proof. apply (proj1 merge_sound v). Qed.
Lemma merge_err v e : merge v (MErr e) -> FirstConflict v e.
Proof. apply (proj1 merge_sound v). Qed.
Lemma mmerge_ok p r : map_merge p (MOk r) -> CanMergeMap p /\ MapMergesTo p r.
Proof. apply (proj2 merge_sound p). Qed.
Lemma mmerge_err p e : map_merge p (MErr e) -> FirstConflictMap p e.
Proof. apply (proj2 merge_sound p). Qed.

(** ** Success and failure exclude each other, and the error is determined *)
Lemma Forall_elt {A} (P : A -> Prop) l1 x l2 : Forall P (l1 ++ x :: l2) -> P x.
Proof. intros H. apply Forall_app in H as [_ H]. inversion H; assumption. Qed.
Lemma Clash_samekind k vs v vs2 e : Clash k vs v e -> SameKind (vs ++ v :: vs2) -> False.
Proof.
  intros HC HS. apply samekind_variants in HS as [HL|[HO|HB]].
  - inversion HC; subst; cbn in HL; rewrite app_length in HL; cbn in HL; lia.
  - pose proof (Forall_elt _ _ _ _ HO) as Hv. cbn in Hv. inversion HC; subst; inversion HO; subst; try congruence. discriminate.
  - pose proof (Forall_elt _ _ _ _ HB) as Hv. cbn in Hv. inversion HC; subst; inversion HB; subst; try congruence. discriminate.
Qed.
Lemma can_no_conflict : (forall v e, CanMerge v -> FirstConflict v e -> False) /\ (forall p e, CanMergeMap p -> FirstConflictMap p e -> False).
Proof.
  apply value_map_ind; try (intros; match goal with H : FirstConflict _ _ |- _ => inversion H end; fail).
  - intros l IH e HC HF. inversion HF; subst. inversion HC as [|? Hs|? HA| |]; subst; [discriminate|].
    eapply (Forall_elt _ _ _ _ IH); [eapply (Forall_elt _ _ _ _ HA)|eassumption].
  - intros l IH e HC HF. inversion HF; subst. inversion HC as [|? Hs| |? HA|]; subst; [discriminate|].
    eapply (Forall_elt _ _ _ _ IH); [eapply (Forall_elt _ _ _ _ HA)|eassumption].
  - intros b IH e HC HF. inversion HF as [| |? l1 ls p l2 ? E H1 H2]; subst. inversion HC as [|? Hs| | |? HA]; subst; [discriminate|]. rewrite E in *.
    eapply (Forall_elt _ _ _ _ IH); [eapply (Forall_elt _ _ _ _ HA)|eassumption].
  - intros p IH e HC HF. inversion HF as [l1 k v l2 ? H1 H2|l1 k v l2 ? H1 H2 H3]; subst; inversion HC as [|? HA HS]; subst; cbn [entries] in IH.
    + eapply (Forall_elt _ _ _ _ IH); [eapply (Forall_elt _ _ _ _ HA)|eassumption].
    + specialize (HS k). change ((k, v) :: l2) with ([(k, v)] ++ l2) in HS. rewrite !values_of_app, values_of_one, key_eqb_refl in HS. eapply Clash_samekind; eassumption.
Qed.
Lemma split_cases {A} (l1 l1' : list A) : forall x x' l2 l2', l1 ++ x :: l2 = l1' ++ x' :: l2' ->
  (l1 = l1' /\ x = x' /\ l2 = l2') \/ (exists t, l1' = l1 ++ x :: t) \/ (exists t, l1 = l1' ++ x' :: t).
Proof.
  revert l1'. induction l1 as [|a l1 IH]; intros [|a' l1'] x x' l2 l2' E; cbn in E; injection E as E1 E2; subst.
  - auto.
  - right; left. exists l1'. reflexivity.
  - right; right. exists l1. reflexivity.
  - destruct (IH _ _ _ _ _ E2) as [(-> & -> & ->)|[(t & ->)|(t & ->)]]; [auto|right; left; exists t; reflexivity|right; right; exists t; reflexivity].
Qed.
Lemma Clash_det k vs v e e' : Clash k vs v e -> Clash k vs v e' -> e = e'.
Proof. intros H H'. inversion H; subst; inversion H'; subst; try reflexivity; cbn in *; congruence. Qed.
Lemma conflict_det : (forall v e e', FirstConflict v e -> FirstConflict v e' -> e = e') /\ (forall p e e', FirstConflictMap p e -> FirstConflictMap p e' -> e = e').
Proof.
  apply value_map_ind; try (intros; match goal with H : FirstConflict _ _ |- _ => inversion H end; fail).
  - intros l IH e e' H H'. inversion H as [l1 v l2 ? H1 H2| |]; subst. inversion H' as [l1' v' l2' ? H1' H2' E| |]; subst.
    apply split_cases in E as [(-> & -> & ->)|[(t & ->)|(t & ->)]].
    + eapply (Forall_elt _ _ _ _ IH); eassumption.
    + exfalso. first [eapply (proj1 can_no_conflict); [first [eapply (Forall_elt _ _ _ _ H1)|eapply (Forall_elt _ _ _ _ H1')]|eassumption]|eapply (proj2 can_no_conflict); [first [eapply (Forall_elt _ _ _ _ H1)|eapply (Forall_elt _ _ _ _ H1')]|eassumption]].
    + exfalso. first [eapply (proj1 can_no_conflict); [first [eapply (Forall_elt _ _ _ _ H1)|eapply (Forall_elt _ _ _ _ H1')]|eassumption]|eapply (proj2 can_no_conflict); [first [eapply (Forall_elt _ _ _ _ H1)|eapply (Forall_elt _ _ _ _ H1')]|eassumption]].
  - intros l IH e e' H H'. inversion H as [|l1 v l2 ? H1 H2|]; subst. inversion H' as [|l1' v' l2' ? H1' H2' E|]; subst.
    apply split_cases in E as [(-> & -> & ->)|[(t & ->)|(t & ->)]].
    + eapply (Forall_elt _ _ _ _ IH); eassumption.
    + exfalso. first [eapply (proj1 can_no_conflict); [first [eapply (Forall_elt _ _ _ _ H1)|eapply (Forall_elt _ _ _ _ H1')]|eassumption]|eapply (proj2 can_no_conflict); [first [eapply (Forall_elt _ _ _ _ H1)|eapply (Forall_elt _ _ _ _ H1')]|eassumption]].
    + exfalso. first [eapply (proj1 can_no_conflict); [first [eapply (Forall_elt _ _ _ _ H1)|eapply (Forall_elt _ _ _ _ H1')]|eassumption]|eapply (proj2 can_no_conflict); [first [eapply (Forall_elt _ _ _ _ H1)|eapply (Forall_elt _ _ _ _ H1')]|eassumption]].
  - intros b IH e e' H H'. inversion H as [| |? l1 ls v l2 ? E0 H1 H2]; subst. inversion H' as [| |? l1' ls' v' l2' ? E H1' H2']; subst. rewrite E0 in *.
    apply split_cases in E as [(-> & [= -> ->] & ->)|[(t & ->)|(t & ->)]].
    + eapply (Forall_elt _ _ _ _ IH); eassumption.
    + exfalso. first [eapply (proj1 can_no_conflict); [first [eapply (Forall_elt _ _ _ _ H1)|eapply (Forall_elt _ _ _ _ H1')]|eassumption]|eapply (proj2 can_no_conflict); [first [eapply (Forall_elt _ _ _ _ H1)|eapply (Forall_elt _ _ _ _ H1')]|eassumption]].
    + exfalso. first [eapply (proj1 can_no_conflict); [first [eapply (Forall_elt _ _ _ _ H1)|eapply (Forall_elt _ _ _ _ H1')]|eassumption]|eapply (proj2 can_no_conflict); [first [eapply (Forall_elt _ _ _ _ H1)|eapply (Forall_elt _ _ _ _ H1')]|eassumption]].
  - intros p IH e e' H H'.
    assert (HX : exists l1 k v l2, p = Unmerged (l1 ++ (k, v) :: l2) /\ CanMergeMap (Unmerged l1) /\ (FirstConflict v e \/ CanMerge v /\ Clash k (values_of k l1) v e)).
    { inversion H; subst; repeat eexists; eauto. }
    assert (HX' : exists l1 k v l2, p = Unmerged (l1 ++ (k, v) :: l2) /\ CanMergeMap (Unmerged l1) /\ (FirstConflict v e' \/ CanMerge v /\ Clash k (values_of k l1) v e')).
    { inversion H'; subst; repeat eexists; eauto. }
    destruct HX as (l1 & k & v & l2 & -> & H1 & H2). destruct HX' as (l1' & k' & v' & l2' & E & H1' & H2'). injection E as E.
    apply split_cases in E as [(-> & [= -> ->] & ->)|[(t & ->)|(t & ->)]].
    + cbn in IH. destruct H2 as [H2|[H2 H3]], H2' as [H2'|[H2' H3']].
      * eapply (Forall_elt _ _ _ _ IH); eassumption.
      * exfalso. eapply (proj1 can_no_conflict); eassumption.
      * exfalso. eapply (proj1 can_no_conflict); eassumption.
      * eapply Clash_det; eassumption.
    + exfalso. eapply (proj2 can_no_conflict); [exact H1'|]. destruct H2 as [H2|[H2 H3]]; [apply FC_inside; eassumption|apply FC_clash; eassumption].
    + exfalso. eapply (proj2 can_no_conflict); [exact H1|]. destruct H2' as [H2'|[H2' H3']]; [apply FC_inside; eassumption|apply FC_clash; eassumption].
Qed.

(** ** Equality *)
Lemma Forall2_refl_in {A} (R : A -> A -> Prop) l : Forall (fun x => R x x) l -> Forall2 R l l.
Proof. induction 1; constructor; assumption. Qed.
Lemma veq_refl : (forall v, veq v v) /\ (forall p, meq p p).
Proof.
  apply value_map_ind; try (intros; constructor; fail).
  - intros l IH. constructor. apply Forall2_refl_in, IH.
  - intros l IH. constructor. apply Forall2_refl_in, IH.
  - intros [m|l] IH; cbn in IH; [apply (VE_block_m m m m); [reflexivity|]|constructor]; apply Forall2_refl_in; eapply Forall_impl; try exact IH; auto.
  - intros [m|l] IH; cbn in IH; [apply (ME_m m m m); [reflexivity|]|constructor]; apply Forall2_refl_in; eapply Forall_impl; try exact IH; auto.
Qed.
(** Two tables with the same keys and related values are related up to order. *)
Lemma tables_related {K V} (R : V -> V -> Prop) (m' : list (K * V)) : forall m, NoDup (map fst m) -> NoDup (map fst m') ->
  (forall k, In k (map fst m) <-> In k (map fst m')) -> (forall k v v', In (k, v) m -> In (k, v') m' -> R v v') ->
  exists m1, Permutation m m1 /\ Forall2 (fun a b => fst a = fst b /\ R (snd a) (snd b)) m1 m'.
Proof.
  induction m' as [|[k v'] m' IH]; intros m HD HD' HK HR.
  - destruct m as [|[k v] m]; [exists []; split; constructor|]. exfalso. apply (HK k). left. reflexivity.
  - assert (Hi : In k (map fst m)) by (apply HK; left; reflexivity). apply in_map_iff in Hi as ([k0 v] & E & Hi). cbn in E. subst k0.
    apply in_split in Hi as (ma & mb & ->). cbn in HD'. inversion HD' as [|? ? Hn HD2]; subst.
    assert (HP : Permutation (ma ++ (k, v) :: mb) ((k, v) :: ma ++ mb)) by (symmetry; apply Permutation_middle).
    pose proof (Permutation_NoDup (Permutation_map fst HP) HD) as HD1. cbn in HD1. inversion HD1 as [|? ? Hn1 HD3]; subst.
    destruct (IH (ma ++ mb)) as (m1 & HP1 & HF); [exact HD3|exact HD2| | |].
    + intros k0. specialize (HK k0). cbn in HK. split; intros Hk.
      * assert (Hne : k0 <> k) by (intros ->; exact (Hn1 Hk)). assert (H1 : In k0 (map fst (ma ++ (k, v) :: mb))) by (eapply Permutation_in; [symmetry; apply (Permutation_map fst HP)|right; exact Hk]).
        apply HK in H1 as [H1|H1]; [congruence|exact H1].
      * assert (Hne : k0 <> k) by (intros ->; exact (Hn Hk)). assert (H1 : In k0 (map fst (ma ++ (k, v) :: mb))) by (apply HK; right; exact Hk).
        apply (Permutation_in _ (Permutation_map fst HP)) in H1 as [H1|H1]; [cbn in H1; congruence|exact H1].
    + intros k0 a b Ha Hb. apply (HR k0); [|right; exact Hb]. eapply Permutation_in; [symmetry; exact HP|right; exact Ha].
    + exists ((k, v) :: m1). split; [rewrite HP; constructor; exact HP1|]. constructor; [|exact HF]. split; [reflexivity|]. cbn.
      apply (HR k); [apply in_app_iff; right; left; reflexivity|left; reflexivity].
Qed.
Lemma LastIn_exists {K V} (e : K -> K -> bool) (He : Eqb e) k (l : list (K * V)) : In k (map fst l) <-> exists v, LastIn k l v.
Proof.
  split.
  - induction l as [|[k0 v0] l IH] using rev_ind; [intros []|]. rewrite map_app, in_app_iff. intros H. destruct (e k k0) eqn:E.
    + apply He in E. subst k0. exists v0. apply LastOf_snoc. auto.
    + assert (Hk : k <> k0) by (intros Hk; apply He in Hk; congruence).
      destruct H as [H|[H|[]]]; [|cbn in H; congruence]. destruct (IH H) as (v & Hv). exists v. apply LastOf_snoc. right. split; [exact Hk|exact Hv].
  - intros (v & l1 & l2 & -> & _). rewrite map_app, in_app_iff. right. left. reflexivity.
Qed.
Lemma Forall2_keys {K V W} (R : V -> W -> Prop) (l : list (K * V)) (l' : list (K * W)) : Forall2 (fun a b => fst b = fst a /\ R (snd a) (snd b)) l l' -> map fst l = map fst l'.
Proof. induction 1 as [|x y l l' [H _] _ IH]; cbn; congruence. Qed.
Lemma LastIn_related {K V W} (R : V -> W -> Prop) (l : list (K * V)) (l' : list (K * W)) k v v' :
  Forall2 (fun a b => fst b = fst a /\ R (snd a) (snd b)) l l' -> LastIn k l v -> LastIn k l' v' -> R v v'.
Proof.
  intros HF. revert k v v'. induction l as [|[k0 v0] l IH] using rev_ind in l', HF |- *; intros k v v' H H'.
  - destruct H as ([|? ?] & ? & E & _); discriminate.
  - apply Forall2_app_inv_l in HF as (la & lb & H1 & H2 & ->). inversion H2 as [|? [k1 v1] ? ? [E HR] H3]; subst. inversion H3; subst. cbn in E, HR. subst k1.
    apply LastOf_snoc in H. apply LastOf_snoc in H'. destruct H as [[Ek Ev]|[Hn H]], H' as [[Ek' Ev']|[Hn' H']]; subst; try congruence.
    apply (IH la H1 k); assumption.
Qed.
Lemma TableOf_keys {K V} (e : K -> K -> bool) (He : Eqb e) (l m : list (K * V)) k : TableOf l m -> (In k (map fst m) <-> In k (map fst l)).
Proof.
  intros [_ H]. rewrite (LastIn_exists e He k l). split.
  - intros Hi. apply in_map_iff in Hi as ([k' v] & <- & Hi). exists v. apply H. exact Hi.
  - intros (v & Hv). apply H in Hv. apply (in_map fst) in Hv. exact Hv.
Qed.
(** the same keys, and related last values *)
Definition LR {K V} (R : V -> V -> Prop) (l l' : list (K * V)) : Prop :=
  forall k, (In k (map fst l) <-> In k (map fst l')) /\ forall v v', LastIn k l v -> LastIn k l' v' -> R v v'.
Lemma LR_Forall2 {K V} (R : V -> V -> Prop) (l l' : list (K * V)) : Forall2 (fun a b => fst b = fst a /\ R (snd a) (snd b)) l l' -> LR R l l'.
Proof.
  intros HF k. split; [rewrite (Forall2_keys R l l' HF); reflexivity|]. intros v v'. eapply LastIn_related; eassumption.
Qed.
Lemma LastIn_app {K V} (k : K) (l1 l2 : list (K * V)) v : LastIn k (l1 ++ l2) v -> LastIn k l2 v \/ (~ In k (map fst l2) /\ LastIn k l1 v).
Proof.
  revert v. induction l2 as [|[k0 v0] l2 IH] using rev_ind; intros v H.
  - rewrite app_nil_r in H. right. split; [intros []|exact H].
  - rewrite app_assoc in H. apply LastOf_snoc in H as [[Ek Ev]|[Hn H]].
    + left. apply LastOf_snoc. auto.
    + apply IH in H as [H|[H1 H2]]; [left; apply LastOf_snoc; auto|right]. split; [|exact H2]. rewrite map_app, in_app_iff. cbn. intros [H|[H|[]]]; congruence.
Qed.
Lemma LR_app {K V} (e : K -> K -> bool) (He : Eqb e) (R : V -> V -> Prop) (l1 l1' l2 l2' : list (K * V)) : LR R l1 l1' -> LR R l2 l2' -> LR R (l1 ++ l2) (l1' ++ l2').
Proof.
  intros H1 H2 k. destruct (H1 k) as [K1 R1], (H2 k) as [K2 R2]. split; [rewrite !map_app, !in_app_iff, K1, K2; reflexivity|].
  intros v v' Hv Hv'. apply LastIn_app in Hv. apply LastIn_app in Hv'.
  pose proof (proj2 (LastIn_exists e He k l2)) as E2. pose proof (proj2 (LastIn_exists e He k l2')) as E2'.
  destruct Hv as [Hv|[Hn Hv]], Hv' as [Hv'|[Hn' Hv']]; [auto| | |auto].
  - elim Hn'. apply K2, E2. eauto.
  - elim Hn. apply K2, E2'. eauto.
Qed.
Lemma LR_perm {K V} (R : V -> V -> Prop) (m m1 m' : list (K * V)) : NoDup (map fst m) -> NoDup (map fst m') ->
  Permutation m m1 -> Forall2 (fun a b => fst a = fst b /\ R (snd a) (snd b)) m1 m' -> LR R m m'.
Proof.
  intros HD HD' HP HF. assert (HF' : Forall2 (fun a b => fst b = fst a /\ R (snd a) (snd b)) m1 m') by (eapply Forall2_imp; [|exact HF]; intros a b []; auto).
  pose proof (Permutation_NoDup (Permutation_map fst HP) HD) as HD1. pose proof (LR_Forall2 R m1 m' HF') as H. intros k. destruct (H k) as [HK HR]. split.
  - rewrite <- HK. split; apply Permutation_in; [|symmetry]; apply Permutation_map, HP.
  - intros v v' Hv Hv'. apply HR; [|exact Hv']. apply (LastOf_nodup k m1 v HD1). eapply Permutation_in; [exact HP|]. apply (LastOf_nodup k m v HD). exact Hv.
Qed.
Lemma TableOf_related {K V} (e : K -> K -> bool) (He : Eqb e) (R : V -> V -> Prop) (l l' m m' : list (K * V)) :
  LR R l l' -> TableOf l m -> TableOf l' m' ->
  exists m1, Permutation m m1 /\ Forall2 (fun a b => fst a = fst b /\ R (snd a) (snd b)) m1 m'.
Proof.
  intros HF HT HT'. apply tables_related; [apply HT|apply HT'| |].
  - intros k. rewrite (TableOf_keys e He _ _ k HT), (TableOf_keys e He _ _ k HT'). apply HF.
  - intros k v v' Hv Hv'. apply HT in Hv. apply HT' in Hv'. apply (HF k); assumption.
Qed.
Lemma veq_objects_concat ls ls' : Forall2 (Forall2 meq) ls ls' -> Forall2 meq (concat ls) (concat ls').
Proof. induction 1; cbn; [constructor|apply Forall2_app; assumption]. Qed.
Lemma perm_Forall2 {A B} (R : A -> B -> Prop) l l' m : Permutation l m -> Forall2 R m l' -> exists m', Permutation m' l' /\ Forall2 R l m'.
Proof.
  intros HP. revert l'. induction HP as [|x l m HP IH|x y l|l m n HP1 IH1 HP2 IH2]; intros l' H.
  - exists l'. split; [reflexivity|exact H].
  - inversion H as [|? b ? lb Hx Hl]; subst. destruct (IH lb Hl) as (m' & Hm & Hf). exists (b :: m'). split; [constructor; exact Hm|constructor; assumption].
  - inversion H as [|? b ? lb Hx Hl]; subst. inversion Hl as [|? c ? lc Hy Hl2]; subst. exists (c :: b :: lc). split; [constructor|constructor; [exact Hy|constructor; assumption]].
  - destruct (IH2 _ H) as (m1 & H1 & H2). destruct (IH1 _ H2) as (m2 & H3 & H4). exists m2. split; [etransitivity; eassumption|exact H4].
Qed.

Lemma objects_rel ls ls' : Forall2 veq (map VObject ls) (map VObject ls') -> Forall2 (Forall2 meq) ls ls'.
Proof.
  revert ls'. induction ls as [|x ls IH]; intros [|y ls'] H; inversion H as [|? ? ? ? Hx Hl]; subst; constructor; [inversion Hx; assumption|apply IH; exact Hl].
Qed.
Lemma blocks_rel bs bs' : Forall2 veq (map VBlock bs) (map VBlock bs') -> Forall BlockMerged (map VBlock bs) -> Forall BlockMerged (map VBlock bs') ->
  LR meq (concat (map entries bs)) (concat (map entries bs')).
Proof.
  revert bs'. induction bs as [|x bs IH]; intros [|y bs'] H HB HB'; cbn [map] in *; inversion H as [|? ? ? ? Hx Hl]; subst; cbn [concat]; [apply LR_Forall2; constructor|].
  inversion HB as [|? ? HBx HBl]; subst. inversion HB' as [|? ? HBy HBl']; subst. apply (LR_app labels_eqb labels_eqb_eq); [|apply IH; assumption].
  destruct (HBx x eq_refl) as (m & -> & HD), (HBy y eq_refl) as (m' & -> & HD'). inversion Hx; subst. eapply LR_perm; eassumption.
Qed.
Lemma map_inj_nil {A B} (f : A -> B) (l : list A) : map f l = [] -> l = [].
Proof. destruct l; [reflexivity|discriminate]. Qed.
Lemma Combined_related vs vs' v v' : Forall2 veq vs vs' -> Forall BlockMerged vs -> Forall BlockMerged vs' -> Combined vs v -> Combined vs' v' -> veq v v'.
Proof.
  intros H HB HB' HC HC'. destruct HC as [v|l1 l2 ls|b1 b2 bs m HT].
  - inversion H as [|? y ? ? Hv Hl]; subst. inversion Hl; subst. inversion HC'; subst. exact Hv.
  - remember (l1 :: l2 :: ls) as ll eqn:Ell. inversion HC' as [x|l1' l2' ls'|b1 b2 bs m HT]; subst vs' v'.
    + subst ll. inversion H as [|? ? ? ? _ H2]. inversion H2.
    + apply VE_object, veq_objects_concat, objects_rel, H.
    + subst ll. inversion H as [|? ? ? ? Hx _]. inversion Hx.
  - remember (b1 :: b2 :: bs) as ll eqn:Ell. inversion HC' as [x|l1' l2' ls'|b1' b2' bs' m' HT']; subst vs' v'.
    + subst ll. inversion H as [|? ? ? ? _ H2]. inversion H2.
    + subst ll. inversion H as [|? ? ? ? Hx _]. inversion Hx.
    + apply blocks_rel in H; [|assumption..]. destruct (TableOf_related labels_eqb labels_eqb_eq meq _ _ _ _ H HT HT') as (m1 & HP & HF).
      eapply VE_block_m; eassumption.
Qed.
Lemma Forall2_two {A B C} (P : A -> B -> Prop) (Q : A -> C -> Prop) (R : B -> C -> Prop) l l1 l2 :
  Forall (fun a => forall b c, P a b -> Q a c -> R b c) l -> Forall2 P l l1 -> Forall2 Q l l2 -> Forall2 R l1 l2.
Proof.
  intros H H1. revert l2. induction H1 as [|a b l l1 Hab _ IH]; intros l2 H2; inversion H2 as [|? c ? ? Hac Hl]; subst; constructor; inversion H; subst; eauto.
Qed.
(** The result is determined up to the order of tables. *)
Lemma MergesTo_det : (forall v r r', MergesTo v r -> MergesTo v r' -> veq r r') /\ (forall p r r', MapMergesTo p r -> MapMergesTo p r' -> meq r r').
Proof.
  apply value_map_ind.
  1-5: intros; repeat match goal with H : MergesTo _ _ |- _ => inversion H; clear H; subst end; apply veq_refl.
  - intros l IH r r' H H'. inversion H as [|? Hs|? ? HF| |]; subst; [discriminate|]. inversion H' as [|? Hs|? ? HF'| |]; subst; [discriminate|].
    constructor. eapply Forall2_two; eassumption.
  - intros l IH r r' H H'. inversion H as [|? Hs| |? ? HF|]; subst; [discriminate|]. inversion H' as [|? Hs| |? ? HF'|]; subst; [discriminate|].
    constructor. eapply Forall2_two; eassumption.
  - intros b IH r r' H H'. inversion H as [|? Hs| | |? l1 m HF HT]; subst; [discriminate|]. inversion H' as [|? Hs| | |? l2 m' HF' HT']; subst; [discriminate|].
    assert (HR : Forall2 (fun a b => fst b = fst a /\ meq (snd a) (snd b)) l1 l2).
    { eapply Forall2_two; [|exact HF|exact HF']. eapply Forall_impl; [|exact IH]. cbn. intros a Ha x y [E1 H1] [E2 H2]. split; [congruence|eauto]. }
    apply LR_Forall2 in HR. destruct (TableOf_related labels_eqb labels_eqb_eq meq _ _ _ _ HR HT HT') as (m1 & HP & HM). eapply VE_block_m; eassumption.
  - intros p IH r r' H H'. inversion H as [|l l1 m HF HD HK HC]; subst.
    + inversion H'; subst. apply veq_refl.
    + inversion H' as [|? l2 m' HF' HD' HK' HC']; subst. cbn in IH.
      assert (HR : Forall2 (fun a b => fst b = fst a /\ veq (snd a) (snd b)) l1 l2).
      { eapply Forall2_two; [|exact HF|exact HF']. eapply Forall_impl; [|exact IH]. cbn. intros a Ha x y [E1 H1] [E2 H2]. split; [congruence|eauto]. }
      destruct (tables_related veq m' m HD HD') as (m1 & HP & HM).
      * intros k. rewrite HK, HK'. reflexivity.
      * intros k v v' Hv Hv'. apply (Combined_related (values_of k l1) (values_of k l2)).
        -- apply values_of_Forall2, HR.
        -- eapply merges_blockmerged, values_of_Forall2, HF.
        -- eapply merges_blockmerged, values_of_Forall2, HF'.
        -- apply HC, Hv.
        -- apply HC', Hv'.
      * eapply ME_m; eassumption.
Qed.

(** ** Merging again *)
Lemma MapMergesTo_table p r : MapMergesTo p r -> exists m, r = Merged m.
Proof. intros H; inversion H; subst; eexists; reflexivity. Qed.
Lemma TableOf_Forall {K V} (P : K * V -> Prop) l m : TableOf l m -> Forall P l -> Forall P m.
Proof.
  intros [_ H] HF. apply Forall_forall. intros [k v] Hi. apply H in Hi as (l1 & l2 & -> & _). apply (Forall_elt _ _ _ _ HF).
Qed.
Lemma Forall2_right {A B} (P : B -> Prop) (R : A -> B -> Prop) l l' : (forall a b, R a b -> P b) -> Forall2 R l l' -> Forall P l'.
Proof. intros H. induction 1; constructor; eauto. Qed.
Lemma merged_again : (forall v r, MergesTo v r -> CanMerge r /\ forall r', MergesTo r r' -> veq r r') /\ (forall p : mapvalues, True).
Proof.
  apply value_map_ind.
  1: intros r H; inversion H; subst; (split; [constructor|intros r' H'; eapply MergesTo_det; eassumption]).
  1-4: intros x r H; inversion H as [|? Hs| | |]; subst; (split; [apply CM_scalar, Hs|intros r' H'; eapply MergesTo_det; eassumption]).
  - intros l IH r H. inversion H as [|? Hs|? l' HF| |]; subst; [discriminate|].
    assert (HA : Forall (fun r => CanMerge r /\ forall r', MergesTo r r' -> veq r r') l').
    { clear - IH HF. induction HF as [|a b l l' Hab _ IHF]; [constructor|]. inversion IH; subst. constructor; auto. }
    split; [constructor; eapply Forall_impl; [|exact HA]; intros a []; assumption|].
    intros r' H'. inversion H' as [|? Hs|? l2 HF'| |]; subst; [discriminate|]. constructor.
    clear - HA HF'. induction HF' as [|a b l' l2 Hab _ IHF]; [constructor|]. inversion HA as [|? ? [_ Ha] Hl]; subst. constructor; auto.
  - intros l _ r H. inversion H as [|? Hs| |? l' HF|]; subst; [discriminate|].
    assert (HA : Forall (fun p => exists m : list (key * value), p = Merged m) l') by (eapply Forall2_right; [|exact HF]; intros a b; apply MapMergesTo_table).
    split; [constructor; eapply Forall_impl; [|exact HA]; intros a (m & ->); constructor|].
    intros r' H'. inversion H' as [|? Hs| |? l2 HF'|]; subst; [discriminate|]. constructor.
    clear - HA HF'. induction HF' as [|a b l' l2 Hab _ IHF]; [constructor|]. inversion HA as [|? ? (m & ->) Hl]; subst. inversion Hab; subst. constructor; [apply veq_refl|auto].
  - intros b _ r H. inversion H as [|? Hs| | |? l' m HF HT]; subst; [discriminate|].
    assert (HA : Forall (fun kv : list str * mapvalues => exists m : list (key * value), snd kv = Merged m) m).
    { apply (TableOf_Forall _ l' m HT). eapply Forall2_right; [|exact HF]. intros x y [_ Hxy]. eapply MapMergesTo_table; eassumption. }
    split; [constructor; cbn; eapply Forall_impl; [|exact HA]; intros a (m0 & E); rewrite E; constructor|].
    intros r' H'. inversion H' as [|? Hs| | |? l2 m' HF' HT']; subst; [discriminate|]. cbn in HF'.
    assert (E : l2 = m).
    { clear - HA HF'. induction HF' as [|[ka a] [kb b] l' l2 [E Hab] _ IHF]; [reflexivity|]. inversion HA as [|? ? (m & Em) Hl]; subst. cbn in *. subst. inversion Hab; subst. f_equal. auto. }
    subst l2. apply (VE_block_m m m' m'); [apply TableOf_distinct; [apply HT|exact HT']|]. apply Forall2_refl_in. apply Forall_forall. intros x _. split; [reflexivity|apply veq_refl].
  - intros; exact I.
Qed.

(** ** What merging preserves *)
Section Preserve.
  Variables (P P' : value -> Prop) (PM PM' : mapvalues -> Prop).
  Hypothesis Hscalar : forall v, v = VNull \/ is_scalar v = true -> P v -> P' v.
  Hypothesis Hlist : forall l, P (VList l) -> Forall P l.
  Hypothesis Hlist' : forall l, Forall P' l -> P' (VList l).
  Hypothesis Hobject : forall l, P (VObject l) -> Forall PM l.
  Hypothesis Hobject' : forall l, Forall PM' l <-> P' (VObject l).
  Hypothesis Hblock : forall b, P (VBlock b) -> Forall (fun kv => PM (snd kv)) (entries b).
  Hypothesis Hblock' : forall b, P' (VBlock b) -> Forall (fun kv => PM' (snd kv)) (entries b).
  Hypothesis Hblock'' : forall m, NoDup (map fst m) -> Forall (fun kv => PM' (snd kv)) m -> P' (VBlock (Merged m)).
  Hypothesis Hmap : forall l, PM (Unmerged l) -> Forall (fun kv => P (snd kv)) l.
  Hypothesis Hmap' : forall m, NoDup (map fst m) -> Forall (fun kv => P' (snd kv)) m -> PM' (Merged m).
  Hypothesis Hmerged : forall m, PM (Merged m) -> PM' (Merged m).
  Lemma Combined_preserve vs v : Combined vs v -> Forall P' vs -> P' v.
  Proof.
    intros HC HF. destruct HC as [v|l1 l2 ls|b1 b2 bs m HT].
    - inversion HF; assumption.
    - apply Hobject'. generalize dependent (l1 :: l2 :: ls). intros ll HF. clear - HF Hobject'. induction ll as [|x ll IH]; cbn; [constructor|].
      inversion HF; subst. apply Forall_app. split; [apply Hobject'; assumption|auto].
    - apply Hblock''; [apply HT|]. apply (TableOf_Forall _ _ _ HT). clear HT. generalize dependent (b1 :: b2 :: bs). intros ll HF. clear - HF Hblock'.
      induction ll as [|x ll IH]; cbn; [constructor|]. inversion HF; subst. apply Forall_app. split; [apply Hblock'; assumption|auto].
  Qed.
  Lemma preserve : (forall v r, MergesTo v r -> P v -> P' r) /\ (forall p r, MapMergesTo p r -> PM p -> PM' r).
  Proof.
    assert (HT : forall {A B} (F : A -> B -> Prop) (X : A -> Prop) (Y : B -> Prop) l l', Forall (fun a => forall b, F a b -> X a -> Y b) l -> Forall2 F l l' -> Forall X l -> Forall Y l').
    { clear. intros A B F X Y l l' H H2. induction H2; intros HX; constructor; inversion H; inversion HX; subst; auto. }
    apply value_map_ind.
    1: intros r H HP; inversion H; subst; apply Hscalar; auto.
    1-4: intros x r H HP; inversion H; subst; apply Hscalar; auto.
    - intros l IH r H HP. inversion H as [|? Hs|? l' HF| |]; subst; [discriminate|]. apply Hlist'. eapply HT; [exact IH|exact HF|apply Hlist, HP].
    - intros l IH r H HP. inversion H as [|? Hs| |? l' HF|]; subst; [discriminate|]. apply Hobject'. eapply HT; [exact IH|exact HF|apply Hobject, HP].
    - intros b IH r H HP. inversion H as [|? Hs| | |? l' m HF HTb]; subst; [discriminate|]. apply Hblock''; [apply HTb|]. apply (TableOf_Forall _ _ _ HTb).
      apply Hblock in HP. eapply HT; [|exact HF|exact HP]. eapply Forall_impl; [|exact IH]. cbn. intros a Ha b0 [_ Hab]. eauto.
    - intros p IH r H HP. inversion H as [|l l' m HF HD HK HC]; subst; [apply Hmerged, HP|]. cbn in IH. apply Hmap in HP. apply Hmap'; [exact HD|].
      assert (HF' : Forall (fun kv => P' (snd kv)) l').
      { eapply HT; [|exact HF|exact HP]. eapply Forall_impl; [|exact IH]. cbn. intros a Ha b0 [_ Hab]. eauto. }
      apply Forall_forall. intros [k v] Hi. apply (Combined_preserve (values_of k l')); [apply HC, Hi|].
      apply Forall_forall. intros x Hx. apply values_of_in in Hx. rewrite Forall_forall in HF'. apply (HF' (k, x) Hx).
  Qed.
End Preserve.
Lemma merged_AllMerged : (forall v r, MergesTo v r -> Tidy v -> AllMerged r) /\ (forall p r, MapMergesTo p r -> TidyMap p -> AllMergedMap r).
Proof.
  apply preserve.
  - intros v [->|Hs] _; [constructor|apply AM_scalar, Hs].
  - intros l H. inversion H; [discriminate|assumption].
  - intros; constructor; assumption.
  - intros l H. inversion H; [discriminate|assumption].
  - intros l. split; [intros; constructor; assumption|intros H; inversion H; [discriminate|assumption]].
  - intros l H. inversion H; [discriminate|assumption].
  - intros l H. inversion H; [discriminate|assumption].
  - intros; constructor; assumption.
  - intros l H. inversion H; assumption.
  - intros; constructor; assumption.
  - intros l H. inversion H; assumption.
Qed.
Lemma merged_WfTables : (forall v r, MergesTo v r -> WfTables v -> WfTables r) /\ (forall p r, MapMergesTo p r -> WfTablesMap p -> WfTablesMap r).
Proof.
  apply preserve.
  - auto.
  - intros l H. inversion H; [discriminate|assumption].
  - intros; constructor; assumption.
  - intros l H. inversion H; [discriminate|assumption].
  - intros l. split; [intros; constructor; assumption|intros H; inversion H; [discriminate|assumption]].
  - intros l H. inversion H; [discriminate|assumption].
  - intros l H. inversion H; [discriminate|assumption].
  - intros; constructor; assumption.
  - intros l H. inversion H; assumption.
  - intros; constructor; assumption.
  - auto.
Qed.
Lemma merged_NoNull : (forall v r, MergesTo v r -> NoNull v -> NoNull r) /\ (forall p r, MapMergesTo p r -> NoNullMap p -> NoNullMap r).
Proof.
  apply preserve.
  - auto.
  - intros l H. inversion H; [discriminate|assumption].
  - intros; constructor; assumption.
  - intros l H. inversion H; [discriminate|assumption].
  - intros l. split; [intros; constructor; assumption|intros H; inversion H; [discriminate|assumption]].
  - intros l H. inversion H; [discriminate|assumption].
  - intros l H. inversion H; [discriminate|assumption].
  - intros; constructor; assumption.
  - intros l H. inversion H; assumption.
  - intros; constructor; assumption.
  - auto.
Qed.
Lemma unmerged_tidy : (forall v, AllUnmerged v -> Tidy v /\ WfTables v) /\ (forall p, AllUnmergedMap p -> TidyMap p /\ WfTablesMap p).
Proof.
  apply value_map_ind; try (intros; split; constructor; reflexivity).
  - intros l IH H. inversion H as [|? Hs|? HF| |]; subst; [discriminate|]. split; constructor; clear H; induction HF; inversion IH; subst; constructor; auto; apply H2; assumption.
  - intros l IH H. inversion H as [|? Hs| |? HF|]; subst; [discriminate|]. split; constructor; clear H; induction HF; inversion IH; subst; constructor; auto; apply H2; assumption.
  - intros b IH H. inversion H as [|? Hs| | |? HF]; subst; [discriminate|]. split; constructor; clear H; cbn in *; auto; induction HF; inversion IH; subst; constructor; auto; apply H2; assumption.
  - intros p IH H. inversion H as [l HF]; subst. split; constructor; clear H; cbn in *; auto; induction HF; inversion IH; subst; constructor; auto; apply H2; assumption.
Qed.

(** ** Counting scalars *)
Definition oplus (a b : option nat) : option nat := match a, b with Some n, Some m => Some (n + m)%nat | _, _ => None end.
Lemma sum_p_cons {A} (f : A -> option nat) x l : sum_p f (x :: l) = oplus (f x) (sum_p f l).
Proof. cbn. unfold oplus. destruct (f x); [|reflexivity]. destruct (sum_p f l); reflexivity. Qed.
Lemma oplus_assoc a b c : oplus a (oplus b c) = oplus (oplus a b) c.
Proof. destruct a, b, c; cbn; try reflexivity. f_equal. lia. Qed.
Lemma oplus_comm a b : oplus a b = oplus b a.
Proof. destruct a, b; cbn; try reflexivity. f_equal. lia. Qed.
Lemma sum_p_app {A} (f : A -> option nat) l1 l2 : sum_p f (l1 ++ l2) = oplus (sum_p f l1) (sum_p f l2).
Proof.
  induction l1 as [|x l1 IH]; [cbn; destruct (sum_p f l2); reflexivity|]. cbn [app]. rewrite !sum_p_cons, IH. apply oplus_assoc.
Qed.
Lemma sum_p_perm {A} (f : A -> option nat) l1 l2 : Permutation l1 l2 -> sum_p f l1 = sum_p f l2.
Proof.
  induction 1 as [|x l1 l2 _ IH|x y l|l1 l2 l3 _ IH1 _ IH2]; [reflexivity|rewrite !sum_p_cons, IH; reflexivity| |congruence].
  rewrite !sum_p_cons, !oplus_assoc, (oplus_comm (f y)). reflexivity.
Qed.
Lemma sum_p_Forall2 {A B} (f : A -> option nat) (g : B -> option nat) l l' : Forall2 (fun a b => g b = f a) l l' -> sum_p g l' = sum_p f l.
Proof. induction 1 as [|a b l l' H _ IH]; [reflexivity|]. rewrite !sum_p_cons, H, IH. reflexivity. Qed.
Lemma sum_p_concat {A} (f : A -> option nat) ls : sum_p f (concat ls) = sum_p (sum_p f) ls.
Proof. induction ls as [|l ls IH]; [reflexivity|]. cbn [concat]. rewrite sum_p_app, sum_p_cons, IH. reflexivity. Qed.
Lemma sum_p_map {A B} (g : A -> B) (f : B -> option nat) l : sum_p f (map g l) = sum_p (fun x => f (g x)) l.
Proof. induction l as [|x l IH]; [reflexivity|]. cbn [map]. rewrite !sum_p_cons, IH. reflexivity. Qed.
Lemma kvp_len_scalar_entries {K V} (f : V -> option nat) (p : kvp K V) : kvp_len_scalar f p = sum_p (fun kv => f (snd kv)) (entries p).
Proof. destruct p; reflexivity. Qed.
(** grouping by key *)
Lemma group_sum (f : value -> option nat) m : forall l, NoDup (map fst m) -> (forall k, In k (map fst l) -> In k (map (@fst key value) m)) ->
  sum_p (fun kv => f (snd kv)) l = sum_p (fun kv => sum_p f (values_of (fst kv) l)) m.
Proof.
  induction m as [|[k v] m IH]; intros l HD HK.
  - destruct l as [|[k v] l]; [reflexivity|]. elim (HK k). left. reflexivity.
  - cbn in HD. inversion HD as [|? ? Hn HD']; subst. rewrite sum_p_cons. cbn [fst].
    set (l2 := filter (fun kv => negb (key_eqb (fst kv) k)) l).
    assert (HP : Permutation l (filter (fun kv => key_eqb (fst kv) k) l ++ l2)).
    { subst l2. clear. induction l as [|x l IH]; [constructor|]. cbn. destruct (key_eqb (fst x) k); cbn; [constructor; exact IH|]. rewrite IH at 1. apply Permutation_middle. }
    rewrite (sum_p_perm _ _ _ HP), sum_p_app. f_equal.
    + unfold values_of. rewrite sum_p_map. reflexivity.
    + rewrite (IH l2); [|exact HD'|].
      * assert (G : forall m0, (forall k', In k' (map fst m0) -> k' <> k) -> sum_p (fun kv => sum_p f (values_of (fst kv) l2)) m0 = sum_p (fun kv : key * value => sum_p f (values_of (fst kv) l)) m0).
        { induction m0 as [|[k' v'] m0 IHm]; intros Hne; [reflexivity|]. rewrite !sum_p_cons, IHm; [|intros k0 Hk0; apply Hne; right; exact Hk0]. f_equal. f_equal. cbn [fst].
          unfold values_of, l2. f_equal. assert (Hk : k' <> k) by (apply Hne; left; reflexivity). clear - Hk.
          induction l as [|[k0 v0] l IH]; [reflexivity|]. cbn. destruct (key_eqb k0 k) eqn:E; cbn.
          - apply key_eqb_eq in E. subst k0. assert (E : key_eqb k k' = false) by (apply key_eqb_neq; congruence). rewrite E. exact IH.
          - rewrite IH. reflexivity. }
        apply G. intros k' Hk' ->. exact (Hn Hk').
      * intros k' Hk'. subst l2. apply in_map_iff in Hk' as ([k0 v0] & <- & Hi). apply filter_In in Hi as [Hi E]. cbn in *.
        destruct (HK k0) as [H|H]; [apply (in_map fst) in Hi; exact Hi| |exact H]. subst k0. rewrite key_eqb_refl in E. discriminate.
Qed.
Lemma block_labels_entries bs : block_labels (map VBlock bs) = map fst (concat (map entries bs)).
Proof. induction bs as [|b bs IH]; [reflexivity|]. cbn. rewrite map_app. f_equal. exact IH. Qed.
Lemma Combined_sum vs v : Combined vs v -> NoDup (block_labels vs) -> len_scalar v = sum_p len_scalar vs.
Proof.
  intros HC HD. destruct HC as [v|l1 l2 ls|b1 b2 bs m HT].
  - rewrite sum_p_cons. cbn. destruct (len_scalar v); cbn; [f_equal; lia|reflexivity].
  - rewrite sum_p_map. cbn [len_scalar is_scalar]. rewrite sum_p_concat. reflexivity.
  - rewrite sum_p_map. cbn [len_scalar is_scalar]. rewrite block_labels_entries in HD. apply (TableOf_distinct _ _ HD) in HT.
    cbn [kvp_len_scalar]. rewrite <- (sum_p_perm _ _ _ HT), sum_p_concat, sum_p_map.
    apply sum_p_Forall2. apply Forall2_refl_in. apply Forall_forall. intros b _. symmetry. apply kvp_len_scalar_entries.
Qed.
Lemma merged_labels vs vs' : Forall2 MergesTo vs vs' -> Forall DistinctLabels vs -> Forall2 (fun a b => Permutation (block_labels [a]) (block_labels [b])) vs vs'.
Proof.
  induction 1 as [|v r vs vs' H _ IH]; intros HD; [constructor|]. inversion HD as [|? ? HDv HDl]; subst. constructor; [|auto].
  destruct H; try reflexivity. inversion HDv as [|? Hs| | |? HN HA]; subst; [discriminate|]. cbn. rewrite !app_nil_r.
  assert (E : map fst (entries b) = map fst l') by (eapply Forall2_keys; exact H). rewrite E in *. apply Permutation_map. apply TableOf_distinct; assumption.
Qed.
Lemma block_labels_cons v vs : block_labels (v :: vs) = block_labels [v] ++ block_labels vs.
Proof. cbn. rewrite app_nil_r. reflexivity. Qed.
Lemma merged_labels_all vs vs' : Forall2 MergesTo vs vs' -> Forall DistinctLabels vs -> Permutation (block_labels vs) (block_labels vs').
Proof.
  intros H HD. pose proof (merged_labels _ _ H HD) as HP. clear H HD. induction HP as [|a b vs vs' Hab _ IH]; [reflexivity|].
  rewrite (block_labels_cons a), (block_labels_cons b). apply Permutation_app; assumption.
Qed.
Lemma merged_len_scalar : (forall v r, MergesTo v r -> DistinctLabels v -> len_scalar r = len_scalar v) /\
  (forall p r, MapMergesTo p r -> DistinctLabelsMap p -> map_len_scalar r = map_len_scalar p).
Proof.
  apply value_map_ind.
  1-5: intros; match goal with H : MergesTo _ _ |- _ => inversion H; subst; reflexivity end.
  - intros l IH r H HD. inversion H as [|? Hs|? l' HF| |]; subst; [discriminate|]. inversion HD as [|? Hs|? HA| |]; subst; [discriminate|].
    cbn [len_scalar is_scalar]. apply sum_p_Forall2. clear - IH HF HA. induction HF; constructor; inversion IH; inversion HA; subst; auto.
  - intros l IH r H HD. inversion H as [|? Hs| |? l' HF|]; subst; [discriminate|]. inversion HD as [|? Hs| |? HA|]; subst; [discriminate|].
    cbn [len_scalar is_scalar]. apply sum_p_Forall2. clear - IH HF HA. induction HF; constructor; inversion IH; inversion HA; subst; auto.
  - intros b IH r H HD. inversion H as [|? Hs| | |? l' m HF HT]; subst; [discriminate|]. inversion HD as [|? Hs| | |? HN HA]; subst; [discriminate|].
    cbn [len_scalar is_scalar]. rewrite !kvp_len_scalar_entries. cbn [entries]. rewrite (Forall2_keys _ _ _ HF) in HN.
    rewrite <- (sum_p_perm _ _ _ (TableOf_distinct _ _ HN HT)). apply sum_p_Forall2. clear - IH HF HA.
    induction HF as [|a c l l' [_ Hac] _ IHF]; constructor; inversion IH; inversion HA; subst; [apply H1; assumption|auto].
  - intros p IH r H HD. inversion H as [|l l' m HF HND HK HC]; subst; [reflexivity|]. inversion HD as [|? HA HL]; subst. cbn in IH.
    unfold map_len_scalar, kvp_len_scalar.
    assert (HF2 : Forall2 MergesTo (map snd l) (map snd l')) by (clear - HF; induction HF as [|? ? ? ? []]; constructor; assumption).
    rewrite <- (sum_p_Forall2 (fun kv => len_scalar (snd kv)) (fun kv => len_scalar (snd kv)) l l').
    + rewrite (group_sum len_scalar m l'); [|exact HND|intros k; rewrite HK, (Forall2_keys _ _ _ HF); auto].
      apply sum_p_Forall2. apply Forall2_refl_in. apply Forall_forall. intros [k v] Hi. cbn. apply Combined_sum; [apply HC, Hi|].
      eapply Permutation_NoDup; [|apply (HL k)]. apply merged_labels_all; [apply values_of_Forall2, HF|].
      apply Forall_forall. intros x Hx. apply values_of_in in Hx. rewrite Forall_forall in HA. apply (HA (k, x) Hx).
    + clear - IH HF HA. induction HF as [|a c l l' [_ Hac] _ IHF]; constructor; inversion IH; inversion HA; subst; [apply H1; assumption|auto].
Qed.

(** ** The methods on values without nulls *)
Lemma all_p_total {A} (f : A -> option bool) (X : A -> Prop) l : Forall (fun a => exists b, f a = Some b /\ (b = true <-> X a)) l ->
  exists b, all_p f l = Some b /\ (b = true <-> Forall X l).
Proof.
  induction 1 as [|a l (b & E & Hb) _ (c & E2 & Hc)]; cbn; [exists true; split; [reflexivity|split; [constructor|reflexivity]]|].
  rewrite E. destruct b.
  - exists c. split; [exact E2|]. rewrite Hc. split; [intros; constructor; [apply Hb; reflexivity|assumption]|intros H; inversion H; assumption].
  - exists false. split; [reflexivity|]. split; [discriminate|]. intros H. inversion H; subst. apply Hb. assumption.
Qed.
Lemma sum_p_total {A} (f : A -> option nat) l : Forall (fun a => exists n, f a = Some n) l -> exists n, sum_p f l = Some n.
Proof.
  induction 1 as [|a l (n & E) _ (m & E2)]; [exists O; reflexivity|]. cbn. rewrite E, E2. eexists. reflexivity.
Qed.
Lemma methods_total : 
  (forall v, NoNull v -> (exists n, len_scalar v = Some n) /\ (exists b, is_merged v = Some b /\ (b = true <-> AllMerged v)) /\
                         (exists b, is_unmerged v = Some b /\ (b = true <-> AllUnmerged v))) /\
  (forall p, NoNullMap p -> (exists n, map_len_scalar p = Some n) /\ (exists b, map_is_merged p = Some b /\ (b = true <-> AllMergedMap p)) /\
                         (exists b, map_is_unmerged p = Some b /\ (b = true <-> AllUnmergedMap p))).
Proof.
  assert (HS : forall v, is_scalar v = true -> (exists n, len_scalar v = Some n) /\ (exists b, is_merged v = Some b /\ (b = true <-> AllMerged v)) /\
                         (exists b, is_unmerged v = Some b /\ (b = true <-> AllUnmerged v))).
  { intros v Hs. destruct v; try discriminate; cbn; (split; [eexists; reflexivity|split; exists true; (split; [reflexivity|]); (split; [intros _; constructor; reflexivity|reflexivity])]). }
  apply value_map_ind.
  1: intros H; inversion H; discriminate.
  1-4: intros x H; apply HS; reflexivity.
  - intros l IH H. inversion H as [? Hs|? HF| |]; subst; [discriminate|].
    assert (HA : Forall (fun v => (exists n, len_scalar v = Some n) /\ (exists b, is_merged v = Some b /\ (b = true <-> AllMerged v)) /\
                         (exists b, is_unmerged v = Some b /\ (b = true <-> AllUnmerged v))) l).
    { clear - IH HF. induction HF; constructor; inversion IH; subst; auto. }
    cbn. split; [apply sum_p_total; eapply Forall_impl; [|exact HA]; intros a Ha; apply Ha|].
    split; [destruct (all_p_total is_merged AllMerged l) as (b & E & Hb)|destruct (all_p_total is_unmerged AllUnmerged l) as (b & E & Hb)];
      try (eapply Forall_impl; [|exact HA]; intros a Ha; apply Ha).
    + exists b. split; [exact E|]. rewrite Hb. split; [intros; constructor; assumption|intros X; inversion X; [discriminate|assumption]].
    + exists b. split; [exact E|]. rewrite Hb. split; [intros; constructor; assumption|intros X; inversion X; [discriminate|assumption]].
  - intros l IH H. inversion H as [? Hs| |? HF|]; subst; [discriminate|].
    assert (HA : Forall (fun p => (exists n, map_len_scalar p = Some n) /\ (exists b, map_is_merged p = Some b /\ (b = true <-> AllMergedMap p)) /\
                         (exists b, map_is_unmerged p = Some b /\ (b = true <-> AllUnmergedMap p))) l).
    { clear - IH HF. induction HF; constructor; inversion IH; subst; auto. }
    cbn. split; [apply sum_p_total; eapply Forall_impl; [|exact HA]; intros a Ha; apply Ha|].
    split; [destruct (all_p_total map_is_merged AllMergedMap l) as (b & E & Hb)|destruct (all_p_total map_is_unmerged AllUnmergedMap l) as (b & E & Hb)];
      try (eapply Forall_impl; [|exact HA]; intros a Ha; apply Ha).
    + exists b. split; [exact E|]. rewrite Hb. split; [intros; constructor; assumption|intros X; inversion X; [discriminate|assumption]].
    + exists b. split; [exact E|]. rewrite Hb. split; [intros; constructor; assumption|intros X; inversion X; [discriminate|assumption]].
  - intros b IH H. inversion H as [? Hs| | |? HF]; subst; [discriminate|].
    assert (HA : Forall (fun kv : list str * mapvalues => (exists n, map_len_scalar (snd kv) = Some n) /\ (exists b, map_is_merged (snd kv) = Some b /\ (b = true <-> AllMergedMap (snd kv))) /\
                         (exists b, map_is_unmerged (snd kv) = Some b /\ (b = true <-> AllUnmergedMap (snd kv)))) (entries b)).
    { clear - IH HF. induction HF; constructor; inversion IH; subst; auto. }
    cbn [len_scalar is_merged is_unmerged is_scalar]. rewrite kvp_len_scalar_entries. split; [apply sum_p_total; eapply Forall_impl; [|exact HA]; intros a Ha; apply Ha|].
    destruct b as [m|l]; cbn in *.
    + split; [|exists false; split; [reflexivity|split; [discriminate|intros X; inversion X; discriminate]]].
      destruct (all_p_total (fun kv : list str * mapvalues => map_is_merged (snd kv)) (fun kv => AllMergedMap (snd kv)) m) as (b & E & Hb);
        [eapply Forall_impl; [|exact HA]; intros a Ha; apply Ha|].
      exists b. split; [exact E|]. rewrite Hb. split; [intros; constructor; assumption|intros X; inversion X; [discriminate|assumption]].
    + split; [exists false; split; [reflexivity|split; [discriminate|intros X; inversion X; discriminate]]|].
      destruct (all_p_total (fun kv : list str * mapvalues => map_is_unmerged (snd kv)) (fun kv => AllUnmergedMap (snd kv)) l) as (b & E & Hb);
        [eapply Forall_impl; [|exact HA]; intros a Ha; apply Ha|].
      exists b. split; [exact E|]. rewrite Hb. split; [intros; constructor; assumption|intros X; inversion X; [discriminate|assumption]].
  - intros p IH H. inversion H as [? HF]; subst.
    assert (HA : Forall (fun kv : key * value => (exists n, len_scalar (snd kv) = Some n) /\ (exists b, is_merged (snd kv) = Some b /\ (b = true <-> AllMerged (snd kv))) /\
                         (exists b, is_unmerged (snd kv) = Some b /\ (b = true <-> AllUnmerged (snd kv)))) (entries p)).
    { clear - IH HF. induction HF; constructor; inversion IH; subst; auto. }
    unfold map_len_scalar. rewrite kvp_len_scalar_entries. split; [apply sum_p_total; eapply Forall_impl; [|exact HA]; intros a Ha; apply Ha|].
    destruct p as [m|l]; cbn in *.
    + split; [|exists false; split; [reflexivity|split; [discriminate|intros X; inversion X; discriminate]]].
      destruct (all_p_total (fun kv : key * value => is_merged (snd kv)) (fun kv => AllMerged (snd kv)) m) as (b & E & Hb);
        [eapply Forall_impl; [|exact HA]; intros a Ha; apply Ha|].
      exists b. split; [exact E|]. rewrite Hb. split; [intros; constructor; assumption|intros X; inversion X; assumption].
    + split; [exists false; split; [reflexivity|split; [discriminate|intros X; inversion X; discriminate]]|].
      destruct (all_p_total (fun kv : key * value => is_unmerged (snd kv)) (fun kv => AllUnmerged (snd kv)) l) as (b & E & Hb);
        [eapply Forall_impl; [|exact HA]; intros a Ha; apply Ha|].
      exists b. split; [exact E|]. rewrite Hb. split; [intros; constructor; assumption|intros X; inversion X; assumption].
Qed.

(** ** [as_owned] *)
Lemma hm_extend_self {K V} (e : K -> K -> bool) (He : Eqb e) (l m : list (K * V)) : NoDup (map fst l) -> hm_extend e [] l m -> Permutation l m.
Proof. intros HD H. apply (TableOf_distinct l m HD). apply (TableOf_extend e He [] [] l m TableOf_nil H). Qed.
Lemma key_as_owned_id k : key_as_owned k = k.
Proof. destruct k; reflexivity. Qed.
Lemma as_owned_eq : (forall v r, v_as_owned v r -> WfTables v -> veq v r) /\ (forall p r, m_as_owned p r -> WfTablesMap p -> meq p r).
Proof.
  apply value_map_ind.
  1-5: intros; match goal with H : v_as_owned _ _ |- _ => inversion H; subst; constructor end.
  - intros l IH r H HW. inversion H as [| | | | |? l' HF| | |]; subst. inversion HW as [|? Hs|? HA| |]; subst; [discriminate|]. constructor.
    clear - IH HF HA. induction HF; constructor; inversion IH; inversion HA; subst; auto.
  - intros l IH r H HW. inversion H as [| | | | | |? l' HF| |]; subst. inversion HW as [|? Hs| |? HA|]; subst; [discriminate|]. constructor.
    clear - IH HF HA. induction HF; constructor; inversion IH; inversion HA; subst; auto.
  - intros b IH r H HW. inversion HW as [|? Hs| | |? HN HA]; subst; [discriminate|].
    inversion H as [| | | | | | |l l' HF|l l' m HF HX]; subst; cbn in *.
    + constructor. clear - IH HF HA. induction HF as [|a c l l' [E Hac] _ IHF]; constructor; inversion IH; inversion HA; subst; auto.
    + assert (HF2 : Forall2 (fun a b => fst b = fst a /\ meq (snd a) (snd b)) l l').
      { clear - IH HF HA. induction HF as [|a c l l' [E Hac] _ IHF]; constructor; inversion IH; inversion HA; subst; auto. }
      assert (HD : NoDup (map fst l')) by (rewrite <- (Forall2_keys _ _ _ HF2); exact HN).
      pose proof (hm_extend_self _ labels_eqb_eq _ _ HD HX) as HP.
      destruct (TableOf_related labels_eqb labels_eqb_eq meq l l' l m) as (m1 & HP1 & HF1); [apply LR_Forall2; exact HF2|apply TableOf_self; exact HN| |].
      * eapply TableOf_perm; [exact HP|apply TableOf_self; exact HD].
      * eapply VE_block_m; eassumption.
  - intros p IH r H HW. inversion HW as [? HN HA]; subst.
    inversion H as [l l' HF|l l' m HF HX]; subst; cbn in *.
    + constructor. clear - IH HF HA. induction HF as [|a c l l' [E Hac] _ IHF]; constructor; inversion IH; inversion HA; subst; auto. split; [rewrite E, key_as_owned_id; reflexivity|auto].
    + assert (HF2 : Forall2 (fun a b => fst b = fst a /\ veq (snd a) (snd b)) l l').
      { clear - IH HF HA. induction HF as [|a c l l' [E Hac] _ IHF]; constructor; inversion IH; inversion HA; subst; auto. split; [rewrite E, key_as_owned_id; reflexivity|auto]. }
      assert (HD : NoDup (map fst l')) by (rewrite <- (Forall2_keys _ _ _ HF2); exact HN).
      pose proof (hm_extend_self _ key_eqb_eq _ _ HD HX) as HP.
      destruct (TableOf_related key_eqb key_eqb_eq veq l l' l m) as (m1 & HP1 & HF1); [apply LR_Forall2; exact HF2|apply TableOf_self; exact HN| |].
      * eapply TableOf_perm; [exact HP|apply TableOf_self; exact HD].
      * eapply ME_m; eassumption.
Qed.
Lemma as_owned_total : (forall v, exists r, v_as_owned v r) /\ (forall p, exists r, m_as_owned p r).
Proof.
  assert (HFE : forall {A} (R : A -> A -> Prop) l, Forall (fun a => exists b, R a b) l -> exists l', Forall2 R l l').
  { clear. intros A R l. induction 1 as [|a l (b & Hb) _ (l' & Hl)]; [exists []; constructor|]. exists (b :: l'). constructor; assumption. }
  apply value_map_ind; try (intros; eexists; constructor; fail).
  - intros l IH. apply HFE in IH as (l' & H). eexists. constructor. exact H.
  - intros l IH. apply HFE in IH as (l' & H). eexists. constructor. exact H.
  - intros b IH. destruct (HFE _ (fun a c : list str * mapvalues => fst c = fst a /\ m_as_owned (snd a) (snd c)) (entries b)) as (l' & H).
    { eapply Forall_impl; [|exact IH]. intros [k v] (r & Hr). exists (k, r). auto. }
    destruct b as [m|l]; cbn in H; [|eexists; constructor; exact H]. destruct (hm_extend_total labels_eqb l' []) as (m' & Hm). eexists. eapply AO_block_m; eassumption.
  - intros b IH. destruct (HFE _ (fun a c : key * value => fst c = key_as_owned (fst a) /\ v_as_owned (snd a) (snd c)) (entries b)) as (l' & H).
    { eapply Forall_impl; [|exact IH]. intros [k v] (r & Hr). exists (key_as_owned k, r). auto. }
    destruct b as [m|l]; cbn in H; [|eexists; constructor; exact H]. destruct (hm_extend_total key_eqb l' []) as (m' & Hm). eexists. eapply AO_merged; eassumption.
Qed.
