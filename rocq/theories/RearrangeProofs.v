(** * RearrangeProofs: merging and the order of entries *)
From Coq Require Import Permutation.
From Verif Require Import Base Kvp PropKvp Value ValueSpec ValueProofs PropValue RearrangeSpec.

Lemma labels_eqb_refl ls : labels_eqb ls ls = true.
Proof. apply labels_eqb_eq. reflexivity. Qed.
Lemma bodies_of_app ls l1 l2 : bodies_of ls (l1 ++ l2) = bodies_of ls l1 ++ bodies_of ls l2.
Proof. unfold bodies_of. rewrite filter_app, map_app. reflexivity. Qed.
Lemma bodies_of_in ls l p : In p (bodies_of ls l) <-> In (ls, p) l.
Proof.
  unfold bodies_of. rewrite in_map_iff. split.
  - intros ([k v] & <- & H). apply filter_In in H as [H E]. cbn in E. apply labels_eqb_eq in E. subst k. exact H.
  - intros H. exists (ls, p). split; [reflexivity|]. apply filter_In. split; [exact H|]. cbn. apply labels_eqb_refl.
Qed.
Lemma bodies_of_Forall2 (R : mapvalues -> mapvalues -> Prop) l l' ls :
  Forall2 (fun a b => fst b = fst a /\ R (snd a) (snd b)) l l' -> Forall2 R (bodies_of ls l) (bodies_of ls l').
Proof.
  induction 1 as [|[k1 v1] [k2 v2] l l' [E H] _ IH]; cbn in *; [constructor|]. subst k2. unfold bodies_of in *. cbn.
  destruct (labels_eqb k1 ls); cbn; [constructor; assumption|exact IH].
Qed.
Lemma bodies_of_last ls l v : LastIn ls l v <-> exists h, bodies_of ls l = h ++ [v].
Proof.
  induction l as [|[k0 v0] l IH] using rev_ind.
  - split; [intros ([|? ?] & ? & E & _); discriminate|intros ([|? ?] & E); discriminate].
  - rewrite bodies_of_app. unfold bodies_of at 2. cbn [filter fst]. destruct (labels_eqb k0 ls) eqn:E; cbn [map snd].
    + apply labels_eqb_eq in E. subst k0. split.
      * intros H. apply LastOf_snoc in H as [[_ ->]|[Hn _]]; [eauto|congruence].
      * intros (h & H). apply app_inj_tail in H as [_ ->]. apply LastOf_snoc. auto.
    + assert (k0 <> ls) as Hn by (intros ->; rewrite labels_eqb_refl in E; discriminate). rewrite app_nil_r. rewrite <- IH.
      split; [intros H; apply LastOf_snoc in H as [[Hk _]|[_ H]]; [congruence|exact H]|intros H; apply LastOf_snoc; right; split; [congruence|exact H]].
Qed.
Lemma Forall2_last {A B} (R : A -> B -> Prop) l a l' b : Forall2 R (l ++ [a]) (l' ++ [b]) -> R a b.
Proof.
  intros H. apply Forall2_app_inv_l in H as (x & y & H1 & H2 & E). inversion H2 as [|? c ? ? Hc Hn]; subst. inversion Hn; subst.
  apply app_inj_tail in E as [_ ->]. exact Hc.
Qed.
Lemma bodies_LR (R : mapvalues -> mapvalues -> Prop) l l' :
  (forall ls, Forall2 R (bodies_of ls l) (bodies_of ls l')) -> LR R l l'.
Proof.
  intros H ls. specialize (H ls). split.
  - rewrite !(LastIn_exists labels_eqb labels_eqb_eq). split; intros (v & Hv); apply bodies_of_last in Hv as (h & E).
    + rewrite E in H. apply Forall2_app_inv_l in H as (x & y & H1 & H2 & E'). inversion H2 as [|? c ? ? Hc Hn]; subst. inversion Hn; subst.
      exists c. apply bodies_of_last. eauto.
    + rewrite E in H. apply Forall2_app_inv_r in H as (x & y & H1 & H2 & E'). inversion H2 as [|c ? ? ? Hc Hn]; subst. inversion Hn; subst.
      exists c. apply bodies_of_last. eauto.
  - intros v v' Hv Hv'. apply bodies_of_last in Hv as (h & E). apply bodies_of_last in Hv' as (h' & E'). rewrite E, E' in H. eapply Forall2_last, H.
Qed.
Lemma TableOf_LR {K V} (e : K -> K -> bool) (He : Eqb e) (l m : list (K * V)) : TableOf l m -> LR eq l m.
Proof.
  intros H k. pose proof (TableOf_keys e He l m k H) as HK. split; [symmetry; exact HK|]. intros v v' Hv Hv'.
  destruct H as [HD H]. apply H in Hv. apply (LastOf_nodup k m v' HD) in Hv'.
  clear - HD Hv Hv'. induction m as [|[k0 v0] m IH]; [contradiction|]. cbn in HD. inversion HD as [|? ? Hn HD']; subst.
  destruct Hv as [E|Hv], Hv' as [E'|Hv'].
  - congruence.
  - injection E as -> ->. elim Hn. apply (in_map fst) in Hv'. exact Hv'.
  - injection E' as -> ->. elim Hn. apply (in_map fst) in Hv. exact Hv.
  - auto.
Qed.
Lemma LR_through {K V} (e : K -> K -> bool) (He : Eqb e) (R : V -> V -> Prop) (a a' b b' : list (K * V)) :
  LR R a b -> LR eq a a' -> LR eq b b' -> LR R a' b'.
Proof.
  intros H Ha Hb k. destruct (H k) as [K0 R0], (Ha k) as [K1 R1], (Hb k) as [K2 R2]. split; [rewrite <- K1, <- K2; exact K0|].
  intros v v' Hv Hv'. assert (In k (map fst a)) as Ka by (apply K1; apply (LastIn_exists e He); eauto).
  assert (In k (map fst b)) as Kb by (apply K2; apply (LastIn_exists e He); eauto).
  apply (LastIn_exists e He) in Ka as (va & Hva). apply (LastIn_exists e He) in Kb as (vb & Hvb).
  rewrite <- (R1 _ _ Hva Hv), <- (R2 _ _ Hvb Hv'). eauto.
Qed.
Lemma LR_sym {K V} (R : V -> V -> Prop) (a b : list (K * V)) : LR R a b -> LR (fun x y => R y x) b a.
Proof. intros H k. destruct (H k) as [HK HR]. split; [symmetry; exact HK|]. intros v v' Hv Hv'. apply HR; assumption. Qed.
Lemma LR_concat {K V} (e : K -> K -> bool) (He : Eqb e) (R : V -> V -> Prop) (ls ls' : list (list (K * V))) :
  Forall2 (LR R) ls ls' -> LR R (concat ls) (concat ls').
Proof.
  induction 1; cbn; [intros k; split; [reflexivity|intros v v' ([|? ?] & ? & E & _); discriminate]|]. apply (LR_app e He); assumption.
Qed.

(** Blocks put together are the table of the bodies put together. *)
Lemma blocks_combined ms v : Forall (fun m => NoDup (map fst m)) ms ->
  Combined (map (fun m => VBlock (Merged m)) ms) v -> exists m, v = VBlock (Merged m) /\ TableOf (concat ms) m.
Proof.
  intros HD H. destruct ms as [|m0 ms]; [inversion H|]. inversion HD as [|? ? HD0 HD1]; subst. cbn [map] in H. destruct ms as [|m1 ms].
  - cbn in H. inversion H; subst. exists m0. split; [reflexivity|]. cbn. rewrite app_nil_r. apply TableOf_self, HD0.
  - cbn [map] in H. inversion H as [|l1 l2 ls E|b1 b2 bs m HT E]; subst. exists m. split; [reflexivity|].
    replace (concat (map entries (Merged m0 :: Merged m1 :: bs))) with (concat (m0 :: m1 :: ms)) in HT; [exact HT|].
    cbn. do 2 f_equal. match goal with H : map VBlock bs = _ |- _ => rename H into Eb end. clear - Eb.
    revert ms Eb. induction bs as [|b bs IH]; intros [|m ms] Eb; try discriminate; [reflexivity|]. cbn in *. injection Eb as -> Eb. cbn. f_equal. apply IH, Eb.
Qed.
(** The merged blocks, with their bodies merged. *)
Lemma blocks_merged bs vs : Forall2 MergesTo (map (fun x => VBlock (Unmerged x)) bs) vs ->
  exists es ms, vs = map (fun m => VBlock (Merged m)) ms /\ Forall (fun m => NoDup (map fst m)) ms /\
    Forall2 (fun a b => fst b = fst a /\ MapMergesTo (snd a) (snd b)) (concat bs) es /\ LR eq es (concat ms).
Proof.
  revert vs. induction bs as [|b bs IH]; intros vs H; cbn in H; inversion H as [|? v ? vs' Hv Hl]; subst.
  - exists [], []. repeat split; try constructor; try tauto. intros v v' ([|? ?] & ? & E & _); discriminate.
  - destruct (IH _ Hl) as (es & ms & -> & HD & HF & HL). inversion Hv as [|? Hs| | |? l1 m HF1 HT]; subst; [discriminate|].
    exists (l1 ++ es), (m :: ms). split; [reflexivity|]. split; [constructor; [apply HT|exact HD]|]. split; [cbn; apply Forall2_app; assumption|].
    cbn. apply (LR_app labels_eqb labels_eqb_eq); [apply (TableOf_LR labels_eqb labels_eqb_eq), HT|exact HL].
Qed.

Definition GV (v v' : value) : Prop :=
  (CanMerge v <-> CanMerge v') /\ forall r r', MergesTo v r -> MergesTo v' r' -> veq r r'.
Definition GM (p p' : mapvalues) : Prop :=
  (CanMergeMap p <-> CanMergeMap p') /\ forall r r', MapMergesTo p r -> MapMergesTo p' r' -> meq r r'.
Definition PV (v : value) : Prop :=
  (forall v', RVal v v' -> GV v v') /\
  (forall b, v = VBlock b -> Forall (fun kv => forall p', RMap (snd kv) p' -> GM (snd kv) p') (entries b)).
Definition PM (p : mapvalues) : Prop := forall p', RMap p p' -> GM p p'.

Lemma GV_refl v : GV v v.
Proof. split; [reflexivity|]. intros r r'. apply MergesTo_det. Qed.
Lemma GM_refl v : GM v v.
Proof. split; [reflexivity|]. intros r r'. apply MergesTo_det. Qed.
Lemma RVal_variant v v' : RVal v v' -> variant_name v' = variant_name v.
Proof. destruct 1; reflexivity. Qed.
Lemma F2_map {A B} (P : A -> Prop) (Q : B -> Prop) (R : A -> B -> Prop) l l' :
  Forall2 R l l' -> (forall a b, R a b -> P a <-> Q b) -> Forall P l <-> Forall Q l'.
Proof.
  intros H HR. induction H as [|a b l l' Hab _ IH]; [split; constructor|].
  split; intros HF; inversion HF; subst; constructor; try (apply (HR _ _ Hab); assumption); apply IH; assumption.
Qed.
Lemma F2_with {A B} (P : A -> Prop) (R : A -> B -> Prop) l l' : Forall P l -> Forall2 R l l' -> Forall2 (fun a b => P a /\ R a b) l l'.
Proof. intros H H2. induction H2; inversion H; subst; constructor; auto. Qed.
Lemma F2_square {A B C D} (R : A -> B -> Prop) (P : A -> C -> Prop) (Q : B -> D -> Prop) (S : C -> D -> Prop) l l' m m' :
  Forall2 R l l' -> Forall2 P l m -> Forall2 Q l' m' -> (forall a b c d, R a b -> P a c -> Q b d -> S c d) -> Forall2 S m m'.
Proof.
  intros H. revert m m'. induction H as [|a b l l' Hab _ IH]; intros m m' HP HQ HS; inversion HP; subst; inversion HQ; subst; constructor; eauto.
Qed.
Lemma Forall_bodies (P : mapvalues -> Prop) l : Forall (fun kv => P (snd kv)) l <-> forall ls, Forall P (bodies_of ls l).
Proof.
  split.
  - intros H ls. apply Forall_forall. intros p Hp. apply bodies_of_in in Hp. exact (proj1 (Forall_forall _ _) H _ Hp).
  - intros H. apply Forall_forall. intros [ls p] Hp. cbn. specialize (H ls). apply (proj1 (Forall_forall _ _) H), bodies_of_in, Hp.
Qed.
Lemma Forall_values (P : value -> Prop) l : Forall (fun kv => P (snd kv)) l <-> forall k, Forall P (values_of k l).
Proof.
  split.
  - intros H ls. apply Forall_forall. intros p Hp. apply values_of_in in Hp. exact (proj1 (Forall_forall _ _) H _ Hp).
  - intros H. apply Forall_forall. intros [ls p] Hp. cbn. specialize (H ls). apply (proj1 (Forall_forall _ _) H), values_of_in, Hp.
Qed.
(** Bodies rearranged: they can be merged together, and the results are the same. *)
Lemma bodies_good es es' : Forall (fun kv => PM (snd kv)) es -> (forall ls, Forall2 RMap (bodies_of ls es) (bodies_of ls es')) ->
  (Forall (fun kv => CanMergeMap (snd kv)) es <-> Forall (fun kv => CanMergeMap (snd kv)) es') /\
  forall ms ms', Forall2 (fun a b => fst b = fst a /\ MapMergesTo (snd a) (snd b)) es ms ->
    Forall2 (fun a b => fst b = fst a /\ MapMergesTo (snd a) (snd b)) es' ms' -> LR meq ms ms'.
Proof.
  intros HP HR.
  assert (HG : forall ls, Forall2 GM (bodies_of ls es) (bodies_of ls es')).
  { intros ls. eapply Forall2_imp; [|apply F2_with; [apply (proj1 (Forall_bodies PM es) HP ls)|apply HR]]. cbn. intros a b [Ha Hb]. apply Ha, Hb. }
  split.
  - rewrite !Forall_bodies. split; intros H ls; specialize (H ls).
    + apply (F2_map CanMergeMap CanMergeMap GM _ _ (HG ls)); [intros a b Hab; apply Hab|exact H].
    + apply (F2_map CanMergeMap CanMergeMap GM _ _ (HG ls)) in H; [exact H|]. intros a b Hab; apply Hab.
  - intros ms ms' H H'. apply bodies_LR. intros ls. eapply (F2_square GM MapMergesTo MapMergesTo meq); [apply HG|apply bodies_of_Forall2, H|apply bodies_of_Forall2, H'|].
    intros a b c d Hab Hc Hd. apply Hab; assumption.
Qed.
Lemma entries_concat_Forall (P : list str * mapvalues -> Prop) bs :
  Forall (fun v => forall b, v = VBlock b -> Forall P (entries b)) (map (fun x => VBlock (Unmerged x)) bs) -> Forall P (concat bs).
Proof.
  induction bs as [|b bs IH]; intros H; cbn in *; [constructor|]. inversion H as [|? ? Hb Hl]; subst. apply Forall_app. split; [apply (Hb _ eq_refl)|apply IH, Hl].
Qed.
Lemma can_blocks bs : Forall CanMerge (map (fun x => VBlock (Unmerged x)) bs) <-> Forall (fun kv => CanMergeMap (snd kv)) (concat bs).
Proof.
  induction bs as [|b bs IH]; cbn; [split; constructor|]. rewrite Forall_app, <- IH. split.
  - intros H. inversion H as [|? ? Hb Hl]; subst. split; [inversion Hb; [discriminate|assumption]|exact Hl].
  - intros [H1 H2]. constructor; [constructor; exact H1|exact H2].
Qed.
(** The values of one key *)
Lemma vals_good vs vs' : Forall PV vs -> RVals vs vs' ->
  (Forall CanMerge vs /\ SameKind vs <-> Forall CanMerge vs' /\ SameKind vs') /\
  forall rs rs' v v', Forall2 MergesTo vs rs -> Forall2 MergesTo vs' rs' -> Combined rs v -> Combined rs' v' -> veq v v'.
Proof.
  intros HP HR. destruct HR as [vs vs' HR|b bs b' bs' HR].
  - assert (HG : Forall2 GV vs vs').
    { eapply Forall2_imp; [|apply F2_with; [exact HP|exact HR]]. cbn. intros x y [Hx Hy]. apply Hx, Hy. }
    assert (HV : Forall2 (fun a b => variant_name b = variant_name a) vs vs') by (eapply Forall2_imp; [|exact HR]; intros a b; apply RVal_variant).
    assert (HV' : Forall2 (fun a b => variant_name b = variant_name a) vs' vs).
    { clear - HV. induction HV; constructor; auto. }
    split.
    + assert (HF : Forall CanMerge vs <-> Forall CanMerge vs') by (apply (F2_map CanMerge CanMerge GV _ _ HG); intros a b Hab; apply Hab).
      rewrite HF. split; intros [H1 H2]; (split; [exact H1|]); eapply samekind_transfer; eassumption.
    + intros rs rs' v v' H H' HC HC'. apply (Combined_related rs rs'); try assumption; [|eapply merges_blockmerged; eassumption..].
      eapply (F2_square GV MergesTo MergesTo veq); [exact HG|exact H|exact H'|]. intros a b c d Hab Hc Hd. apply Hab; assumption.
  - assert (HE : Forall (fun kv => PM (snd kv)) (concat (b :: bs))).
    { apply entries_concat_Forall. eapply Forall_impl; [|exact HP]. intros a Ha. apply Ha. }
    destruct (bodies_good _ _ HE HR) as [HC HL]. split.
    + rewrite !can_blocks, HC. split; intros [H1 _]; (split; [exact H1|]); right; right; rewrite <- (map_map (@Unmerged _ _) VBlock); eexists; reflexivity.
    + intros rs rs' v v' H H' HCo HCo'. apply blocks_merged in H as (es & ms & -> & HD & HF & HLe). apply blocks_merged in H' as (es' & ms' & -> & HD' & HF' & HLe').
      apply blocks_combined in HCo as (m & -> & HT); [|exact HD]. apply blocks_combined in HCo' as (m' & -> & HT'); [|exact HD'].
      pose proof (LR_through labels_eqb labels_eqb_eq meq _ _ _ _ (HL _ _ HF HF') HLe HLe') as HLL.
      destruct (TableOf_related labels_eqb labels_eqb_eq meq _ _ _ _ HLL HT HT') as (m1 & HPm & HM). eapply VE_block_m; eassumption.
Qed.
Lemma RVals_nil vs' : RVals [] vs' -> vs' = [].
Proof. intros H. inversion H as [vs vs0 H0|]; subst. inversion H0. reflexivity. Qed.
Lemma RVals_nil_r vs : RVals vs [] -> vs = [].
Proof. intros H. inversion H as [vs0 vs1 H0|]; subst. inversion H0. reflexivity. Qed.
Lemma values_of_key k (l : list (key * value)) : In k (map fst l) <-> values_of k l <> [].
Proof.
  pose proof (values_of_none k l) as H. split; [intros Hi E; apply H in E; contradiction|]. intros Hn.
  destruct (in_dec (fun a b => match Bool.bool_dec (key_eqb a b) true with left e => left (proj1 (key_eqb_eq a b) e) | right n => right (fun E => n (proj2 (key_eqb_eq a b) E)) end) k (map fst l)) as [Hi|Hi]; [exact Hi|].
  elim Hn. apply H, Hi.
Qed.

Lemma rearranged : (forall v, PV v) /\ (forall p, PM p).
Proof.
  apply value_map_ind.
  1-5: intros; split; [intros v' H; inversion H; subst; apply GV_refl|intros b0 E; discriminate].
  - intros l IH. split; [|intros b0 E; discriminate]. intros v' H. inversion H as [|? l' HF| |]; subst; [apply GV_refl|].
    assert (HG : Forall2 GV l l').
    { eapply Forall2_imp; [|apply F2_with; [exact IH|exact HF]]. cbn. intros a b [Ha Hb]. apply Ha, Hb. }
    split.
    + assert (HE : Forall CanMerge l <-> Forall CanMerge l') by (apply (F2_map CanMerge CanMerge GV _ _ HG); intros a b Hab; apply Hab).
      split; intros HC; (inversion HC; subst; [discriminate|]); constructor; apply HE; assumption.
    + intros r r' Hr Hr'. inversion Hr as [|? Hs|? ? HR| |]; subst; [discriminate|]. inversion Hr' as [|? Hs|? ? HR'| |]; subst; [discriminate|].
      constructor. eapply (F2_square GV MergesTo MergesTo veq); [exact HG|exact HR|exact HR'|]. intros a b c d Hab Hc Hd. apply Hab; assumption.
  - intros l IH. split; [|intros b0 E; discriminate]. intros v' H. inversion H as [| |? l' HF|]; subst; [apply GV_refl|].
    assert (HG : Forall2 GM l l').
    { eapply Forall2_imp; [|apply F2_with; [exact IH|exact HF]]. cbn. intros a b [Ha Hb]. apply Ha, Hb. }
    split.
    + assert (HE : Forall CanMergeMap l <-> Forall CanMergeMap l') by (apply (F2_map CanMergeMap CanMergeMap GM _ _ HG); intros a b Hab; apply Hab).
      split; intros HC; (inversion HC; subst; [discriminate|]); constructor; apply HE; assumption.
    + intros r r' Hr Hr'. inversion Hr as [|? Hs| |? ? HR|]; subst; [discriminate|]. inversion Hr' as [|? Hs| |? ? HR'|]; subst; [discriminate|].
      constructor. eapply (F2_square GM MapMergesTo MapMergesTo meq); [exact HG|exact HR|exact HR'|]. intros a b c d Hab Hc Hd. apply Hab; assumption.
  - intros b IH. split; [|intros b0 [= <-]; exact IH]. intros v' H. inversion H as [| | |l l' HF]; subst; [apply GV_refl|]. cbn in IH.
    destruct (bodies_good _ _ IH HF) as [HC HL]. split.
    + split; intros HM; (inversion HM; subst; [discriminate|]); constructor; cbn in *; apply HC; assumption.
    + intros r r' Hr Hr'. inversion Hr as [|? Hs| | |? l1 m HR HT]; subst; [discriminate|]. inversion Hr' as [|? Hs| | |? l2 m' HR' HT']; subst; [discriminate|].
      destruct (TableOf_related labels_eqb labels_eqb_eq meq _ _ _ _ (HL _ _ HR HR') HT HT') as (m1 & HPm & HM). eapply VE_block_m; eassumption.
  - intros p IH p' H. inversion H as [|l l' HF]; subst; [apply GM_refl|]. cbn in IH.
    assert (HG : forall k, (Forall CanMerge (values_of k l) /\ SameKind (values_of k l) <-> Forall CanMerge (values_of k l') /\ SameKind (values_of k l')) /\
      forall rs rs' v v', Forall2 MergesTo (values_of k l) rs -> Forall2 MergesTo (values_of k l') rs' -> Combined rs v -> Combined rs' v' -> veq v v').
    { intros k. apply vals_good; [|apply HF]. apply Forall_values, IH. }
    assert (HK : forall k, In k (map fst l) <-> In k (map fst l')).
    { intros k. rewrite !values_of_key. specialize (HF k). split; intros Hn E; apply Hn; [rewrite E in HF; apply RVals_nil_r, HF|rewrite E in HF; apply RVals_nil, HF]. }
    split.
    + split; intros HC; (inversion HC as [|? H1 H2]; subst); constructor; try (apply Forall_values); intros k; specialize (HG k) as [HG _];
        pose proof (proj1 (Forall_values CanMerge _) H1 k) as H1k; specialize (H2 k); apply HG; split; assumption.
    + intros r r' Hr Hr'. inversion Hr as [|? l1 m HR HD HKm HCm]; subst. inversion Hr' as [|? l2 m' HR' HD' HKm' HCm']; subst.
      destruct (tables_related veq m' m HD HD') as (m1 & HPm & HM).
      * intros k. rewrite HKm, HKm'. apply HK.
      * intros k v v' Hv Hv'. destruct (HG k) as [_ HG2]. apply (HG2 (values_of k l1) (values_of k l2)); [apply values_of_Forall2, HR|apply values_of_Forall2, HR'|apply HCm, Hv|apply HCm', Hv'].
      * eapply ME_m; eassumption.
Qed.
