(** * EqBlocks: equality of block indexes and the order of tables *)
From Coq Require Import Permutation.
From Verif Require Import Base Ast NomFacts Blocks BlockSpec BlockProofs PropBlocks NumConv Equality EqSpec EqProofs.

Lemma Forall2_flip {A B} (P : A -> B -> Prop) l l' : Forall2 P l l' -> Forall2 (fun b a => P a b) l' l.
Proof. induction 1; constructor; assumption. Qed.
Lemma F2_sym {A} (R S : A -> A -> Prop) l l' : Forall2 R l l' -> (forall a b, In a l -> R a b -> S b a) -> Forall2 S l' l.
Proof. induction 1; intros HS; constructor; [apply HS; [left; reflexivity|assumption]|]. apply IHForall2. intros. apply HS; [right|]; assumption. Qed.

(** ** The order of a table does not matter to appending *)
Section Up.
  Context {K V I : Type} (eqb : K -> K -> bool) (id : K -> I) (Heq : forall a b, eqb a b = true <-> id a = id b).
  Fixpoint up (l : K) (f : V -> V) (d : V) (m : list (K * V)) : list (K * V) :=
    match m with
    | [] => [(l, d)]
    | (k, x) :: m' => if eqb k l then (k, f x) :: m' else (k, x) :: up l f d m'
    end.
  Lemma up_perm l f d m m1 : NoDup (map (fun kv => id (fst kv)) m) -> Permutation m m1 -> Permutation (up l f d m) (up l f d m1).
  Proof.
    intros HN HP. induction HP as [|[k x] m m1 HP IH|[k x] [k' x'] m|m1 m2 m3 HP1 IH1 HP2 IH2]; cbn [up].
    - apply Permutation_refl.
    - cbn in HN. inversion HN; subst. destruct (eqb k l); [constructor; assumption|]. constructor. apply IH. assumption.
    - cbn in HN. inversion HN as [|? ? Hn HN']; subst. destruct (eqb k l) eqn:E, (eqb k' l) eqn:E'; try apply perm_swap.
      exfalso. apply Heq in E, E'. apply Hn. left. congruence.
    - etransitivity; [apply IH1, HN|]. apply IH2. eapply Permutation_NoDup; [apply Permutation_map, HP1|exact HN].
  Qed.
  Lemma up_F2 (R : V -> V -> Prop) l f d m m' : (forall x y, In x (map snd m) -> R x y -> R (f x) (f y)) -> R d d ->
    Forall2 (fun a b => fst a = fst b /\ R (snd a) (snd b)) m m' -> Forall2 (fun a b => fst a = fst b /\ R (snd a) (snd b)) (up l f d m) (up l f d m').
  Proof.
    intros Hf Hd HF. induction HF as [|[k x] [k' y] m m' [E H] HF IH]; cbn [up].
    - constructor; [auto|constructor].
    - cbn [fst snd] in *. subst. destruct (eqb k' l); constructor; auto.
      + split; [reflexivity|]. apply Hf; [left; reflexivity|exact H].
      + apply IH. intros. apply Hf; [right|]; assumption.
  Qed.
End Up.
Lemma upsert_up l f d m : upsert l f d m = up label_eqb l f d m.
Proof. induction m as [|[k x] m IH]; cbn; [reflexivity|]. rewrite IH. reflexivity. Qed.
Lemma blocks_append_up m b : blocks_append m b =
  up cow_eqb (b_type b) (fun x => append x (b_labels b) (b_body b)) (append bdefault (b_labels b) (b_body b)) m.
Proof. induction m as [|[k x] m IH]; cbn; [reflexivity|]. rewrite IH. reflexivity. Qed.
Lemma append_reorder b : forall b' ls body P, BlockProofs.Good P b -> Reorder b b' -> Reorder (append b ls body) (append b' ls body).
Proof.
  induction b as [bs|e m IH] using bbody_ind'; intros b' ls body P HG H; inversion H as [|? ? m1 m' HP HF]; subst; [apply Reorder_refl|].
  destruct ls as [|l ls]; [cbn [append]; econstructor; eassumption|]. rewrite !append_labels, !upsert_up.
  inversion HG as [|? ? _ HN HA]; subst.
  apply (RO_labels e _ (up label_eqb l (fun x => append x ls body) (BBody [body]) m1)).
  - apply (up_perm label_eqb keyid label_eqb_keyid); assumption.
  - apply up_F2; [|constructor|exact HF]. intros x y Hx Hxy. apply in_map_iff in Hx as ([k x'] & <- & Hx).
    apply (Permutation_in _ (Permutation_sym HP)) in Hx. rewrite Forall_forall in IH, HA. destruct (HA _ Hx) as (_ & _ & HGx).
    eapply (IH _ Hx); eassumption.
Qed.
Lemma Reorder_sym b : forall b', Reorder b b' -> Reorder b' b.
Proof.
  induction b as [bs|e m IH] using bbody_ind'; intros b' H; inversion H as [|? ? m1 m' HP HF]; subst; [constructor|].
  destruct (Forall2_Permutation _ _ _ m HF (Permutation_sym HP)) as (m2 & HP2 & HF2). apply (RO_labels e m' m2 m); [exact HP2|].
  eapply F2_sym; [exact HF2|]. intros a b Ha [E HR]. rewrite Forall_forall in IH. split; [auto|]. apply (IH a Ha), HR.
Qed.
Lemma ReorderBlocks_sym m m' : ReorderBlocks m m' -> ReorderBlocks m' m.
Proof.
  intros [m0 m1 m2 HP HF]. destruct (Forall2_Permutation _ _ _ m0 HF (Permutation_sym HP)) as (m3 & HP2 & HF2).
  apply (ROB m2 m3 m0); [exact HP2|]. apply Forall2_flip in HF2. clear HP HF HP2. induction HF2 as [|a b l l' [E HR] _ IHF]; constructor; [|exact IHF].
  split; [auto|]. apply Reorder_sym, HR.
Qed.
Lemma ReorderBlocks_trans m m' m'' : ReorderBlocks m m' -> ReorderBlocks m' m'' -> ReorderBlocks m m''.
Proof.
  intros [m0 m1 m2 HP HF] H. inversion H as [? m3 m4 HP' HF']; subst.
  apply Forall2_flip in HF. destruct (Forall2_Permutation _ _ _ m3 HF HP') as (m5 & HP5 & HF5). apply (ROB m0 m5 m''); [etransitivity; eassumption|].
  apply Forall2_flip in HF5. eapply Forall2_trans; [exact HF5|exact HF'|]. intros a b c _ [E1 H1] [E2 H2]. split; [congruence|].
  eapply Reorder_trans; eassumption.
Qed.
Lemma BInv_good h m k b : BInv h m -> In (k, b) m -> exists P, BlockProofs.Good P b.
Proof. intros (_ & HB & _) Hin. destruct (HB _ _ Hin) as [H _]. eexists. apply (Built_good _ _ H). Qed.
Lemma blocks_append_reorder h m m' b : BInv h m -> ReorderBlocks m m' -> ReorderBlocks (blocks_append m b) (blocks_append m' b).
Proof.
  intros HI HR. destruct HR as [m0 m1 m2 HP HF]. rewrite !blocks_append_up.
  apply (ROB _ (up cow_eqb (b_type b) (fun x => append x (b_labels b) (b_body b)) (append bdefault (b_labels b) (b_body b)) m1)).
  - apply (up_perm cow_eqb cow_str cow_eqb_eq); [apply HI|exact HP].
  - apply up_F2; [|apply Reorder_refl|exact HF]. intros x y Hx Hxy. apply in_map_iff in Hx as ([k x'] & <- & Hx).
    apply (Permutation_in _ (Permutation_sym HP)) in Hx. destruct (BInv_good h m0 k x' HI Hx) as [P HG]. eapply append_reorder; eassumption.
Qed.
Lemma BlocksBuilt_det h m : BlocksBuilt h m -> forall m', BlocksBuilt h m' -> ReorderBlocks m m'.
Proof.
  induction 1 as [|h m b m1 HB IH HR]; intros m' H'.
  - inversion H' as [|? ? ? ? ? ? E]; subst; [apply ReorderBlocks_refl|]. destruct h; discriminate.
  - inversion H' as [E|h2 m2 b2 ? HB2 HR2 E]; subst; [destruct h; discriminate|]. apply app_inj_tail in E as [-> ->].
    eapply ReorderBlocks_trans; [apply ReorderBlocks_sym, HR|]. eapply ReorderBlocks_trans; [|exact HR2].
    eapply blocks_append_reorder; [apply BlocksBuilt_inv, HB|]. apply IH, HB2.
Qed.

(** ** Reordered tables are interchangeable in comparisons *)
Lemma keyid_skel a b : keyid a = keyid b <-> skel_label a = skel_label b.
Proof. rewrite <- label_eqb_keyid. apply label_eqb_iff. Qed.
Lemma NoDup_ids {A B C} (f : A -> B) (g : A -> C) l : (forall x y, f x = f y <-> g x = g y) -> NoDup (map f l) -> NoDup (map g l).
Proof.
  intros H. induction l as [|x l IH]; cbn; intros HN; inversion HN as [|? ? Hn HN']; subst; constructor; [|apply IH, HN'].
  intros Hi. apply in_map_iff in Hi as (y & E & Hy). apply Hn. apply in_map_iff. exists y. split; [apply H, E|exact Hy].
Qed.
Lemma Good_distinct P b : BlockProofs.Good P b -> DistinctKeys b.
Proof.
  induction b as [bs|e m IH] using bbody_ind'; intros H; [constructor|]. inversion H as [|? ? _ HN HA]; subst. constructor.
  - eapply NoDup_ids; [|exact HN]. intros x y. apply keyid_skel.
  - rewrite Forall_forall in *. intros kv Hkv. apply (IH _ Hkv). apply (HA _ Hkv).
Qed.
Lemma Built_distinct h m : BlocksBuilt h m -> DistinctBlocks m.
Proof.
  intros H. apply BlocksBuilt_inv in H. split; [apply H|]. apply Forall_forall. intros [k b] Hin.
  destruct (BInv_good h m k b H Hin) as [P HG]. eapply Good_distinct, HG.
Qed.
Lemma Reorder_distinct b : forall b', Reorder b b' -> DistinctKeys b -> DistinctKeys b'.
Proof.
  induction b as [bs|e m IH] using bbody_ind'; intros b' H HD; inversion H as [|? ? m1 m' HP HF]; subst; [constructor|].
  inversion HD as [|? ? HN HA]; subst. constructor.
  - rewrite <- (Forall2_map_fst _ _ HF skel_label). eapply Permutation_NoDup; [apply Permutation_map, HP|exact HN].
  - rewrite Forall_forall in IH, HA. apply (F2_Forall _ _ _ _ HF). intros a c Ha [_ HR]. apply (Permutation_in _ (Permutation_sym HP)) in Ha.
    eapply IH; eauto.
Qed.
Lemma ReorderBlocks_distinct m m' : ReorderBlocks m m' -> DistinctBlocks m -> DistinctBlocks m'.
Proof.
  intros HR [HN HA]. split; [eapply Permutation_NoDup; [apply ReorderBlocks_keys, HR|exact HN]|]. destruct HR as [m0 m1 m2 HP HF].
  rewrite Forall_forall in HA. apply (F2_Forall _ _ _ _ HF). intros a c Ha [_ H]. apply (Permutation_in _ (Permutation_sym HP)) in Ha.
  eapply Reorder_distinct; eauto.
Qed.
Lemma bsame_reorder b : forall b' n, Reorder b b' -> bsame b n -> bsame b' n.
Proof.
  induction b as [bs|e m IH] using bbody_ind'; intros b' n H HS; inversion H as [|? ? m1 m' HP HF]; subst; [exact HS|].
  inversion HS as [|? e' ? n1 n' He HPn HFn]; subst.
  destruct (Forall2_Permutation _ _ _ m1 HFn HP) as (n2 & HP2 & HF2). apply (BS_labels e e' m' n2 n'); [exact He|etransitivity; eassumption|].
  apply Forall2_flip in HF. clear HP2 HFn. rewrite Forall_forall in IH.
  assert (HI : forall x, In x m1 -> In x m) by (intros x Hx; apply (Permutation_in _ (Permutation_sym HP)), Hx).
  clear - HF HF2 IH HI. revert n2 HF2. induction HF as [|a b l l' [E HR] HF IHF]; intros n2 HF2; inversion HF2 as [|? c ? n3 [E' HS] HF3]; subst; constructor.
  - split; [congruence|]. eapply IH; [apply HI; left; reflexivity|exact HR|exact HS].
  - apply IHF; [intros; apply HI; right; assumption|exact HF3].
Qed.
Lemma blocks_same_reorder m m' n : ReorderBlocks m m' -> blocks_same m n -> blocks_same m' n.
Proof.
  intros [m0 m1 m2 HP HF] HS. inversion HS as [? n1 ? HPn HFn]; subst.
  destruct (Forall2_Permutation _ _ _ m1 HFn HP) as (n2 & HP2 & HF2). apply (BSS m2 n2 n); [etransitivity; eassumption|].
  apply Forall2_flip in HF. eapply Forall2_trans; [exact HF|exact HF2|]. intros a b c _ [E HR] [E' HS']. split; [congruence|].
  eapply bsame_reorder; eassumption.
Qed.
Lemma same_body_sym a b : same_body a b -> same_body b a.
Proof. intros [E F]. split; [auto|apply Eqs_sym, F]. Qed.
Lemma bsame_sym b : forall n, bsame b n -> bsame n b.
Proof.
  induction b as [bs|e m IH] using bbody_ind'; intros n H; inversion H as [? l HF|? e' ? n1 n' He HP HF]; subst.
  - constructor. eapply F2_sym; [exact HF|]. intros a b _. apply same_body_sym.
  - assert (HFs : Forall2 (fun a b => skel_label (fst a) = skel_label (fst b) /\ bsame (snd a) (snd b)) n1 m).
    { eapply F2_sym; [exact HF|]. intros a b Ha [E HS]. rewrite Forall_forall in IH. split; [auto|]. apply (IH a Ha), HS. }
    destruct (Forall2_Permutation _ _ _ n' HFs (Permutation_sym HP)) as (m2 & HP2 & HF2).
    apply (BS_labels e' e n' m2 m); [|exact HP2|exact HF2]. eapply F2_sym; [exact He|]. intros a b _. apply same_body_sym.
Qed.
Lemma blocks_same_sym m n : blocks_same m n -> blocks_same n m.
Proof.
  intros [m0 n1 n0 HP HF]. assert (HFs : Forall2 (fun a b => cow_str (fst a) = cow_str (fst b) /\ bsame (snd a) (snd b)) n1 m0).
  { eapply F2_sym; [exact HF|]. intros a b _ [E HS]. split; [auto|apply bsame_sym, HS]. }
  destruct (Forall2_Permutation _ _ _ n0 HFs (Permutation_sym HP)) as (m2 & HP2 & HF2). exact (BSS n0 m2 m0 HP2 HF2).
Qed.

(** ** Reflexivity *)
Lemma forall_iff_in {A} (P Q : A -> Prop) (l : list A) : (forall x, In x l -> (P x <-> Q x)) -> ((forall x, In x l -> P x) <-> (forall x, In x l -> Q x)).
Proof. intros H. split; intros HH x Hx; apply H; auto. Qed.
Lemma hm_refl {K V I} (eqb : K -> K -> bool) (id : K -> I) (Heq : forall a b, eqb a b = true <-> id a = id b) (f : V -> V -> bool) (m : list (K * V)) :
  NoDup (map (fun kv => id (fst kv)) m) -> (hm_eqb eqb f m m = true <-> Forall (fun kv => f (snd kv) (snd kv) = true) m).
Proof.
  intros HN. unfold hm_eqb. rewrite Nat.eqb_refl. cbn [andb]. rewrite forallb_forall, Forall_forall. apply forall_iff_in.
  intros [k x] Hin. cbn [fst snd].
  replace (find (fun kv' => eqb (fst kv') k) m) with (Some (k, x)); [reflexivity|]. symmetry. clear f.
  induction m as [|[k' x'] m IH]; [destruct Hin|]. cbn [find fst]. cbn in HN. inversion HN as [|? ? Hn HN']; subst.
  destruct (eqb k' k) eqn:E.
  - destruct Hin as [Hin|Hin]; [congruence|]. exfalso. apply Hn. apply Heq in E. rewrite E. apply in_map_iff. exists (k, x). auto.
  - destruct Hin as [[= -> ->]|Hin]; [exfalso; rewrite (proj2 (Heq k k) eq_refl) in E; discriminate|]. apply IH; assumption.
Qed.
Lemma bbody_refl b : DistinctKeys b -> (bbody_eqb b b = true <-> Forall (fun pb => body_eqb (snd pb) (snd pb) = true) (flat_iter b)).
Proof.
  induction b as [bs|e m IH] using bbody_ind'; intros HD; cbn [bbody_eqb flat_iter].
  - rewrite list_eqb_refl, Forall_map. cbn [snd]. reflexivity.
  - inversion HD as [|? ? HN HA]; subst. rewrite andb_true_iff, list_eqb_refl, (hm_refl label_eqb skel_label label_eqb_iff) by exact HN.
    rewrite Forall_app, Forall_map. cbn [snd]. rewrite Forall_flat_map. apply and_iff_compat_l. apply Forall_iff_in.
    intros kv Hkv. rewrite Forall_forall in IH, HA. rewrite (IH _ Hkv (HA _ Hkv)), Forall_map. cbn [snd]. reflexivity.
Qed.
Lemma blocks_refl m : DistinctBlocks m -> (blocks_eqb m m = true <-> Forall (fun tpb => body_eqb (snd tpb) (snd tpb) = true) (blocks_flat_iter m)).
Proof.
  intros [HN HA]. unfold blocks_eqb, blocks_flat_iter. rewrite (hm_refl cow_eqb cow_str cow_eqb_eq) by exact HN.
  rewrite Forall_flat_map. apply Forall_iff_in. intros kv Hkv. rewrite Forall_forall in HA. rewrite (bbody_refl _ (HA _ Hkv)), Forall_map. cbn [snd]. reflexivity.
Qed.
