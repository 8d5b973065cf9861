(** * Property theorems: the exact outcome of the methods that walk a value (C100) *)
From Verif Require Import Base Kvp Value ValueSpec ValueProofs PropValue.

(** ** Specification *)
(** The scalars of a value, in order: what [len_scalar] counts. *)
Inductive Scalars : value -> list value -> Prop :=
| SC_scalar v : is_scalar v = true -> Scalars v [v]
| SC_list l ss : Forall2 Scalars l ss -> Scalars (VList l) (concat ss)
| SC_object l ss : Forall2 ScalarsMap l ss -> Scalars (VObject l) (concat ss)
| SC_block b ss : Forall2 ScalarsMap (map snd (entries b)) ss -> Scalars (VBlock b) (concat ss)
with ScalarsMap : mapvalues -> list value -> Prop :=
| SC_map p ss : Forall2 Scalars (map snd (entries p)) ss -> ScalarsMap p (concat ss).

(** Looking through a value for a part that is not merged, in order and stopping at the
    first one, meets a null: everything before it is merged and has no null. *)
Inductive NullBeforeUnmerged : value -> Prop :=
| NU_null : NullBeforeUnmerged VNull
| NU_list l1 v l2 : Forall (fun w => AllMerged w /\ NoNull w) l1 -> NullBeforeUnmerged v ->
    NullBeforeUnmerged (VList (l1 ++ v :: l2))
| NU_object l1 p l2 : Forall (fun q => AllMergedMap q /\ NoNullMap q) l1 -> NullBeforeUnmergedMap p ->
    NullBeforeUnmerged (VObject (l1 ++ p :: l2))
| NU_block l1 k p l2 : Forall (fun kv => AllMergedMap (snd kv) /\ NoNullMap (snd kv)) l1 -> NullBeforeUnmergedMap p ->
    NullBeforeUnmerged (VBlock (Merged (l1 ++ (k, p) :: l2)))
with NullBeforeUnmergedMap : mapvalues -> Prop :=
| NU_map l1 k v l2 : Forall (fun kv => AllMerged (snd kv) /\ NoNull (snd kv)) l1 -> NullBeforeUnmerged v ->
    NullBeforeUnmergedMap (Merged (l1 ++ (k, v) :: l2)).
(** Likewise for a part that is merged. *)
Inductive NullBeforeMerged : value -> Prop :=
| NM_null : NullBeforeMerged VNull
| NM_list l1 v l2 : Forall (fun w => AllUnmerged w /\ NoNull w) l1 -> NullBeforeMerged v ->
    NullBeforeMerged (VList (l1 ++ v :: l2))
| NM_object l1 p l2 : Forall (fun q => AllUnmergedMap q /\ NoNullMap q) l1 -> NullBeforeMergedMap p ->
    NullBeforeMerged (VObject (l1 ++ p :: l2))
| NM_block l1 k p l2 : Forall (fun kv => AllUnmergedMap (snd kv) /\ NoNullMap (snd kv)) l1 -> NullBeforeMergedMap p ->
    NullBeforeMerged (VBlock (Unmerged (l1 ++ (k, p) :: l2)))
with NullBeforeMergedMap : mapvalues -> Prop :=
| NM_map l1 k v l2 : Forall (fun kv => AllUnmerged (snd kv) /\ NoNull (snd kv)) l1 -> NullBeforeMerged v ->
    NullBeforeMergedMap (Unmerged (l1 ++ (k, v) :: l2)).

(** The values a [OneOrMany] holds *)
Definition oom_list {T} (o : one_or_many T) : list T := match o with One x => [x] | Many l => l end.

(** ** Proofs *)
Lemma all_p_true {A} (f : A -> option bool) l : all_p f l = Some true <-> Forall (fun a => f a = Some true) l.
Proof.
  induction l as [|a l IH]; cbn; [split; [constructor|reflexivity]|]. destruct (f a) as [[|]|] eqn:E.
  - rewrite IH. split; [intros; constructor; assumption|intros H; inversion H; assumption].
  - split; [discriminate|intros H; inversion H; congruence].
  - split; [discriminate|intros H; inversion H; congruence].
Qed.
Lemma all_p_none {A} (f : A -> option bool) l : all_p f l = None <->
  exists l1 a l2, l = l1 ++ a :: l2 /\ Forall (fun a => f a = Some true) l1 /\ f a = None.
Proof.
  induction l as [|a l IH]; cbn; [split; [discriminate|intros ([|? ?] & ? & ? & E & _); discriminate]|]. destruct (f a) as [[|]|] eqn:Ea.
  - rewrite IH. split.
    + intros (l1 & b & l2 & -> & H1 & H2). exists (a :: l1), b, l2. repeat split; [constructor; assumption|exact H2].
    + intros ([|c l1] & b & l2 & E & H1 & H2); injection E as -> ->; [congruence|]. exists l1, b, l2. repeat split; [inversion H1; assumption|exact H2].
  - split; [discriminate|]. intros ([|c l1] & b & l2 & E & H1 & H2); injection E as -> ->; [congruence|]. inversion H1; congruence.
  - split; [intros _|reflexivity]. exists [], a, l. repeat split; [constructor|exact Ea].
Qed.
Lemma sum_p_some {A} (f : A -> option nat) l n : sum_p f l = Some n <-> exists ns, Forall2 (fun a m => f a = Some m) l ns /\ n = list_sum ns.
Proof.
  revert n. induction l as [|a l IH]; intros n; cbn.
  - split; [intros [= <-]; exists []; split; [constructor|reflexivity]|intros (ns & H & ->); inversion H; reflexivity].
  - split.
    + destruct (f a) as [m|] eqn:Ea; [|discriminate]. destruct (sum_p f l) as [k|] eqn:E; [|discriminate]. intros [= <-].
      destruct (proj1 (IH k) eq_refl) as (ns & HF & ->). exists (m :: ns). split; [constructor; assumption|reflexivity].
    + intros (ns & HF & ->). inversion HF as [|? m ? ns' Ha HF']; subst. rewrite Ha, (proj2 (IH (list_sum ns'))); [reflexivity|exists ns'; split; [exact HF'|reflexivity]].
Qed.
Lemma all_p_ext_map {K V} (f : V -> option bool) (l : list (K * V)) : all_p (fun kv => f (snd kv)) l = all_p f (map snd l).
Proof. induction l as [|a l IH]; cbn; [reflexivity|]. destruct (f (snd a)) as [[|]|]; [exact IH|reflexivity|reflexivity]. Qed.
Lemma Forall_both {A} (P Q R : A -> Prop) l : Forall (fun a => P a <-> Q a /\ R a) l -> Forall P l <-> Forall Q l /\ Forall R l.
Proof.
  induction 1 as [|a l Ha _ IH]; [split; [split; constructor|constructor]|]. split.
  - intros H. inversion H; subst. apply IH in H3 as []. apply Ha in H2 as []. split; constructor; assumption.
  - intros [H1 H2]. inversion H1; inversion H2; subst. constructor; [apply Ha; split; assumption|apply IH; split; assumption].
Qed.
Lemma merged_true : (forall v, is_merged v = Some true <-> AllMerged v /\ NoNull v) /\
  (forall p, map_is_merged p = Some true <-> AllMergedMap p /\ NoNullMap p).
Proof.
  apply value_map_ind.
  1: split; [discriminate|intros [_ H]; inversion H; discriminate].
  1-4: intros x; split; [intros _; split; constructor; reflexivity|reflexivity].
  - intros l IH. cbn. rewrite all_p_true, (Forall_both _ _ _ _ IH). split; (intros [H1 H2]; split; [|]).
    1-2: constructor; assumption.
    + inversion H1; [discriminate|assumption].
    + inversion H2; [discriminate|assumption].
  - intros l IH. cbn. rewrite all_p_true. fold map_is_merged. rewrite (Forall_both _ _ _ _ IH). split; (intros [H1 H2]; split; [|]).
    1-2: constructor; assumption.
    + inversion H1; [discriminate|assumption].
    + inversion H2; [discriminate|assumption].
  - intros [m|l] IH; cbn; [|split; [discriminate|intros [H _]; inversion H; discriminate]]. rewrite all_p_true. fold map_is_merged.
    cbn in IH. rewrite (Forall_both _ _ _ _ IH). split; (intros [H1 H2]; split; [|]).
    1-2: constructor; assumption.
    + inversion H1; [discriminate|assumption].
    + inversion H2; [discriminate|assumption].
  - intros [m|l] IH; cbn; [|split; [discriminate|intros [H _]; inversion H]]. rewrite all_p_true.
    cbn in IH. rewrite (Forall_both _ _ _ _ IH). split; (intros [H1 H2]; split; [|]).
    1-2: constructor; assumption.
    + inversion H1; assumption.
    + inversion H2; assumption.
Qed.
Lemma unmerged_true : (forall v, is_unmerged v = Some true <-> AllUnmerged v /\ NoNull v) /\
  (forall p, map_is_unmerged p = Some true <-> AllUnmergedMap p /\ NoNullMap p).
Proof.
  apply value_map_ind.
  1: split; [discriminate|intros [_ H]; inversion H; discriminate].
  1-4: intros x; split; [intros _; split; constructor; reflexivity|reflexivity].
  - intros l IH. cbn. rewrite all_p_true, (Forall_both _ _ _ _ IH). split; (intros [H1 H2]; split; [|]).
    1-2: constructor; assumption.
    + inversion H1; [discriminate|assumption].
    + inversion H2; [discriminate|assumption].
  - intros l IH. cbn. rewrite all_p_true. fold map_is_unmerged. rewrite (Forall_both _ _ _ _ IH). split; (intros [H1 H2]; split; [|]).
    1-2: constructor; assumption.
    + inversion H1; [discriminate|assumption].
    + inversion H2; [discriminate|assumption].
  - intros [m|l] IH; cbn; [split; [discriminate|intros [H _]; inversion H; discriminate]|]. rewrite all_p_true. fold map_is_unmerged.
    cbn in IH. rewrite (Forall_both _ _ _ _ IH). split; (intros [H1 H2]; split; [|]).
    1-2: constructor; assumption.
    + inversion H1; [discriminate|assumption].
    + inversion H2; [discriminate|assumption].
  - intros [m|l] IH; cbn; [split; [discriminate|intros [H _]; inversion H]|]. rewrite all_p_true.
    cbn in IH. rewrite (Forall_both _ _ _ _ IH). split; (intros [H1 H2]; split; [|]).
    1-2: constructor; assumption.
    + inversion H1; assumption.
    + inversion H2; assumption.
Qed.
Lemma Forall_iff {A} (P Q : A -> Prop) l : (forall a, P a <-> Q a) -> Forall P l <-> Forall Q l.
Proof. intros H. rewrite !Forall_forall. split; intros X a Ha; apply H, X, Ha. Qed.
Lemma Forall_mid {A} (P : A -> Prop) l1 a l2 : Forall P (l1 ++ a :: l2) -> P a.
Proof. intros H. apply Forall_app in H as [_ H]. inversion H; assumption. Qed.
Lemma merged_none : (forall v, is_merged v = None <-> NullBeforeUnmerged v) /\
  (forall p, map_is_merged p = None <-> NullBeforeUnmergedMap p).
Proof.
  destruct merged_true as [TV TM]. apply value_map_ind.
  1: split; [constructor|reflexivity].
  1-4: intros x; split; [discriminate|intros H; inversion H].
  - intros l IH. cbn. rewrite all_p_none. split.
    + intros (l1 & v & l2 & -> & H1 & H2). constructor; [apply (Forall_iff _ _ _ TV), H1|apply (Forall_mid _ _ _ _ IH), H2].
    + intros H. inversion H as [|l1 v l2 H1 H2| |]; subst. exists l1, v, l2. repeat split; [apply (Forall_iff _ _ _ TV), H1|apply (Forall_mid _ _ _ _ IH), H2].
  - intros l IH. cbn. rewrite all_p_none. fold map_is_merged. split.
    + intros (l1 & v & l2 & -> & H1 & H2). constructor; [apply (Forall_iff _ _ _ TM), H1|apply (Forall_mid _ _ _ _ IH), H2].
    + intros H. inversion H as [| |l1 v l2 H1 H2|]; subst. exists l1, v, l2. repeat split; [apply (Forall_iff _ _ _ TM), H1|apply (Forall_mid _ _ _ _ IH), H2].
  - intros [m|l] IH; cbn; [|split; [discriminate|intros H; inversion H]]. rewrite all_p_none. fold map_is_merged. cbn in IH. split.
    + intros (l1 & [k v] & l2 & -> & H1 & H2). constructor; [apply (Forall_iff _ _ _ (fun kv => TM (snd kv))), H1|apply (Forall_mid _ _ _ _ IH), H2].
    + intros H. inversion H as [| | |l1 k v l2 H1 H2]; subst. exists l1, (k, v), l2. repeat split; [apply (Forall_iff _ _ _ (fun kv => TM (snd kv))), H1|apply (Forall_mid _ _ _ _ IH), H2].
  - intros [m|l] IH; cbn; [|split; [discriminate|intros H; inversion H]]. rewrite all_p_none. cbn in IH. split.
    + intros (l1 & [k v] & l2 & -> & H1 & H2). constructor; [apply (Forall_iff _ _ _ (fun kv => TV (snd kv))), H1|apply (Forall_mid _ _ _ _ IH), H2].
    + intros H. inversion H as [l1 k v l2 H1 H2]; subst. exists l1, (k, v), l2. repeat split; [apply (Forall_iff _ _ _ (fun kv => TV (snd kv))), H1|apply (Forall_mid _ _ _ _ IH), H2].
Qed.
Lemma unmerged_none : (forall v, is_unmerged v = None <-> NullBeforeMerged v) /\
  (forall p, map_is_unmerged p = None <-> NullBeforeMergedMap p).
Proof.
  destruct unmerged_true as [TV TM]. apply value_map_ind.
  1: split; [constructor|reflexivity].
  1-4: intros x; split; [discriminate|intros H; inversion H].
  - intros l IH. cbn. rewrite all_p_none. split.
    + intros (l1 & v & l2 & -> & H1 & H2). constructor; [apply (Forall_iff _ _ _ TV), H1|apply (Forall_mid _ _ _ _ IH), H2].
    + intros H. inversion H as [|l1 v l2 H1 H2| |]; subst. exists l1, v, l2. repeat split; [apply (Forall_iff _ _ _ TV), H1|apply (Forall_mid _ _ _ _ IH), H2].
  - intros l IH. cbn. rewrite all_p_none. fold map_is_unmerged. split.
    + intros (l1 & v & l2 & -> & H1 & H2). constructor; [apply (Forall_iff _ _ _ TM), H1|apply (Forall_mid _ _ _ _ IH), H2].
    + intros H. inversion H as [| |l1 v l2 H1 H2|]; subst. exists l1, v, l2. repeat split; [apply (Forall_iff _ _ _ TM), H1|apply (Forall_mid _ _ _ _ IH), H2].
  - intros [m|l] IH; cbn; [split; [discriminate|intros H; inversion H]|]. rewrite all_p_none. fold map_is_unmerged. cbn in IH. split.
    + intros (l1 & [k v] & l2 & -> & H1 & H2). constructor; [apply (Forall_iff _ _ _ (fun kv => TM (snd kv))), H1|apply (Forall_mid _ _ _ _ IH), H2].
    + intros H. inversion H as [| | |l1 k v l2 H1 H2]; subst. exists l1, (k, v), l2. repeat split; [apply (Forall_iff _ _ _ (fun kv => TM (snd kv))), H1|apply (Forall_mid _ _ _ _ IH), H2].
  - intros [m|l] IH; cbn; [split; [discriminate|intros H; inversion H]|]. rewrite all_p_none. cbn in IH. split.
    + intros (l1 & [k v] & l2 & -> & H1 & H2). constructor; [apply (Forall_iff _ _ _ (fun kv => TV (snd kv))), H1|apply (Forall_mid _ _ _ _ IH), H2].
    + intros H. inversion H as [l1 k v l2 H1 H2]; subst. exists l1, (k, v), l2. repeat split; [apply (Forall_iff _ _ _ (fun kv => TV (snd kv))), H1|apply (Forall_mid _ _ _ _ IH), H2].
Qed.

Lemma concat_length {A} (ss : list (list A)) : length (concat ss) = list_sum (map (@length A) ss).
Proof. induction ss as [|a ss IH]; [reflexivity|]. cbn [concat map]. rewrite app_length, IH. reflexivity. Qed.
Lemma F2_pick {A} (f : A -> option nat) (S : A -> list value -> Prop) l :
  Forall (fun a => forall n, f a = Some n <-> exists ss, S a ss /\ n = length ss) l ->
  forall ns, Forall2 (fun a m => f a = Some m) l ns <-> exists ss, Forall2 S l ss /\ ns = map (@length value) ss.
Proof.
  induction 1 as [|a l Ha _ IH]; intros ns.
  - split; [intros H; inversion H; exists []; split; [constructor|reflexivity]|intros (ss & H & ->); inversion H; constructor].
  - split.
    + intros H. inversion H as [|? m ? ns' H1 H2]; subst. apply Ha in H1 as (s & H1 & ->). apply IH in H2 as (ss & H2 & ->).
      exists (s :: ss). split; [constructor; assumption|reflexivity].
    + intros (ss & H & ->). inversion H as [|? s ? ss' H1 H2]; subst. cbn. constructor; [apply Ha; eauto|apply IH; eauto].
Qed.
Lemma sum_scalars {A} (f : A -> option nat) (S : A -> list value -> Prop) l :
  Forall (fun a => forall n, f a = Some n <-> exists ss, S a ss /\ n = length ss) l ->
  forall n, sum_p f l = Some n <-> exists ss, Forall2 S l ss /\ n = length (concat ss).
Proof.
  intros H n. rewrite sum_p_some. split.
  - intros (ns & HF & ->). apply (F2_pick f S l H) in HF as (ss & HF & ->). exists ss. split; [exact HF|]. symmetry. apply concat_length.
  - intros (ss & HF & ->). exists (map (@length value) ss). split; [apply (F2_pick f S l H); eauto|apply concat_length].
Qed.
Lemma sum_p_map {K V} (f : V -> option nat) (l : list (K * V)) : sum_p (fun kv => f (snd kv)) l = sum_p f (map snd l).
Proof. induction l as [|a l IH]; cbn; [reflexivity|]. rewrite IH. reflexivity. Qed.
Lemma Forall_snd {K V} (P : V -> Prop) (l : list (K * V)) : Forall (fun kv => P (snd kv)) l -> Forall P (map snd l).
Proof. induction 1; constructor; assumption. Qed.
Lemma scalars_exact : (forall v n, len_scalar v = Some n <-> exists ss, Scalars v ss /\ n = length ss) /\
  (forall p n, map_len_scalar p = Some n <-> exists ss, ScalarsMap p ss /\ n = length ss).
Proof.
  apply (value_map_ind (fun v => forall n, len_scalar v = Some n <-> exists ss, Scalars v ss /\ n = length ss)
                       (fun p => forall n, map_len_scalar p = Some n <-> exists ss, ScalarsMap p ss /\ n = length ss)).
  1: intros n; split; [discriminate|intros (ss & H & _); inversion H; discriminate].
  1-4: intros x n; split; [intros [= <-]; eexists; split; [constructor; reflexivity|reflexivity]|intros (ss & H & ->); inversion H; subst; reflexivity].
  - intros l IH n. cbn. rewrite (sum_scalars _ _ _ IH). split.
    + intros (ss & HF & ->). eexists. split; [constructor; exact HF|reflexivity].
    + intros (ss & H & ->). inversion H as [? Hs|? s2 HF| |]; subst; [discriminate|]. eauto.
  - intros l IH n. cbn. fold map_len_scalar. rewrite (sum_scalars _ _ _ IH). split.
    + intros (ss & HF & ->). eexists. split; [constructor; exact HF|reflexivity].
    + intros (ss & H & ->). inversion H as [? Hs| |? s2 HF|]; subst; [discriminate|]. eauto.
  - intros b IH n. cbn. rewrite kvp_len_scalar_entries, sum_p_map. fold map_len_scalar. rewrite (sum_scalars _ _ _ (Forall_snd _ _ IH)). split.
    + intros (ss & HF & ->). eexists. split; [constructor; exact HF|reflexivity].
    + intros (ss & H & ->). inversion H as [? Hs| | |? s2 HF]; subst; [discriminate|]. eauto.
  - intros b IH n. unfold map_len_scalar. rewrite kvp_len_scalar_entries, sum_p_map. rewrite (sum_scalars _ _ _ (Forall_snd _ _ IH)). split.
    + intros (ss & HF & ->). eexists. split; [constructor; exact HF|reflexivity].
    + intros (ss & H & ->). inversion H as [? s2 HF]; subst. eauto.
Qed.
Lemma F2_exists {A B} (R : A -> B -> Prop) l : Forall (fun a => exists b, R a b) l <-> exists bs, Forall2 R l bs.
Proof.
  split; [induction 1 as [|a l [b Hb] _ (bs & IH)]; [exists []; constructor|exists (b :: bs); constructor; assumption]|].
  intros (bs & H). induction H; constructor; eauto.
Qed.
Lemma scalars_nonull : (forall v, (exists ss, Scalars v ss) <-> NoNull v) /\ (forall p, (exists ss, ScalarsMap p ss) <-> NoNullMap p).
Proof.
  assert (HF : forall A (P Q : A -> Prop) l, Forall (fun a => P a <-> Q a) l -> (Forall P l <-> Forall Q l)).
  { induction 1 as [|a l Ha _ IH]; [split; constructor|]. split; intros H; inversion H; subst; constructor; try (apply Ha; assumption); apply IH; assumption. }
  apply value_map_ind.
  1: split; [intros (ss & H); inversion H; discriminate|intros H; inversion H; discriminate].
  1-4: intros x; split; [intros _; constructor; reflexivity|intros _; eexists; constructor; reflexivity].
  - intros l IH. apply HF in IH. rewrite F2_exists in IH. split.
    + intros (ss & H). inversion H; subst; [discriminate|]. apply NN_list. apply IH. eauto.
    + intros H. inversion H; subst; [discriminate|]. apply IH in H1 as (ss & H1). eexists. apply SC_list. exact H1.
  - intros l IH. apply HF in IH. rewrite F2_exists in IH. split.
    + intros (ss & H). inversion H; subst; [discriminate|]. apply NN_object. apply IH. eauto.
    + intros H. inversion H; subst; [discriminate|]. apply IH in H1 as (ss & H1). eexists. apply SC_object. exact H1.
  - intros b IH. apply (Forall_snd (fun p => (exists ss, ScalarsMap p ss) <-> NoNullMap p)), HF in IH. rewrite F2_exists in IH. split.
    + intros (ss & H). inversion H; subst; [discriminate|]. apply NN_block. apply (proj1 (Forall_map snd _ _)), IH. eauto.
    + intros H. inversion H; subst; [discriminate|]. apply (proj2 (Forall_map snd NoNullMap (entries b))), IH in H1 as (ss & H1). eexists. apply SC_block. exact H1.
  - intros b IH. apply (Forall_snd (fun p => (exists ss, Scalars p ss) <-> NoNull p)), HF in IH. rewrite F2_exists in IH. split.
    + intros (ss & H). inversion H; subst. apply NN_map. apply (proj1 (Forall_map snd _ _)), IH. eauto.
    + intros H. inversion H; subst. apply (proj2 (Forall_map snd NoNull (entries b))), IH in H0 as (ss & H1). eexists. apply SC_map. exact H1.
Qed.

(** ** C100 *)
(** [len_scalar] returns the number of scalars, at any depth ... *)
Theorem C100_len_scalar : forall v n, len_scalar v = Some n <-> exists ss, Scalars v ss /\ n = length ss.
Proof. apply scalars_exact. Qed.
Theorem C100_len_scalar_map : forall p n, map_len_scalar p = Some n <-> exists ss, ScalarsMap p ss /\ n = length ss.
Proof. apply scalars_exact. Qed.
(** ... and panics exactly when there is a null anywhere in the value. *)
Theorem C100_len_scalar_panic : (forall v, len_scalar v = None <-> ~ NoNull v) /\ (forall p, map_len_scalar p = None <-> ~ NoNullMap p).
Proof.
  destruct scalars_exact as [EV EM], scalars_nonull as [NV NP]. split; [intros v|intros p].
  - rewrite <- NV. destruct (len_scalar v) as [n|] eqn:E; split; try discriminate; try reflexivity.
    + intros H. elim H. apply EV in E as (ss & H1 & _). eauto.
    + intros _ (ss & H). assert (len_scalar v = Some (length ss)) by (apply EV; eauto). congruence.
  - rewrite <- NP. destruct (map_len_scalar p) as [n|] eqn:E; split; try discriminate; try reflexivity.
    + intros H. elim H. apply EM in E as (ss & H1 & _). eauto.
    + intros _ (ss & H). assert (map_len_scalar p = Some (length ss)) by (apply EM; eauto). congruence.
Qed.
(** [is_merged] panics exactly when, looking in order, a null comes before the first part
    that is not merged; a null behind such a part is not looked at. Otherwise it is true
    exactly when every collection in the value is a table. *)
Theorem C100_is_merged : forall v,
  (is_merged v = None <-> NullBeforeUnmerged v) /\
  (is_merged v = Some true <-> AllMerged v /\ NoNull v) /\
  (is_merged v = Some false <-> ~ NullBeforeUnmerged v /\ ~ AllMerged v).
Proof.
  intros v. pose proof (proj1 merged_none v) as HN. pose proof (proj1 merged_true v) as HT. split; [exact HN|]. split; [exact HT|].
  rewrite <- HN. destruct (is_merged v) as [[|]|] eqn:E.
  - split; [discriminate|]. intros [_ H]. elim H. apply HT. reflexivity.
  - split; [|reflexivity]. intros _. split; [discriminate|]. intros HA.
    assert (forall v, AllMerged v -> is_merged v <> Some false) as X; [|apply (X v HA E)].
    clear. assert ((forall v, AllMerged v -> is_merged v <> Some false) /\ (forall p, AllMergedMap p -> map_is_merged p <> Some false)) as X; [|apply X].
    assert (AP : forall A (P : A -> Prop) (f : A -> option bool) l, Forall (fun a => P a -> f a <> Some false) l -> Forall P l -> all_p f l <> Some false).
    { induction 1 as [|a l Ha _ IH]; cbn; intros HP; [discriminate|]. inversion HP; subst. specialize (Ha H1). destruct (f a) as [[|]|]; [auto|congruence|discriminate]. }
    apply value_map_ind; try (intros; discriminate).
    + intros l IH H. inversion H; subst; [discriminate|]. apply (AP _ AllMerged); assumption.
    + intros l IH H. inversion H; subst; [discriminate|]. apply (AP _ AllMergedMap); assumption.
    + intros b IH H. inversion H; subst; [discriminate|]. apply (AP _ (fun kv => AllMergedMap (snd kv)) (fun kv => map_is_merged (snd kv))); assumption.
    + intros b IH H. inversion H; subst. apply (AP _ (fun kv => AllMerged (snd kv)) (fun kv => is_merged (snd kv))); assumption.
  - split; [discriminate|]. intros [H _]. congruence.
Qed.
Theorem C100_is_unmerged : forall v,
  (is_unmerged v = None <-> NullBeforeMerged v) /\
  (is_unmerged v = Some true <-> AllUnmerged v /\ NoNull v) /\
  (is_unmerged v = Some false <-> ~ NullBeforeMerged v /\ ~ AllUnmerged v).
Proof.
  intros v. pose proof (proj1 unmerged_none v) as HN. pose proof (proj1 unmerged_true v) as HT. split; [exact HN|]. split; [exact HT|].
  rewrite <- HN. destruct (is_unmerged v) as [[|]|] eqn:E.
  - split; [discriminate|]. intros [_ H]. elim H. apply HT. reflexivity.
  - split; [|reflexivity]. intros _. split; [discriminate|]. intros HA.
    assert (forall v, AllUnmerged v -> is_unmerged v <> Some false) as X; [|apply (X v HA E)].
    clear. assert ((forall v, AllUnmerged v -> is_unmerged v <> Some false) /\ (forall p, AllUnmergedMap p -> map_is_unmerged p <> Some false)) as X; [|apply X].
    assert (AP : forall A (P : A -> Prop) (f : A -> option bool) l, Forall (fun a => P a -> f a <> Some false) l -> Forall P l -> all_p f l <> Some false).
    { induction 1 as [|a l Ha _ IH]; cbn; intros HP; [discriminate|]. inversion HP; subst. specialize (Ha H1). destruct (f a) as [[|]|]; [auto|congruence|discriminate]. }
    apply value_map_ind; try (intros; discriminate).
    + intros l IH H. inversion H; subst; [discriminate|]. apply (AP _ AllUnmerged); assumption.
    + intros l IH H. inversion H; subst; [discriminate|]. apply (AP _ AllUnmergedMap); assumption.
    + intros b IH H. inversion H; subst; [discriminate|]. apply (AP _ (fun kv => AllUnmergedMap (snd kv)) (fun kv => map_is_unmerged (snd kv))); assumption.
    + intros b IH H. inversion H; subst. apply (AP _ (fun kv => AllUnmerged (snd kv)) (fun kv => is_unmerged (snd kv))); assumption.
  - split; [discriminate|]. intros [H _]. congruence.
Qed.
(** The same for whole documents ([MapValues], what [value::from_str] returns). *)
Theorem C100_is_merged_map : forall p, (map_is_merged p = None <-> NullBeforeUnmergedMap p) /\ (map_is_merged p = Some true <-> AllMergedMap p /\ NoNullMap p).
Proof. intros p. split; [apply merged_none|apply merged_true]. Qed.
Theorem C100_is_unmerged_map : forall p, (map_is_unmerged p = None <-> NullBeforeMergedMap p) /\ (map_is_unmerged p = Some true <-> AllUnmergedMap p /\ NoNullMap p).
Proof. intros p. split; [apply unmerged_none|apply unmerged_true]. Qed.
(** [is_empty_scalar]: no scalar anywhere, and a null anywhere panics. *)
Theorem C100_is_empty_scalar : forall v b, is_empty_scalar v = Some b <-> NoNull v /\ (b = true <-> Scalars v []).
Proof.
  intros v b. unfold is_empty_scalar. pose proof (proj1 scalars_nonull v) as HN. destruct (len_scalar v) as [n|] eqn:E; cbn.
  - apply C100_len_scalar in E as (ss & HS & ->). assert (HU : Scalars v [] <-> ss = []).
    { split; [|intros ->; exact HS]. intros H0. assert (L : len_scalar v = Some 0%nat) by (apply C100_len_scalar; exists []; auto).
      assert (L2 : len_scalar v = Some (length ss)) by (apply C100_len_scalar; eauto). rewrite L in L2. injection L2 as L2. destruct ss; [reflexivity|discriminate]. }
    split.
    + intros [= <-]. split; [apply HN; eauto|]. rewrite HU, Nat.eqb_eq. destruct ss; cbn; split; try reflexivity; discriminate.
    + intros [_ H]. f_equal. rewrite HU in H. destruct ss, b; cbn; try reflexivity; exfalso; [apply diff_false_true, H; reflexivity|]. discriminate (proj1 H eq_refl).
  - split; [discriminate|]. intros [H _]. apply HN in H as (ss & H). assert (len_scalar v = Some (length ss)) by (apply C100_len_scalar; eauto). congruence.
Qed.
Theorem C100_is_empty_scalar_map : forall p b, map_is_empty_scalar p = Some b <-> NoNullMap p /\ (b = true <-> ScalarsMap p []).
Proof.
  intros v b. unfold map_is_empty_scalar. pose proof (proj2 scalars_nonull v) as HN. destruct (map_len_scalar v) as [n|] eqn:E; cbn.
  - apply C100_len_scalar_map in E as (ss & HS & ->). assert (HU : ScalarsMap v [] <-> ss = []).
    { split; [|intros ->; exact HS]. intros H0. assert (L : map_len_scalar v = Some 0%nat) by (apply C100_len_scalar_map; exists []; auto).
      assert (L2 : map_len_scalar v = Some (length ss)) by (apply C100_len_scalar_map; eauto). rewrite L in L2. injection L2 as L2. destruct ss; [reflexivity|discriminate]. }
    split.
    + intros [= <-]. split; [apply HN; eauto|]. rewrite HU, Nat.eqb_eq. destruct ss; cbn; split; try reflexivity; discriminate.
    + intros [_ H]. f_equal. rewrite HU in H. destruct ss, b; cbn; try reflexivity; exfalso; [apply diff_false_true, H; reflexivity|]. discriminate (proj1 H eq_refl).
  - split; [discriminate|]. intros [H _]. apply HN in H as (ss & H). assert (map_len_scalar v = Some (length ss)) by (apply C100_len_scalar_map; eauto). congruence.
Qed.
Print Assumptions C100_is_empty_scalar_map.
(** What a lookup returns ([OneOrMany]): all of the values found, in order, stopping at the
    first that is not. *)
Theorem C100_one_or_many : forall (o : one_or_many value),
  (oom_is_merged is_merged o = Some true <-> Forall (fun v => AllMerged v /\ NoNull v) (oom_list o)) /\
  (oom_is_merged is_merged o = None <-> exists l1 v l2, oom_list o = l1 ++ v :: l2 /\ Forall (fun v => AllMerged v /\ NoNull v) l1 /\ NullBeforeUnmerged v) /\
  (oom_is_unmerged is_unmerged o = Some true <-> Forall (fun v => AllUnmerged v /\ NoNull v) (oom_list o)) /\
  (oom_is_unmerged is_unmerged o = None <-> exists l1 v l2, oom_list o = l1 ++ v :: l2 /\ Forall (fun v => AllUnmerged v /\ NoNull v) l1 /\ NullBeforeMerged v).
Proof.
  assert (E1 : forall o : one_or_many value, oom_is_merged is_merged o = all_p is_merged (oom_list o)) by (intros [x|l]; cbn; [destruct (is_merged x) as [[|]|]|]; reflexivity).
  assert (E2 : forall o : one_or_many value, oom_is_unmerged is_unmerged o = all_p is_unmerged (oom_list o)) by (intros [x|l]; cbn; [destruct (is_unmerged x) as [[|]|]|]; reflexivity).
  intros o. rewrite E1, E2, !all_p_true, !all_p_none.
  rewrite (Forall_iff _ _ _ (proj1 merged_true)), (Forall_iff _ _ _ (proj1 unmerged_true)). split; [reflexivity|]. split; [|split; [reflexivity|]].
  - split; intros (l1 & v & l2 & E & H1 & H2); exists l1, v, l2; (split; [exact E|]); split; try (apply (Forall_iff _ _ _ (proj1 merged_true)), H1); apply merged_none, H2.
  - split; intros (l1 & v & l2 & E & H1 & H2); exists l1, v, l2; (split; [exact E|]); split; try (apply (Forall_iff _ _ _ (proj1 unmerged_true)), H1); apply unmerged_none, H2.
Qed.
(** ** [len] and [is_empty] look at the outermost value only *)
Definition Elements (v : value) (n : nat) : Prop :=
  match v with
  | VNull => False
  | VInteger _ | VFloat _ | VBoolean _ | VString _ => n = 1%nat
  | VList l => n = length l
  | VObject l => n = length l
  | VBlock (Merged l) => n = length l
  | VBlock (Unmerged l) => n = length l
  end.
Theorem C100_len : forall v n, v_len v = Some n <-> Elements v n.
Proof.
  intros v n. destruct v as [|i|f|b|s|l|l|[l|l]]; cbn; split; try discriminate; try (intros []; fail); try (intros [= <-]; reflexivity); intros ->; reflexivity.
Qed.
Theorem C100_is_empty : forall v b, v_is_empty v = Some b <->
  v <> VNull /\ (b = true <-> v = VList [] \/ v = VObject [] \/ v = VBlock (Merged []) \/ v = VBlock (Unmerged [])).
Proof.
  assert (HB : forall (b c : bool) (P Q : Prop), (c = true <-> P) -> Q -> Some c = Some b <-> Q /\ (b = true <-> P)).
  { intros b c P Q H HQ. split; [intros [= <-]; split; assumption|]. intros [_ H']. f_equal. destruct b, c; intuition congruence. }
  intros v b. unfold v_is_empty. destruct v as [|i|f|c|s|l|l|[l|l]]; cbn -[Nat.eqb].
  { split; [discriminate|intros [H _]; congruence]. }
  1-4: apply HB; [|discriminate]; split; [discriminate|intros [H|[H|[H|H]]]; discriminate].
  all: apply HB; [|discriminate]; rewrite Nat.eqb_eq, length_zero_iff_nil; split; [intros ->; auto|intros [H|[H|[H|H]]]; congruence].
Qed.
Print Assumptions C100_len.
Print Assumptions C100_is_empty.
Print Assumptions C100_len_scalar.
Print Assumptions C100_is_empty_scalar.
Print Assumptions C100_one_or_many.
Print Assumptions C100_len_scalar_map.
Print Assumptions C100_len_scalar_panic.
Print Assumptions C100_is_merged.
Print Assumptions C100_is_unmerged.
Print Assumptions C100_is_merged_map.
Print Assumptions C100_is_unmerged_map.
(** A null after an unmerged part is not met; the same null before it is. *)
Example C100_nonvacuous : is_merged (VList [VInteger 1; VObject [Unmerged []]; VNull]) = Some false /\
  is_merged (VList [VInteger 1; VNull; VObject [Unmerged []]]) = None /\
  is_unmerged (VList [VInteger 1; VObject [Unmerged []]; VNull]) = None /\
  len_scalar (VList [VInteger 1; VObject [Unmerged [(ex_a, VBoolean true)]]]) = Some 2%nat.
Proof. repeat split; reflexivity. Qed.
