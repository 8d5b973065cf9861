(** * VReachMerge: proofs for the merging part of C114 *)
From Coq Require Import ZArith SpecFloat Lia.
From Verif Require Import Base Ast NomFacts NumConv NumSpec IoSpec Kvp PropKvp Value ValueSpec ValueProofs ReachSpec VReachSpec.
Local Open Scope nat_scope.

Lemma variant_eq_dec (a b : variant) : {a = b} + {a <> b}.
Proof. decide equality. Qed.
Section WithTables.
Context (U : ucd).

(** ** Merging what can be read gives what the specification says *)
Lemma MEntry_objects k l : MEntry U (k, VObject l) -> RKey U k /\ l <> [] /\ Forall (MMap U) l.
Proof.
  inversion 1 as [? ? Hk Hv|? ? Hk Hne HF|]; subst; [|auto]. inversion Hv; subst. split; [exact Hk|]. split; [discriminate|]. constructor; [assumption|constructor].
Qed.
Lemma MEntry_blocks k b : MEntry U (k, VBlock b) -> exists t bs, k = KeyIdent t /\ b = Merged bs /\ Name U t /\ bs <> [] /\ NoDup (map fst bs) /\
  Forall (fun b => fst b <> [] /\ Forall IsStr (fst b) /\ MMap U (snd b)) bs.
Proof. inversion 1 as [? ? Hk Hv| |t bs]; subst; [inversion Hv|]. exists t, bs. auto 10. Qed.
Lemma combined_entry k vs v : Combined vs v -> Forall (fun x => MEntry U (k, x)) vs -> MEntry U (k, v).
Proof.
  intros H HF. destruct H as [v|l1 l2 ls|b1 b2 bs m HT].
  - inversion HF; assumption.
  - remember (l1 :: l2 :: ls) as L eqn:EL. assert (HK : RKey U k) by (rewrite EL in HF; inversion HF as [|? ? H1 _]; subst; apply (MEntry_objects _ _ H1)).
    apply MN_objects; [exact HK| |].
    + rewrite EL in *. inversion HF as [|? ? H1 _]; subst. apply MEntry_objects in H1 as (_ & Hne & _). destruct l1; [congruence|discriminate].
    + clear EL. induction L as [|l L IH]; [constructor|]. cbn in *. inversion HF as [|? ? H1 HF']; subst. apply MEntry_objects in H1 as (_ & _ & H1). apply Forall_app. auto.
  - remember (b1 :: b2 :: bs) as L eqn:EL.
    assert (HA : Forall (fun b => fst b <> [] /\ Forall IsStr (fst b) /\ MMap U (snd b)) (concat (map entries L))).
    { clear EL HT. induction L as [|b L IH]; [constructor|]. cbn in *. inversion HF as [|? ? H1 HF']; subst. apply MEntry_blocks in H1 as (? & ? & _ & -> & _ & _ & _ & H1). apply Forall_app. auto. }
    assert (H0 : exists t, k = KeyIdent t /\ Name U t /\ concat (map entries L) <> []).
    { rewrite EL in *. inversion HF as [|? ? H1 _]; subst. apply MEntry_blocks in H1 as (t & bs1 & -> & -> & Ht & Hne & _). exists t. split; [reflexivity|]. split; [exact Ht|]. destruct bs1; [congruence|discriminate]. }
    destruct H0 as (t & -> & Ht & Hne). apply MN_blocks; [exact Ht| |apply HT|eapply TableOf_Forall; eassumption].
    intros ->. destruct (concat (map entries L)) as [|[ls q] R]; [congruence|].
    destruct (proj2 (TableOf_keys _ labels_eqb_eq _ _ ls HT) (or_introl eq_refl)).
Qed.
Lemma merged_ok :
  (forall v, (RValue U v -> forall v', MergesTo v v' -> MValue U v') /\ (forall k, REntry U (k, v) -> forall v', MergesTo v v' -> MEntry U (k, v'))) /\
  (forall p : mapvalues, forall l, p = Unmerged l -> Forall (REntry U) l -> forall p', MapMergesTo p p' -> MMap U p').
Proof.
  assert (Hval : forall v, (RValue U v -> forall v', MergesTo v v' -> MValue U v') -> (forall b, v <> VBlock b) ->
    (RValue U v -> forall v', MergesTo v v' -> MValue U v') /\ (forall k, REntry U (k, v) -> forall v', MergesTo v v' -> MEntry U (k, v'))).
  { intros v H Hb. split; [exact H|]. intros k HE v' HM. inversion HE as [? ? Hk Hv|]; subst; [apply MN_value; [exact Hk|exact (H Hv v' HM)]|]. elim (Hb _ eq_refl). }
  apply value_map_ind.
  - apply Hval; [|discriminate]. intros _ v' H. inversion H; subst; constructor.
  - intros i. apply Hval; [|discriminate]. intros HR v' H. inversion HR; subst. inversion H; subst. constructor; assumption.
  - intros i. apply Hval; [|discriminate]. intros HR v' H. inversion HR; subst. inversion H; subst. constructor; assumption.
  - intros i. apply Hval; [|discriminate]. intros HR v' H. inversion H; subst. constructor.
  - intros i. apply Hval; [|discriminate]. intros HR v' H. inversion HR; subst. inversion H; subst. constructor; assumption.
  - intros l IH. apply Hval; [|discriminate]. intros HR v' H. inversion HR as [| | | | |? HF|]; subst. inversion H as [|? Hs|? l' HF2| |]; subst; [discriminate|]. constructor.
    clear H HR. induction HF2 as [|v w l l' Hm _ IHl]; [constructor|]. inversion IH as [|? ? [IH1 _] IH']; subst. inversion HF; subst. constructor; [apply IH1; assumption|auto].
  - intros l IH. apply Hval; [|discriminate]. intros HR v' H. inversion HR as [| | | | | |l0 HF]; subst. inversion H as [|? Hs| |? l' HF2|]; subst; [discriminate|].
    inversion HF2 as [|? p' ? l1 Hp HF3]; subst. inversion HF3; subst. apply MV_object. inversion IH as [|? ? IH1 _]; subst. apply (IH1 l0 eq_refl HF p' Hp).
  - intros b IH. split; [inversion 1|]. intros k HE v' H. inversion HE as [? ? ? Hv|t ls l Ht Hne HL HF]; subst; [inversion Hv|].
    inversion H as [|? Hs| | |? l' m HF2 HT]; subst; [discriminate|]. cbn [entries] in *. inversion HF2 as [|? [ls' p'] ? l1 [E Hp] HF3]; subst. inversion HF3; subst. cbn [fst snd] in *. subst ls'.
    inversion IH as [|? ? IH1 _]; subst. cbn [snd] in IH1. pose proof (IH1 l eq_refl HF p' Hp) as HM.
    apply MN_blocks; [exact Ht| |apply HT|].
    + intros ->. destruct (proj2 (TableOf_keys _ labels_eqb_eq _ _ ls HT) (or_introl eq_refl)).
    + eapply TableOf_Forall; [exact HT|]. constructor; [auto|constructor].
  - intros p IH l -> HF p' H. cbn [entries] in IH. inversion H as [|? l' m HF2 HN HK HC]; subst. apply MM; [exact HN|].
    assert (HL : Forall (MEntry U) l').
    { clear - IH HF HF2. induction HF2 as [|[k v] [k' v'] l l' [E Hm] _ IHl]; [constructor|]. cbn [fst snd] in *. subst k'. inversion IH as [|? ? [_ IH1] IH']; subst. inversion HF; subst.
      constructor; [apply IH1; assumption|auto]. }
    apply Forall_forall. intros [k v] Hi. apply (combined_entry k (values_of k l') v); [apply HC, Hi|]. apply Forall_forall. intros x Hx. apply values_of_in in Hx.
    exact (proj1 (Forall_forall _ _) HL _ Hx).
Qed.

(** ** ... and all of it *)
Definition Unm (v : Value.value) : Prop := exists v0, RValue U v0 /\ MergesTo v0 v.
Definition UnmE (kv : key * Value.value) : Prop := exists vs vs', vs <> [] /\ Forall (fun x => REntry U (fst kv, x)) vs /\ Forall2 MergesTo vs vs' /\ Combined vs' (snd kv).
Definition UnmM (p : mapvalues) : Prop := exists l, Forall (REntry U) l /\ MapMergesTo (Unmerged l) p.
Lemma values_of_same k vs : values_of k (map (fun v : Value.value => (k, v)) vs) = vs.
Proof. unfold values_of. induction vs as [|v vs IH]; [reflexivity|]. cbn. rewrite key_eqb_refl. cbn. f_equal. exact IH. Qed.
Lemma keys_of_same (k : key) (vs : list Value.value) x : In x (map fst (map (fun v => (k, v)) vs)) -> x = k.
Proof. rewrite map_map. intros H. apply in_map_iff in H as (? & <- & _). reflexivity. Qed.
Lemma unm_map m : NoDup (map fst m) -> Forall UnmE m -> UnmM (Merged m).
Proof.
  intros HN HF. assert (H : exists l l', Forall (REntry U) l /\ Forall2 (fun a b => fst b = fst a /\ MergesTo (snd a) (snd b)) l l' /\
    (forall k, In k (map fst m) <-> In k (map fst l)) /\ (forall k, In k (map fst l') -> In k (map fst m)) /\ (forall k v, In (k, v) m -> Combined (values_of k l') v)).
  2:{ destruct H as (l & l' & H1 & H2 & H3 & _ & H4). exists l. split; [exact H1|]. apply (MT_unmerged l l' m); assumption. }
  induction m as [|[k v] m IH]; [exists [], []; repeat split; try constructor; try tauto; intros ? ? []|].
  inversion HF as [|? ? (vs & vs' & Hne & HR & HM & HC) HF']; subst. cbn [map fst] in HN. inversion HN as [|? ? Hno HN']; subst. cbn [fst snd] in *.
  destruct (IH HN' HF') as (l & l' & H1 & H2 & H3 & H5 & H4). exists (map (fun x => (k, x)) vs ++ l), (map (fun x => (k, x)) vs' ++ l'). split; [|split; [|split; [|split]]].
  - apply Forall_app. split; [|exact H1]. clear - HR. induction HR; constructor; assumption.
  - apply Forall2_app; [|exact H2]. clear - HM. induction HM; constructor; auto.
  - intros k0. rewrite map_app, in_app_iff, <- H3. cbn. split; [intros [<-|H]|intros [H|H]]; auto.
    + left. destruct vs; [congruence|]. left. reflexivity.
    + left. symmetry. apply keys_of_same in H. exact H.
  - intros k0. rewrite map_app, in_app_iff. cbn. intros [H|H]; [apply keys_of_same in H; auto|auto].
  - intros k0 v0 [[= <- <-]|Hi].
    + rewrite values_of_app, values_of_same. rewrite (proj1 (values_of_none k l')) by auto. rewrite app_nil_r. exact HC.
    + rewrite values_of_app. rewrite (proj1 (values_of_none k0 (map (fun x => (k, x)) vs'))); [apply H4, Hi|]. intros H. apply keys_of_same in H. subst k0. apply Hno. apply (in_map fst) in Hi. exact Hi.
Qed.
Lemma unm_objects k ps : RKey U k -> ps <> [] -> Forall UnmM ps -> UnmE (k, VObject ps).
Proof.
  intros Hk Hne HF. assert (H : exists vs, length vs = length ps /\ Forall (fun x => REntry U (k, x)) vs /\ Forall2 MergesTo vs (map VObject (map (fun p => [p]) ps))).
  { clear Hne. induction HF as [|p ps (l & HR & HM) _ (vs & E & H1 & H2)]; [exists []; repeat split; constructor|].
    exists (VObject [Unmerged l] :: vs). split; [cbn; congruence|]. split; [constructor; [apply RE_value; [exact Hk|constructor; exact HR]|exact H1]|].
    cbn [map]. constructor; [apply MT_object; constructor; [exact HM|constructor]|exact H2]. }
  destruct H as (vs & E & H1 & H2). exists vs, (map VObject (map (fun p => [p]) ps)). cbn [fst snd]. split; [intros ->; destruct ps; [congruence|discriminate]|]. split; [exact H1|]. split; [exact H2|].
  assert (EC : forall l : list mapvalues, concat (map (fun p => [p]) l) = l) by (clear; induction l as [|a l IH]; cbn; congruence).
  destruct ps as [|p [|p' ps]]; [congruence|apply CO_one|]. rewrite <- (EC (p :: p' :: ps)) at 2. apply (CO_objects [p] [p'] (map (fun p => [p]) ps)).
Qed.
Lemma unm_blocks t bs : Name U t -> bs <> [] -> NoDup (map fst bs) -> Forall (fun b => fst b <> [] /\ Forall IsStr (fst b) /\ UnmM (snd b)) bs ->
  UnmE (KeyIdent t, VBlock (Merged bs)).
Proof.
  intros Ht Hne HN HF. assert (H : exists vs, length vs = length bs /\ Forall (fun x => REntry U (KeyIdent t, x)) vs /\ Forall2 MergesTo vs (map VBlock (map (fun b => Merged [b]) bs))).
  { clear Hne HN. induction HF as [|[ls p] bs (Hl & HS & l & HR & HM) _ (vs & E & H1 & H2)]; [exists []; repeat split; constructor|]. cbn [fst snd] in *.
    exists (VBlock (Unmerged [(ls, Unmerged l)]) :: vs). split; [cbn; congruence|]. split; [constructor; [apply RE_block; assumption|exact H1]|].
    cbn [map]. constructor; [|exact H2]. apply (MT_block _ [(ls, p)]); [constructor; [split; [reflexivity|exact HM]|constructor]|]. apply TableOf_self. constructor; [intros []|constructor]. }
  destruct H as (vs & E & H1 & H2). exists vs, (map VBlock (map (fun b => Merged [b]) bs)). cbn [fst snd]. split; [intros ->; destruct bs; [congruence|discriminate]|]. split; [exact H1|]. split; [exact H2|].
  assert (EC : forall l : list (list str * mapvalues), concat (map entries (map (fun b => Merged [b]) l)) = l) by (clear; induction l as [|a l IH]; cbn; congruence).
  destruct bs as [|p [|p' bs]]; [congruence|apply CO_one|]. apply (CO_blocks (Merged [p]) (Merged [p']) (map (fun b => Merged [b]) bs)).
  change (TableOf (concat (map entries (map (fun b => Merged [b]) (p :: p' :: bs)))) (p :: p' :: bs)). rewrite EC. apply TableOf_self, HN.
Qed.
Lemma unm_all : forall p, MMap U p -> UnmM p.
Proof.
  fix IHm 2. intros p [m HN HF]. apply unm_map; [exact HN|]. clear HN.
  assert (IHe : forall kv, MEntry U kv -> UnmE kv).
  { fix IHe 2. assert (IHv : forall v, MValue U v -> Unm v).
    { fix IHv 2. intros v [|b|z Hz|f Hf|s Hs|l Hl|q Hq].
      - exists VNull. split; constructor.
      - exists (VBoolean b). split; [constructor|apply MT_scalar; reflexivity].
      - exists (VInteger z). split; [constructor; exact Hz|apply MT_scalar; reflexivity].
      - exists (VFloat f). split; [constructor; exact Hf|apply MT_scalar; reflexivity].
      - exists (VString s). split; [constructor; exact Hs|apply MT_scalar; reflexivity].
      - assert (H : exists l0, Forall (RValue U) l0 /\ Forall2 MergesTo l0 l).
        { induction Hl as [|w l Hw _ (l0 & H1 & H2)]; [exists []; split; constructor|]. destruct (IHv w Hw) as (v0 & ? & ?). exists (v0 :: l0). split; constructor; assumption. }
        destruct H as (l0 & H1 & H2). exists (VList l0). split; constructor; assumption.
      - destruct (IHm q Hq) as (l & HR & HM). exists (VObject [Unmerged l]). split; [constructor; exact HR|]. apply MT_object. constructor; [exact HM|constructor]. }
    intros kv [k v Hk Hv|k ps Hk Hne Hps|t bs Ht Hne HN Hbs].
    - destruct (IHv v Hv) as (v0 & HR & HM). exists [v0], [v]. cbn [fst snd]. split; [discriminate|]. split; [constructor; [apply RE_value; assumption|constructor]|]. split; [constructor; [exact HM|constructor]|apply CO_one].
    - apply unm_objects; [exact Hk|exact Hne|]. clear Hne. induction Hps; constructor; [apply IHm; assumption|assumption].
    - apply unm_blocks; [exact Ht|exact Hne|exact HN|]. clear Hne HN. induction Hbs as [|b bs (H1 & H2 & H3) _ IHb]; constructor; [|exact IHb]. split; [exact H1|]. split; [exact H2|apply IHm; exact H3]. }
  induction HF; constructor; [apply IHe; assumption|assumption].
Qed.
Theorem merged_values p : (exists l, Forall (REntry U) l /\ MapMergesTo (Unmerged l) p) <-> MMap U p.
Proof.
  split; [|apply unm_all]. intros (l & HF & H). exact (proj2 merged_ok (Unmerged l) l eq_refl HF p H).
Qed.

(** ** The errors *)
Lemma RKey_str k : RKey U k -> IsStr (key_str k).
Proof. intros [t [_ H]|s H]; exact H. Qed.
Lemma entry_key k v : REntry U (k, v) -> RKey U k /\ (variant_name v = NBlock -> exists t, k = KeyIdent t /\ Name U t).
Proof.
  inversion 1 as [? ? Hk Hv|t ls l Ht]; subst; [split; [exact Hk|]|split; [constructor; exact Ht|eauto]]. inversion Hv; discriminate.
Qed.
Lemma clash_error k vs v e : Clash k vs v e -> Forall (fun x => REntry U (k, x)) vs -> REntry U (k, v) -> RError U e.
Proof.
  intros [w vs' new H1 H2|ms vs' new H1|b vs' new H1] HF Hv; apply entry_key in Hv as [Hk Hn].
  - apply RR_illegal; [apply RKey_str, Hk|assumption|assumption].
  - apply RR_object; [apply RKey_str, Hk|assumption|]. intros E. destruct (Hn E) as (t & -> & Ht). exact Ht.
  - apply RR_block; [|assumption]. inversion HF as [|? ? Hb _]; subst. apply entry_key in Hb as [_ Hb]. destruct (Hb eq_refl) as (t & -> & Ht). exact Ht.
Qed.
Lemma conflict_errors :
  (forall v, (RValue U v \/ exists k, REntry U (k, v)) -> forall e, FirstConflict v e -> RError U e) /\
  (forall p : mapvalues, forall l, p = Unmerged l -> Forall (REntry U) l -> forall e, FirstConflictMap p e -> RError U e).
Proof.
  assert (Hleaf : forall v, (forall l, v <> VList l) -> (forall l, v <> VObject l) -> (forall b, v <> VBlock b) -> forall e, ~ FirstConflict v e).
  { intros v H1 H2 H3 e H. destruct H; [eapply H1|eapply H2|eapply H3]; reflexivity. }
  apply value_map_ind.
  1: intros _ e H; eapply Hleaf in H; [elim H|discriminate..].
  1-4: intros x _ e H; eapply Hleaf in H; [elim H|discriminate..].
  - intros l IH HR e H. assert (HF : Forall (RValue U) l).
    { destruct HR as [HR|(k & HE)]; [inversion HR; assumption|]. inversion HE as [? ? _ Hv|]; subst. inversion Hv; assumption. }
    inversion H as [l1 v l2 e' _ Hv E| |]; subst. rewrite Forall_forall in IH, HF.
    apply (IH v); [apply in_app_iff; right; left; reflexivity|left; apply HF, in_app_iff; right; left; reflexivity|exact Hv].
  - intros l IH HR e H. assert (HF : exists l0, l = [Unmerged l0] /\ Forall (REntry U) l0).
    { destruct HR as [HR|(k & HE)]; [inversion HR; eauto|]. inversion HE as [? ? _ Hv|]; subst. inversion Hv; eauto. }
    destruct HF as (l0 & -> & HF). inversion H as [|l1 p l2 e' _ Hp E|]; subst. destruct l1 as [|a [|? ?]]; try discriminate E. injection E as E1 E2. subst.
    inversion IH as [|? ? IH1 _]; subst. exact (IH1 l0 eq_refl HF e Hp).
  - intros b IH HR e H. destruct HR as [HR|(k & HE)]; [inversion HR|]. inversion HE as [? ? _ Hv|t ls l Ht Hne HL HF]; subst; [inversion Hv|].
    inversion H as [| |? l1 ls' p l2 e' E _ Hp]; subst. cbn [entries] in *. destruct l1 as [|a [|? ?]]; try discriminate E. injection E as E1 E2 E3. subst.
    inversion IH as [|? ? IH1 _]; subst. exact (IH1 l eq_refl HF e Hp).
  - intros p IH l -> HF e H. cbn [entries] in IH. rewrite Forall_forall in IH, HF. inversion H as [l1 k v l2 e' _ Hv|l1 k v l2 e' _ _ HC]; subst.
    + apply (IH (k, v)); [apply in_app_iff; right; left; reflexivity|right; exists k; apply HF, in_app_iff; right; left; reflexivity|exact Hv].
    + apply (clash_error k (values_of k l1) v); [exact HC| |apply HF, in_app_iff; right; left; reflexivity].
      apply Forall_forall. intros x Hx. apply values_of_in in Hx. apply HF, in_app_iff. left. exact Hx.
Qed.
(** a value of each kind, and an entry of each kind *)
Definition sample (n : variant) : Value.value :=
  match n with
  | NNull => VNull | NInteger => VInteger 0 | NFloat => VFloat (S754_zero false) | NBoolean => VBoolean true | NString => VString []
  | NList => VList [] | NObject => VObject [Unmerged []] | NBlock => VBlock (Unmerged [([[]], Unmerged [])])
  end.
Lemma sample_variant n : variant_name (sample n) = n.
Proof. destruct n; reflexivity. Qed.
Lemma sample_entry k n : RKey U k -> (n = NBlock -> exists t, k = KeyIdent t /\ Name U t) -> REntry U (k, sample n).
Proof.
  intros Hk Hb. destruct n; cbn [sample]; try (apply RE_value; [exact Hk|]; constructor; try (constructor; fail)).
  - cbn. lia.
  - left. exact I.
  - destruct (Hb eq_refl) as (t & -> & Ht). apply RE_block; [exact Ht|discriminate|constructor; [constructor|constructor]|constructor].
Qed.
Lemma sample_can n : CanMerge (sample n).
Proof.
  assert (HM : CanMergeMap (Unmerged [])) by (apply CM_unmerged; [constructor|intros k; left; cbn; lia]).
  destruct n; cbn [sample]; try (apply CM_scalar; reflexivity).
  - apply CM_null.
  - apply CM_list. constructor.
  - apply CM_object. constructor; [exact HM|constructor].
  - apply CM_block. cbn. constructor; [exact HM|constructor].
Qed.
Lemma two_values k n n' e : Clash k [sample n] (sample n') e -> FirstConflictMap (Unmerged [(k, sample n); (k, sample n')]) e.
Proof.
  intros H. apply (FC_clash [(k, sample n)] k (sample n') []); [|apply sample_can|rewrite values_of_one, key_eqb_refl; exact H].
  apply CM_unmerged; [constructor; [apply sample_can|constructor]|]. intros k'. rewrite values_of_one. left. destruct (key_eqb k k'); cbn; lia.
Qed.
Theorem error_values e : (exists l, Forall (REntry U) l /\ FirstConflictMap (Unmerged l) e) <-> RError U e.
Proof.
  split.
  - intros (l & HF & H). exact (proj2 conflict_errors (Unmerged l) l eq_refl HF e H).
  - assert (Hq : forall k n n' e', RKey U k -> (n = NBlock \/ n' = NBlock -> exists t, k = KeyIdent t /\ Name U t) -> Clash k [sample n] (sample n') e' ->
      exists l, Forall (REntry U) l /\ FirstConflictMap (Unmerged l) e').
    { intros k n n' e' Hk Hb HC. exists [(k, sample n); (k, sample n')]. split; [|apply two_values, HC].
      constructor; [apply sample_entry; auto|constructor; [apply sample_entry; auto|constructor]]. }
    intros [k n Hk H1 H2|k n Hk H1 H2|k n Hk H1].
    + apply (Hq (KeyString k) n NNull); [constructor; exact Hk|intros [?|?]; congruence|].
      rewrite <- (sample_variant n) in *. change k with (key_str (KeyString k)) at 2. rewrite sample_variant. rewrite <- (sample_variant n) at 2.
      apply CL_illegal; rewrite sample_variant in *; assumption.
    + destruct (variant_eq_dec n NBlock) as [E|E].
      * apply (Hq (KeyIdent k) NObject n); [constructor; auto|intros _; eauto|]. change k with (key_str (KeyIdent k)) at 2. rewrite <- (sample_variant n) at 2.
        apply CL_object. rewrite sample_variant. exact H1.
      * apply (Hq (KeyString k) NObject n); [constructor; auto|intros [?|?]; congruence|]. change k with (key_str (KeyString k)) at 2. rewrite <- (sample_variant n) at 2.
        apply CL_object. rewrite sample_variant. exact H1.
    + apply (Hq (KeyIdent k) NBlock n); [constructor; auto|intros _; eauto|]. change k with (key_str (KeyIdent k)) at 2. rewrite <- (sample_variant n) at 2.
      apply CL_block. rewrite sample_variant. exact H1.
Qed.
End WithTables.
