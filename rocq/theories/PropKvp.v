(** * PropKvp: C55-C57, [KeyValuePairs] and [OneOrMany] *)
From Coq Require Import Permutation.
From Verif Require Import Base NomFacts Kvp.

(** ** Specification: driving an iterator *)
(** [Yields next hint i l]: calling [next] repeatedly yields exactly the items [l] and
    then [None]; before each call [size_hint] announces exactly what is left. *)
Inductive Yields {I T} (next : I -> option T * I) (hint : I -> nat * option nat) : I -> list T -> Prop :=
| Y_end i i' : next i = (None, i') -> hint i = (O, Some O) -> Yields next hint i []
| Y_item i i' x l : next i = (Some x, i') -> Yields next hint i' l ->
    hint i = (S (length l), Some (S (length l))) -> Yields next hint i (x :: l).

(** [collect] on a key-value table: the pairs put in one after the other.
    [LastOf k l v]: [v] is the last value written for [k]. *)
Definition LastOf {K V} (k : K) (l : list (K * V)) (v : V) : Prop :=
  exists l1 l2, l = l1 ++ (k, v) :: l2 /\ ~ In k (map fst l2).
(** [Eqb e]: a comparison that decides equality *)
Definition Eqb {K} (e : K -> K -> bool) : Prop := forall a b, e a b = true <-> a = b.

(** ** C55 *)
(** In a vector: the first match, all matches in order. *)
Theorem C55_unmerged : forall (K V Q : Type) (borrow : K -> Q) (q_eqb : Q -> Q -> bool), Eqb q_eqb ->
  forall (l : list (K * V)) q,
  (forall r, get_single borrow q_eqb (Unmerged l) q r <->
     match r with
     | Some v => exists l1 k l2, l = l1 ++ (k, v) :: l2 /\ borrow k = q /\ forall kv, In kv l1 -> borrow (fst kv) <> q
     | None => forall kv, In kv l -> borrow (fst kv) <> q
     end) /\
  (forall r, get borrow q_eqb (Unmerged l) q r <->
     exists vs, (* the matching entries, in order *)
       (forall v, In v vs <-> exists k, In (k, v) l /\ borrow k = q) /\
       vs = map snd (filter (fun kv => q_eqb q (borrow (fst kv))) l) /\
       r = match vs with [] => None | _ => Some (Many vs) end).
Proof.
  intros K V Q borrow e He l q.
  assert (He' : forall a b, e a b = false <-> a <> b).
  { intros a b. destruct (e a b) eqn:E; split; intros H; try congruence.
    - apply He in E. contradiction.
    - intros Hab. apply He in Hab. congruence. }
  split.
  - intros r. cbn. assert (Hfind : forall r, r = option_map snd (find (fun kv => e q (borrow (fst kv))) l) <->
     match r with
     | Some v => exists l1 k l2, l = l1 ++ (k, v) :: l2 /\ borrow k = q /\ forall kv, In kv l1 -> borrow (fst kv) <> q
     | None => forall kv, In kv l -> borrow (fst kv) <> q
     end); [|apply Hfind].
    induction l as [|[k v] l IH]; intros r0.
    + cbn. split; [intros ->; intros ? []|]. destruct r0; [|reflexivity]. intros (l1 & ? & ? & E & _). destruct l1; discriminate.
    + cbn [find fst]. destruct (e q (borrow k)) eqn:E.
      * apply He in E. cbn. split.
        -- intros ->. exists [], k, l. split; [reflexivity|]. split; [auto|intros ? []].
        -- destruct r0 as [v0|].
           ++ intros ([|kv0 l1] & k0 & l2 & El & Hb & Hn); cbn in El; injection El as ? ?; subst; [reflexivity|].
              exfalso. apply (Hn (k, v)); [left; reflexivity|reflexivity].
           ++ intros H. exfalso. apply (H (k, v)); [left; reflexivity|auto].
      * apply He' in E. rewrite IH. destruct r0 as [v0|].
        -- split.
           ++ intros (l1 & k0 & l2 & -> & Hb & Hn). exists ((k, v) :: l1), k0, l2. split; [reflexivity|]. split; [exact Hb|].
              intros kv [<-|Hi]; [cbn; congruence|auto].
           ++ intros ([|kv0 l1] & k0 & l2 & El & Hb & Hn); cbn in El; injection El as ? ?; subst; [congruence|].
              exists l1, k0, l2. split; [reflexivity|]. split; [reflexivity|]. intros kv Hi. apply Hn. right. exact Hi.
        -- split.
           ++ intros H kv [<-|Hi]; [cbn; congruence|auto].
           ++ intros H kv Hi. apply H. right. exact Hi.
  - intros r. cbn. split.
    + intros ->. eexists. split; [|split; [reflexivity|reflexivity]]. intros v. rewrite in_map_iff. split.
      * intros ([k v'] & <- & Hi). apply filter_In in Hi as [Hi E]. apply He in E. exists k. auto.
      * intros (k & Hi & E). exists (k, v). split; [reflexivity|]. apply filter_In. split; [exact Hi|]. apply He. auto.
    + intros (vs & _ & -> & ->). reflexivity.
Qed.
(** In a table: a match if there is one; [get] wraps the same in [One].  If no two keys
    look alike when borrowed, there is one possible answer, the entry of that key. *)
Theorem C55_merged : forall (K V Q : Type) (borrow : K -> Q) (q_eqb : Q -> Q -> bool), Eqb q_eqb ->
  forall (m : list (K * V)) q,
  (forall r, get borrow q_eqb (Merged m) q r <-> exists o, get_single borrow q_eqb (Merged m) q o /\ r = option_map One o) /\
  (exists r, get_single borrow q_eqb (Merged m) q r) /\
  (get_single borrow q_eqb (Merged m) q None <-> ~ exists k v, In (k, v) m /\ borrow k = q) /\
  (NoDup (map (fun kv => borrow (fst kv)) m) -> forall k v, In (k, v) m ->
     forall r, get_single borrow q_eqb (Merged m) (borrow k) r <-> r = Some v).
Proof.
  intros K V Q borrow e He m q.
  assert (He' : forall a b, e a b = false <-> a <> b).
  { intros a b. destruct (e a b) eqn:E; split; intros H; try congruence.
    - apply He in E. contradiction.
    - intros Hab. apply He in Hab. congruence. }
  split; [reflexivity|]. split.
  { cbn. destruct (find (fun kv => e q (borrow (fst kv))) m) as [[k v]|] eqn:E.
    - exists (Some v). apply find_some in E as [Hi E]. exists k. auto.
    - exists None. intros k v Hi. apply (find_none _ _ E (k, v) Hi). }
  split.
  { cbn. split.
    - intros H (k & v & Hi & E). specialize (H k v Hi). apply He' in H. congruence.
    - intros H k v Hi. apply He'. intros E. apply H. exists k, v. auto. }
  intros HD k v Hi r. cbn. destruct r as [v'|]; cbn.
  - split.
    + intros (k' & Hi' & E). apply He in E. f_equal.
      assert (Hk : forall (m : list (K * V)), NoDup (map (fun kv => borrow (fst kv)) m) -> In (k, v) m -> In (k', v') m -> v' = v).
      { clear - E. induction m as [|[k0 v0] m IH]; [intros _ []|]. cbn. intros HD. inversion HD as [|? ? Hn HD']; subst.
        intros [H1|H1] [H2|H2]; [congruence| | |auto].
        - injection H1 as -> ->. exfalso. apply Hn. apply in_map_iff. exists (k', v'). auto.
        - injection H2 as -> ->. exfalso. apply Hn. apply in_map_iff. exists (k, v). cbn. auto. }
      apply (Hk m); auto.
    + intros [= ->]. exists k. split; [exact Hi|]. apply He. reflexivity.
  - split; [|discriminate]. intros H. specialize (H k v Hi). apply He' in H. congruence.
Qed.
(** Indexing never fails to give an answer: it is the value of an entry with the key, the
    first one of a vector, and it panics ([None]) exactly if there is no such entry. *)
Theorem C55_index : forall (K V Q : Type) (borrow : K -> Q) (q_eqb : Q -> Q -> bool), Eqb q_eqb -> forall (p : kvp K V) q,
  (exists r, index borrow q_eqb p q r) /\
  (forall v, index borrow q_eqb p q (Some v) -> exists k, In (k, v) (entries p) /\ borrow k = q) /\
  (index borrow q_eqb p q None <-> forall k v, In (k, v) (entries p) -> borrow k <> q) /\
  (forall l1 k v l2, p = Unmerged (l1 ++ (k, v) :: l2) -> borrow k = q -> (forall kv, In kv l1 -> borrow (fst kv) <> q) ->
     forall r, index borrow q_eqb p q r -> r = Some v).
Proof.
  intros K V Q borrow e He p q. unfold index. destruct p as [m|l].
  - destruct (C55_merged K V Q borrow e He m q) as (_ & H1 & H2 & _). split; [exact H1|]. split; [|split].
    + intros v (k & Hi & Hk). exists k. split; [exact Hi|]. symmetry. apply He, Hk.
    + rewrite H2. split; [intros H k v Hi Hk; apply H; eauto|]. intros H (k & v & Hi & Hk). exact (H k v Hi Hk).
    + discriminate.
  - destruct (C55_unmerged K V Q borrow e He l q) as (H1 & _). split; [|split; [|split]].
    + eexists. reflexivity.
    + intros v H. apply H1 in H as (l1 & k & l2 & -> & Hk & _). exists k. split; [|exact Hk]. apply in_app_iff. right. left. reflexivity.
    + rewrite H1. split; [intros H k v Hi; exact (H (k, v) Hi)|]. intros H [k v] Hi. exact (H k v Hi).
    + intros l1 k v l2 [= ->] Hk Hn r Hr. assert (Hv : get_single borrow e (Unmerged (l1 ++ (k, v) :: l2)) q (Some v)) by (apply H1; eauto 6).
      cbn in Hr, Hv. congruence.
Qed.
Print Assumptions C55_unmerged.
Print Assumptions C55_merged.
Print Assumptions C55_index.
Example C55_nonvacuous : Eqb str_eqb /\
  let l := [(lit "a", 1%nat); (lit "b", 2%nat); (lit "a", 3%nat)] in
  get_single (fun k => k) str_eqb (Unmerged l) (lit "a") (Some 1%nat) /\
  get (fun k => k) str_eqb (Unmerged l) (lit "a") (Some (Many [1%nat; 3%nat])) /\
  get (fun k => k) str_eqb (Merged [(lit "b", 2%nat); (lit "a", 3%nat)]) (lit "a") (Some (One 3%nat)) /\
  index (fun k => k) str_eqb (Unmerged l) (lit "c") None.
Proof.
  split; [exact str_eqb_eq|]. cbn. split; [reflexivity|]. split; [reflexivity|]. split; [|reflexivity].
  exists (Some 3%nat). split; [|reflexivity]. exists (lit "a"). split; [right; left; reflexivity|reflexivity].
Qed.

(** ** C56 *)
Lemma kv_yields {T} (l : list T) : Yields kv_next kv_size_hint (KMerged l) l /\ Yields kv_next kv_size_hint (KUnmerged l) l.
Proof.
  induction l as [|x l [IH1 IH2]]; split.
  - apply (Y_end _ _ _ (KMerged [])); reflexivity.
  - apply (Y_end _ _ _ (KUnmerged [])); reflexivity.
  - apply (Y_item _ _ _ (KMerged l)); [reflexivity|exact IH1|reflexivity].
  - apply (Y_item _ _ _ (KUnmerged l)); [reflexivity|exact IH2|reflexivity].
Qed.
(** All iterators of a collection yield [len()] items, in one common order, with an
    exact [size_hint]; for a vector it is the vector's order. *)
Theorem C56_iterators : forall (K V : Type) (p : kvp K V), exists l : list (K * V),
  length l = kvp_len p /\ (kvp_is_empty p = true <-> l = []) /\
  Yields kv_next kv_size_hint (kvp_iter p) l /\
  Yields kv_next kv_size_hint (kvp_keys p) (map fst l) /\
  Yields kv_next kv_size_hint (kvp_values p) (map snd l) /\
  (forall l0, p = Unmerged l0 -> l = l0) /\
  (forall m, unwrap_merged p = Some m -> l = m /\ p = Merged m) /\ (forall l0, unwrap_unmerged p = Some l0 -> l = l0 /\ p = Unmerged l0).
Proof.
  intros K V [m|l]; [exists m|exists l]; (split; [reflexivity|]);
    (split; [unfold kvp_is_empty; rewrite Nat.eqb_eq; cbn; split; [apply length_zero_iff_nil|intros ->; reflexivity]|]);
    cbn; repeat split; try apply kv_yields; try congruence.
Qed.
(** What an iterator yields is determined. *)
Theorem C56_yields_unique : forall (I T : Type) (next : I -> option T * I) hint i l l',
  Yields next hint i l -> Yields next hint i l' -> l = l'.
Proof.
  intros I T next hint i l l' H. revert l'. induction H as [i i' H _|i i' x l H _ IH _]; intros l' H'; inversion H' as [i0 j E _|i0 j y l0 E Hl _]; subst; try congruence.
  rewrite H in E. injection E as <- <-. f_equal. apply IH. exact Hl.
Qed.
(** [extend]: a vector gets the pairs at the end; in a table each key written has the
    last value written, the others keep theirs, and keys stay distinct. *)
Lemma LastOf_snoc {K V} (k k' : K) (l : list (K * V)) v v' : LastOf k (l ++ [(k', v')]) v <->
  (k = k' /\ v = v') \/ (k <> k' /\ LastOf k l v).
Proof.
  split.
  - intros (l1 & l2 & E & Hn). destruct l2 as [|x l2] using rev_ind.
    + apply app_inj_tail in E as [<- [= <- <-]]. auto.
    + clear IHl2. rewrite app_comm_cons, app_assoc in E. apply app_inj_tail in E as [-> <-].
      rewrite map_app, in_app_iff in Hn. cbn in Hn. right. split; [intros ->; tauto|]. exists l1, l2. split; [reflexivity|tauto].
  - intros [[<- <-]|[Hk (l1 & l2 & -> & Hn)]].
    + exists l, []. split; [reflexivity|intros []].
    + exists l1, (l2 ++ [(k', v')]). rewrite <- app_assoc. split; [reflexivity|]. rewrite map_app, in_app_iff. cbn. intros [H|[H|[]]]; congruence.
Qed.
Lemma LastOf_nodup {K V} (k : K) (l : list (K * V)) v : NoDup (map fst l) -> (LastOf k l v <-> In (k, v) l).
Proof.
  intros HD. split.
  - intros (l1 & l2 & -> & _). apply in_app_iff. right. left. reflexivity.
  - intros Hi. apply in_split in Hi as (l1 & l2 & ->). exists l1, l2. split; [reflexivity|].
    rewrite map_app in HD. cbn in HD. apply NoDup_remove_2 in HD. rewrite in_app_iff in HD. tauto.
Qed.
Lemma hm_put_spec {K V} (e : K -> K -> bool) (He : Eqb e) (k : K) (v : V) m : NoDup (map fst m) ->
  NoDup (map fst (hm_put e k v m)) /\
  forall k' v', In (k', v') (hm_put e k v m) <-> (k' = k /\ v' = v) \/ (k' <> k /\ In (k', v') m).
Proof.
  assert (He' : forall a b, e a b = false <-> a <> b).
  { intros a b. destruct (e a b) eqn:E; split; intros H; try congruence.
    - apply He in E. contradiction.
    - intros Hab. apply He in Hab. congruence. }
  induction m as [|[k0 v0] m IH]; intros HD; cbn.
  - split; [constructor; [intros []|constructor]|]. intros k' v'. split; [intros [[= <- <-]|[]]; auto|]. intros [[-> ->]|[_ []]]. auto.
  - cbn in HD. inversion HD as [|? ? Hn HD']; subst. destruct (IH HD') as [H1 H2]. destruct (e k0 k) eqn:E.
    + apply He in E. subst k0. cbn. split; [constructor; assumption|]. intros k' v'. split.
      * intros [[= <- <-]|Hi]; [auto|]. right. split; [intros ->; apply Hn; apply (in_map fst) in Hi; exact Hi|auto].
      * intros [[-> ->]|[Hk [[= -> ->]|Hi]]]; auto. congruence.
    + apply He' in E. cbn. split.
      * constructor; [|exact H1]. intros Hi. apply in_map_iff in Hi as ([k' v'] & Ek & Hi). cbn in Ek. subst k'. apply H2 in Hi as [[-> _]|[_ Hi]]; [congruence|].
        apply Hn. apply (in_map fst) in Hi. exact Hi.
      * intros k' v'. rewrite H2. split.
        -- intros [[= <- <-]|[[-> ->]|[Hk Hi]]]; auto.
        -- intros [[-> ->]|[Hk [[= -> ->]|Hi]]]; auto.
Qed.
Lemma hm_extend_spec {K V} (e : K -> K -> bool) (He : Eqb e) (m l m' : list (K * V)) : NoDup (map fst m) -> hm_extend e m l m' ->
  NoDup (map fst m') /\ forall k v, In (k, v) m' <-> LastOf k (m ++ l) v.
Proof.
  intros HD H. assert (G : forall h, (forall k v, In (k, v) m <-> LastOf k h v) ->
     NoDup (map fst m') /\ forall k v, In (k, v) m' <-> LastOf k (h ++ l) v).
  { clear - He HD H. induction H as [m m' HP|m k v m1 l m' HP _ IH]; intros h Hh.
    - split; [eapply Permutation_NoDup; [apply Permutation_map; exact HP|exact HD]|]. intros k v. rewrite app_nil_r, <- Hh. split; apply Permutation_in; [symmetry; exact HP|exact HP].
    - destruct (hm_put_spec e He k v m HD) as [HD1 Hin]. replace (h ++ (k, v) :: l) with ((h ++ [(k, v)]) ++ l) by (rewrite <- app_assoc; reflexivity).
      apply IH; [eapply Permutation_NoDup; [apply Permutation_map; exact HP|exact HD1]|].
      intros k' v'. rewrite LastOf_snoc, <- Hh, <- Hin. split; apply Permutation_in; [symmetry; exact HP|exact HP]. }
  apply G. intros k v. symmetry. apply LastOf_nodup. exact HD.
Qed.
Theorem C56_extend : forall (K V : Type) (k_eqb : K -> K -> bool), Eqb k_eqb -> forall (l : list (K * V)),
  (forall l0 r, kvp_extend k_eqb (Unmerged l0) l r <-> r = Unmerged (l0 ++ l)) /\
  (forall m r, NoDup (map fst m) -> kvp_extend k_eqb (Merged m) l r ->
     exists m', r = Merged m' /\ NoDup (map fst m') /\ forall k v, In (k, v) m' <-> LastOf k (m ++ l) v) /\
  (forall m, exists r, kvp_extend k_eqb (Merged m) l r).
Proof.
  intros K V e He l. split; [reflexivity|]. split.
  - intros m r HD (m' & H & ->). exists m'. split; [reflexivity|]. apply (hm_extend_spec e He m l m' HD H).
  - assert (G : forall m, exists m', hm_extend e m l m').
    { induction l as [|[k v] l IH]; intros m; [exists m; constructor; reflexivity|].
      destruct (IH (hm_put e k v m)) as (m' & H). exists m'. econstructor; [reflexivity|exact H]. }
    intros m. destruct (G m) as (m' & H). exists (Merged m'). exists m'. auto.
Qed.
Print Assumptions C56_iterators.
Print Assumptions C56_yields_unique.
Print Assumptions C56_extend.
Example C56_nonvacuous :
  kvp_extend str_eqb (Merged [(lit "a", 1%nat); (lit "b", 2%nat)]) [(lit "a", 3%nat); (lit "c", 4%nat)]
    (Merged [(lit "c", 4%nat); (lit "a", 3%nat); (lit "b", 2%nat)]) /\
  LastOf (lit "a") [(lit "a", 1%nat); (lit "b", 2%nat); (lit "a", 3%nat); (lit "c", 4%nat)] 3%nat.
Proof.
  split.
  - eexists. split; [|reflexivity]. apply (HX_cons _ _ _ _ [(lit "a", 3%nat); (lit "b", 2%nat)]); [reflexivity|].
    apply (HX_cons _ _ _ _ [(lit "a", 3%nat); (lit "b", 2%nat); (lit "c", 4%nat)]); [reflexivity|].
    constructor. cbn. symmetry. apply (Permutation_cons_append [(lit "a", 3%nat); (lit "b", 2%nat)] (lit "c", 4%nat)).
  - exists [(lit "a", 1%nat); (lit "b", 2%nat)], [(lit "c", 4%nat)]. split; [reflexivity|]. cbn. intros [H|[]]. discriminate.
Qed.

(** ** C57 *)
Theorem C57_one_or_many : forall (T : Type) (o : one_or_many T), exists l : list T,
  Yields oom_next oom_size_hint (oom_into_iter o) l /\
  oom_len o = length l /\ (oom_is_empty o = true <-> l = []) /\
  oom_is_many o = negb (oom_is_one o) /\
  (forall x, o = One x -> l = [x] /\ oom_is_one o = true /\ oom_unwrap_one o = Some x /\ oom_unwrap_many o = None) /\
  (forall v, o = Many v -> l = v /\ oom_is_one o = false /\ oom_unwrap_many o = Some v /\ oom_unwrap_one o = None).
Proof.
  intros T [x|l].
  - exists [x]. split; [apply (Y_item _ _ _ (IOne None)); [reflexivity| |reflexivity]; apply (Y_end _ _ _ (IOne None)); reflexivity|].
    cbn. repeat split; try discriminate; try congruence.
  - exists l. split; [|split; [reflexivity|]].
    + cbn. induction l as [|x l IH]; [apply (Y_end _ _ _ (IMany [])); reflexivity|]. apply (Y_item _ _ _ (IMany l)); [reflexivity|exact IH|reflexivity].
    + split; [unfold oom_is_empty; rewrite Nat.eqb_eq; cbn; split; [apply length_zero_iff_nil|intros ->; reflexivity]|].
      cbn. repeat split; try discriminate; congruence.
Qed.
Print Assumptions C57_one_or_many.
Example C57_nonvacuous : Yields oom_next oom_size_hint (oom_into_iter (Many [1%nat; 2%nat])) [1%nat; 2%nat] /\
  ~ Yields oom_next oom_size_hint (oom_into_iter (One 1%nat)) [1%nat; 1%nat].
Proof.
  split.
  - destruct (C57_one_or_many nat (Many [1%nat; 2%nat])) as (l & H & _ & _ & _ & _ & Hm). destruct (Hm _ eq_refl) as [-> _]. exact H.
  - intros H. inversion H as [|? ? ? ? E H2 E2]; subst. cbn in E2. discriminate.
Qed.
