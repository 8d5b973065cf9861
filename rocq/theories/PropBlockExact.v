(** * Property theorems: what a block index holds, exactly (C83-C85) *)
From Coq Require Import Permutation.
From Verif Require Import Base Ast NomFacts MoreProofs Blocks BlockSpec BlockProofs PropBlocks EqBlocks BlockExactSpec BlockExact.

(** A node reached from the top by going through [get_labels] *)
Inductive Reached : bbody -> lpath -> bbody -> Prop :=
| Reached_top b : Reached b [] b
| Reached_label b m k x p n : get_labels b = Some m -> In (k, x) m -> Reached x p n -> Reached b (label_id k :: p) n.
Lemma Reached_NodeAt b p n : Reached b p n <-> NodeAt b p n.
Proof.
  split.
  - induction 1 as [|b m k x p n Hm Hin _ IH]; [constructor|]. rewrite label_id_eq. destruct b; [discriminate|]. injection Hm as ->.
    econstructor; eassumption.
  - induction 1 as [|e m k x p n Hin _ IH]; [constructor|]. rewrite <- label_id_eq. econstructor; [reflexivity|exact Hin|exact IH].
Qed.
Lemma Built_exists h : Built h (extend bdefault h).
Proof.
  induction h as [|[ls body] h IH] using rev_ind; [constructor|]. unfold extend in *. rewrite fold_left_app. cbn [fold_left fst snd].
  apply (Built_append h (fold_left (fun b lb => append b (fst lb) (snd lb)) h bdefault) ls body); [exact IH|apply Reorder_refl].
Qed.

(** C83: the contents are a function of the history. *)
Theorem C83_contents_function : forall h, exists c, Contents h c /\ forall c', Contents h c' -> c' = c.
Proof.
  intros h. destruct (Built_contents h _ (Built_exists h)) as (c & HC & _). exists c. split; [exact HC|].
  intros c' HC'. apply (Contents_det h); assumption.
Qed.
Lemma contents_of h b c : Built h b -> Contents h c -> Permutation (kflat b) c /\ forall p, kat p (kflat b) = kat p c.
Proof. intros HB HC. destruct (Built_contents h b HB) as (c' & HC' & H). rewrite (Contents_det _ _ HC _ HC'). exact H. Qed.
Lemma perm_used (c c' : list (lpath * body_t)) : Permutation c c' -> forall p, (Used (map fst c) p <-> Used (map fst c') p) /\ (Branch (map fst c) p <-> Branch (map fst c') p).
Proof.
  intros HP p. assert (HI : forall q, In q (map (@fst lpath body_t) c) <-> In q (map fst c')).
  { intros q. split; apply Permutation_in, Permutation_map; [|symmetry]; exact HP. }
  split; (split; [intros H|intros H]); unfold Used, Branch in *.
  - destruct H as [r H]. exists r. apply HI, H.
  - destruct H as [r H]. exists r. apply HI, H.
  - destruct H as (x & r & H). exists x, r. apply HI, H.
  - destruct H as (x & r & H). exists x, r. apply HI, H.
Qed.
(** Iteration yields exactly the contents. *)
Theorem C83_iteration : forall h b c, Built h b -> Contents h c ->
  Permutation (flat_iter b) (map (fun pb => (map snd (fst pb), snd pb)) c).
Proof. intros h b c HB HC. rewrite kflat_flat. apply Permutation_map, (contents_of h b c HB HC). Qed.
(** The nodes are those on the way to a body; each holds the bodies placed there, in
    the order in which they were appended, and has a table iff something is below. *)
Theorem C83_nodes : forall h b c, Built h b -> Contents h c ->
  (forall p, (exists n, Reached b p n) <-> p = [] \/ Used (map fst c) p) /\
  (forall p n, Reached b p n -> HeldAt p c (get_empty n) /\ ((exists m, get_labels n = Some m) <-> Branch (map fst c) p)).
Proof.
  intros h b c HB HC. destruct (contents_of h b c HB HC) as [HP Hk]. destruct (Built_good _ _ HB) as [HG _]. split.
  - intros p. rewrite <- (proj1 (perm_used _ _ HP p)), <- (NodeAt_used _ b HG p). split; intros [n Hn]; exists n; apply Reached_NodeAt, Hn.
  - intros p n Hn. apply Reached_NodeAt in Hn. split.
    + apply HeldAt_kat. rewrite <- Hk. apply (NodeAt_bodies _ b p n Hn HG).
    + rewrite <- (proj2 (perm_used _ _ HP p)). apply (NodeAt_branch _ b p n Hn HG).
Qed.
(** [get] goes to a node whose labels have the given texts; if no label text is
    written both with and without quotes, to the one there is. *)
Theorem C83_get : forall h b q, Built h b ->
  (forall n, bget b q = Some n -> exists p, map snd p = q /\ Reached b p n) /\
  (Consistent (history_labels h) -> bget b q = None -> forall p n, Reached b p n -> map snd p <> q).
Proof.
  intros h b q HB. split.
  - clear HB. revert b. induction q as [|s q IH]; intros b n H; cbn [bget] in H.
    + injection H as <-. exists []. split; [reflexivity|constructor].
    + destruct b as [bs|e m]; [discriminate|]. destruct (find (fun kv => str_eqb (label_str (fst kv)) s) m) as [[k x]|] eqn:Ef; [|discriminate].
      apply find_some in Ef as [Hin Hs]. apply str_eqb_eq in Hs. cbn [fst] in Hs. destruct (IH x n H) as (p & <- & Hp).
      exists (label_id k :: p). split; [cbn; rewrite label_id_eq, keyid_str, Hs; reflexivity|]. econstructor; [reflexivity|exact Hin|exact Hp].
  - intros HC Hq p n Hn. destruct (Built_good _ _ HB) as [HG _]. apply (Good_unamb _ HC) in HG. clear HB HC h.
    apply Reached_NodeAt in Hn. revert q Hq HG. induction Hn as [b|e m k x p n Hin _ IH]; intros q Hq HG E; subst q; cbn [map bget] in Hq; [discriminate|].
    inversion HG as [|e' m' HD HF]; subst. rewrite keyid_str in Hq.
    pose proof (proj2 (vfind_in (label_str k) m x HD) (ex_intro _ k (conj Hin eq_refl))) as Hv. unfold vfind, strmatch in Hv.
    destruct (find (fun kv => str_eqb (label_str (fst kv)) (label_str k)) m) as [[k' x']|]; [|discriminate]. injection Hv as ->.
    rewrite Forall_forall in HF. exact (IH _ Hq (HF _ Hin) eq_refl).
Qed.
(** The index of a whole document is one such tree per block type. *)
Theorem C83_per_type : forall h m, BlocksBuilt h m ->
  NoDup (map (fun kv => cow_str (fst kv)) m) /\
  (forall t, (exists k b, In (k, b) m /\ cow_str k = t) <-> exists blk, In blk h /\ cow_str (b_type blk) = t) /\
  (forall k b, In (k, b) m -> Built (of_type (cow_str k) h) b).
Proof.
  intros h m HB. destruct (BlocksBuilt_inv _ _ HB) as (HD & HT & HE). split; [exact HD|]. split.
  - intros t. split.
    + intros (k & b & Hin & <-). destruct (HT _ _ Hin) as [_ Hne]. destruct (of_type (cow_str k) h) as [|x l] eqn:E; [congruence|].
      assert (Hx : In x (of_type (cow_str k) h)) by (rewrite E; left; reflexivity). unfold of_type in Hx.
      apply in_map_iff in Hx as (blk & _ & Hb). apply filter_In in Hb as [Hb Ht]. exists blk. split; [exact Hb|apply str_eqb_eq, Ht].
    + intros (blk & Hb & <-). destruct (HE _ Hb) as (k & b & H & E). exists k, b. auto.
  - intros k b Hin. apply (HT _ _ Hin).
Qed.
Print Assumptions C83_contents_function.
Print Assumptions C83_iteration.
Print Assumptions C83_nodes.
Print Assumptions C83_get.
Print Assumptions C83_per_type.
(** The known defect in these terms: after a block [x], the block [y z] is cut to [y]. *)
Example C83_nonvacuous : Contents [([X], bd1); ([Y; Z'], bd2); ([Y; X], bd1)]
  [([(true, lit "x")], bd1); ([(true, lit "y")], bd2); ([(true, lit "y"); (true, lit "x")], bd1)].
Proof.
  apply (Contents_snoc [([X], bd1); ([Y; Z'], bd2)] [([(true, lit "x")], bd1); ([(true, lit "y")], bd2)] [Y; X] bd1).
  apply (Contents_snoc [([X], bd1)] [([(true, lit "x")], bd1)] [Y; Z'] bd2).
  apply (Contents_snoc [] [] [X] bd1); [constructor|].
  - apply Placed_whole. intros q x r _ (y & r' & []).
  - apply (Placed_cut _ [] (true, lit "y") [(true, lit "z")]).
    + exists (true, lit "x"), []. left. reflexivity.
    + intros [r [H|[]]]. cbn in H. discriminate H.
  - apply Placed_whole. intros q x r E (y & r' & H). destruct q as [|a [|a' q]].
    + cbn in E. injection E as <- _. exists []. right. left. reflexivity.
    + cbn in E. injection E as <- _ _. destruct H as [H|[H|[]]]; cbn in H; discriminate H.
    + cbn in E. injection E as _ _ E. destruct q; discriminate E.
Qed.

(** ** C84: label_lens_uniform *)
(** No path in use begins another one. *)
Definition PrefixFree (P : list lpath) : Prop := forall p x r, In p P -> ~ In (p ++ x :: r) P.
Lemma uniform_iff (P : label -> Prop) b : Good P b -> (label_lens_uniform b = Some 0%nat <-> PrefixFree (map fst (kflat b))).
Proof.
  induction b as [bs|e m IH] using bbody_ind'; intros HG.
  - split; [|reflexivity]. intros _ p x r Hp H. cbn [kflat] in H. rewrite map_map in H. apply in_map_iff in H as (b & E & _). cbn in E.
    symmetry in E. apply app_eq_nil in E as [_ E]. discriminate.
  - inversion HG as [|e' m' H1 H2 H3]; subst.
    assert (Hall : PrefixFree (map fst (kflat (BLabels e m))) <-> e = [] /\ forall kv, In kv m -> label_lens_uniform (snd kv) = Some 0%nat).
    { rewrite Forall_forall in IH, H3. split.
      - intros HF. split.
        + destruct e as [|b e]; [reflexivity|exfalso]. destruct (root_branch P _ _ HG) as (x & r & Hr).
          apply (HF [] x r); [left; reflexivity|exact Hr].
        + intros [k x] Hin. apply (IH _ Hin); [apply (H3 _ Hin)|]. cbn [snd]. intros p y r Hp H.
          apply (child_paths P e m k x HG Hin) in Hp, H. exact (HF _ y r Hp H).
      - intros [-> Hc] p y r Hp H. apply paths_labels in Hp as [[_ E]|(k & x & p' & Hin & -> & Hp)]; [congruence|].
        cbn [app] in H. apply (child_paths P [] m k x HG Hin) in H.
        exact (proj1 (IH _ Hin (proj2 (proj2 (H3 _ Hin)))) (Hc _ Hin) p' y r Hp H). }
    rewrite Hall. cbn [label_lens_uniform]. destruct m as [|[k x] m]; [congruence|]. destruct e as [|b e].
    + split.
      * intros H. split; [reflexivity|]. destruct (label_lens_uniform x) as [i|] eqn:Ei; [|discriminate].
        destruct (forallb _ m) eqn:Ef; [|discriminate]. injection H as ->. rewrite forallb_forall in Ef.
        intros kv [<-|Hkv]; [exact Ei|]. specialize (Ef _ Hkv). destruct (label_lens_uniform (snd kv)) as [j|]; [|discriminate].
        cbn in Ef. apply Nat.eqb_eq in Ef. congruence.
      * intros [_ Hc]. rewrite (Hc (k, x) (or_introl eq_refl) : label_lens_uniform x = Some 0%nat).
        replace (forallb _ m) with true; [reflexivity|]. symmetry. apply forallb_forall. intros kv Hkv. rewrite (Hc kv (or_intror Hkv)). reflexivity.
    + split; [discriminate|]. intros [E _]. discriminate E.
Qed.
(** [label_lens_uniform] is [Some(0)] if no block's place is on the way to another's, and [None] otherwise. *)
Theorem C84_uniform : forall h b c, Built h b -> Contents h c ->
  (PrefixFree (map fst c) -> label_lens_uniform b = Some 0%nat /\ is_label_lens_uniform b = true) /\
  (~ PrefixFree (map fst c) -> label_lens_uniform b = None /\ is_label_lens_uniform b = false).
Proof.
  intros h b c HB HC. destruct (contents_of h b c HB HC) as [HP _]. destruct (Built_good _ _ HB) as [HG _].
  assert (Hpf : PrefixFree (map fst c) <-> PrefixFree (map fst (kflat b))).
  { assert (HI : forall q, In q (map (@fst lpath body_t) (kflat b)) <-> In q (map fst c)).
    { intros q. split; apply Permutation_in, Permutation_map; [|symmetry]; exact HP. }
    unfold PrefixFree. split; intros H p x r Hp Hq; apply (H p x r); apply HI; assumption. }
  rewrite Hpf, <- (uniform_iff _ b HG). unfold is_label_lens_uniform. split.
  - intros ->. auto.
  - intros Hn. destruct (label_lens_uniform b) as [n|] eqn:E; [|auto]. exfalso. apply Hn. f_equal. apply (uniform_zero b n E).
Qed.
Print Assumptions C84_uniform.
(** [x] and [y z] are uniform for it although the lengths differ; [] and [x] are not. *)
Example C84_nonvacuous :
  PrefixFree [[(true, lit "x")]; [(true, lit "y"); (true, lit "z")]] /\ ~ PrefixFree [[]; [(true, lit "x")]] /\
  label_lens_uniform (extend bdefault [([Y; Z'], bd2); ([X], bd1)]) = Some 0%nat.
Proof.
  split; [|split; [|reflexivity]].
  - intros p x r [<-|[<-|[]]] [E|[E|[]]]; cbn in E; discriminate E.
  - intros H. apply (H [] (true, lit "x") []); [left|right; left]; reflexivity.
Qed.

(** ** C85: Blocks::new *)
(** The last run of consecutive blocks of type [t] in a list *)
Definition LastRun (t : str) (l run : list block_t) : Prop :=
  exists a z, l = a ++ run ++ z /\ run <> [] /\
    (forall b, In b run -> cow_str (b_type b) = t) /\
    (forall b, In b z -> cow_str (b_type b) <> t) /\
    (forall a' b, a = a' ++ [b] -> cow_str (b_type b) <> t).
Lemma hm_insert_in {V} (m : list (cow * V)) k v k' v' : NoDup (map (fun kv => cow_str (fst kv)) m) ->
  (In (k', v') (hm_insert m k v) -> (cow_str k' = cow_str k /\ v' = v) \/ (cow_str k' <> cow_str k /\ In (k', v') m)).
Proof.
  induction m as [|[a x] m IH]; intros HD; cbn [hm_insert map fst] in *.
  - intros [E|[]]. injection E as <- <-. auto.
  - inversion HD as [|? ? Hn HD']; subst. destruct (cow_eqb a k) eqn:E.
    + apply cow_eqb_eq in E. intros [H|H]; [injection H as <- <-; auto|]. right. split; [|right; exact H].
      intros E'. apply Hn. rewrite E, <- E'. apply (in_map (fun kv : cow * V => cow_str (fst kv)) _ _ H).
    + intros [H|H].
      * injection H as <- <-. right. split; [|left; reflexivity]. intros E'. apply cow_eqb_eq in E'. congruence.
      * destruct (IH HD' H) as [|[H0 H1]]; [auto|]. right. split; [exact H0|right; exact H1].
Qed.
Lemma hm_insert_keys {V} (m : list (cow * V)) k v t : In t (map (fun kv => cow_str (fst kv)) (hm_insert m k v)) <->
  t = cow_str k \/ In t (map (fun kv => cow_str (fst kv)) m).
Proof.
  induction m as [|[a x] m IH]; cbn [hm_insert map fst In]; [intuition|]. destruct (cow_eqb a k) eqn:E; cbn [map fst In].
  - apply cow_eqb_eq in E. rewrite E. intuition.
  - rewrite IH. intuition.
Qed.
Lemma hm_insert_nodup {V} (m : list (cow * V)) k v : NoDup (map (fun kv => cow_str (fst kv)) m) -> NoDup (map (fun kv => cow_str (fst kv)) (hm_insert m k v)).
Proof.
  induction m as [|[a x] m IH]; intros HD; cbn [hm_insert map fst] in *; [constructor; [intros []|constructor]|].
  inversion HD as [|? ? Hn HD']; subst. destruct (cow_eqb a k) eqn:E; cbn [map fst]; [constructor; assumption|]. constructor; [|apply IH, HD'].
  intros Hi. apply hm_insert_keys in Hi as [Hi|Hi]; [|exact (Hn Hi)]. apply cow_eqb_eq in Hi. congruence.
Qed.
Definition runs_of (run : list block_t) := map (fun c => (b_labels c, b_body c)) run.
Lemma new_spec n : forall a l m, (length l <= n)%nat ->
  (forall a' b c l', a = a' ++ [b] -> l = c :: l' -> cow_str (b_type b) <> cow_str (b_type c)) ->
  NoDup (map (fun kv => cow_str (fst kv)) m) ->
  (forall k b, In (k, b) m -> exists run, LastRun (cow_str k) a run /\ b = extend bdefault (runs_of run)) ->
  (forall t, In t (map (fun kv => cow_str (fst kv)) m) <-> exists blk, In blk a /\ cow_str (b_type blk) = t) ->
  let m' := fold_left (fun m kg => hm_insert m (fst kg) (extend bdefault (snd kg))) (group_by_type l) m in
  NoDup (map (fun kv => cow_str (fst kv)) m') /\
  (forall k b, In (k, b) m' -> exists run, LastRun (cow_str k) (a ++ l) run /\ b = extend bdefault (runs_of run)) /\
  (forall t, In t (map (fun kv => cow_str (fst kv)) m') <-> exists blk, In blk (a ++ l) /\ cow_str (b_type blk) = t).
Proof.
  induction n as [|n IH]; intros a l m Hn Hsep HD HR HK; (destruct l as [|b l]; [cbn; rewrite app_nil_r; auto|]); [cbn in Hn; lia|].
  destruct (group_split l b) as (ts & rest & -> & Hts & Hr & Hg). rewrite Hg. cbn [fold_left fst snd].
  change (map (fun c => (b_labels c, b_body c)) (b :: ts)) with (runs_of (b :: ts)).
  replace (a ++ b :: ts ++ rest) with ((a ++ b :: ts) ++ rest) by (rewrite <- app_assoc; reflexivity).
  apply IH.
  - cbn [length] in Hn. rewrite app_length in Hn. lia.
  - intros a' b' c l' E ->. assert (Hb' : cow_str (b_type b') = cow_str (b_type b)).
    { destruct ts as [|t0 ts] using rev_ind.
      - apply app_inj_tail in E as [_ ->]. reflexivity.
      - rewrite app_comm_cons, app_assoc in E. apply app_inj_tail in E as [_ <-]. apply Hts, in_app_iff. right. left. reflexivity. }
    rewrite Hb'. congruence.
  - apply hm_insert_nodup, HD.
  - intros k x Hin. apply hm_insert_in in Hin as [[E ->]|[E Hin]]; [| |exact HD].
    + exists (b :: ts). split; [|reflexivity]. exists a, []. split; [rewrite app_nil_r; reflexivity|]. split; [discriminate|].
      split; [intros c [<-|Hc]; [congruence|rewrite E; apply Hts, Hc]|]. split; [intros c []|].
      intros a' c ->. rewrite E. eapply Hsep; reflexivity.
    + destruct (HR _ _ Hin) as (run & (a0 & z & -> & Hne & Hrun & Hz & Ha) & ->). exists run. split; [|reflexivity].
      exists a0, (z ++ b :: ts). split; [rewrite <- !app_assoc; reflexivity|]. split; [exact Hne|]. split; [exact Hrun|]. split; [|exact Ha].
      intros c Hc. apply in_app_iff in Hc as [Hc|[<-|Hc]]; [apply Hz, Hc|congruence|]. rewrite (Hts _ Hc). congruence.
  - intros t. rewrite hm_insert_keys, HK. split.
    + intros [->|(blk & Hb & <-)]; [exists b|exists blk]; (split; [|reflexivity]); apply in_app_iff; [right; left; reflexivity|left; exact Hb].
    + intros (blk & Hb & <-). apply in_app_iff in Hb as [Hb|[<-|Hb]]; [right; eauto|auto|left; apply Hts, Hb].
Qed.
(** [Blocks::new] keeps, of every type, the last run of consecutive blocks. *)
Theorem C85_new : forall l m, ReorderBlocks (blocks_new l) m ->
  NoDup (map (fun kv => cow_str (fst kv)) m) /\
  (forall t, (exists k b, In (k, b) m /\ cow_str k = t) <-> exists blk, In blk l /\ cow_str (b_type blk) = t) /\
  (forall k b, In (k, b) m -> exists run, LastRun (cow_str k) l run /\ Built (map (fun c => (b_labels c, b_body c)) run) b).
Proof.
  intros l m HR. destruct (new_spec (length l) [] l [] (le_n _)) as (HD & HL & HK).
  - intros a' b c l' E. destruct a'; discriminate.
  - constructor.
  - intros k b [].
  - intros t. split; [intros []|intros (blk & [] & _)].
  - change (fold_left _ (group_by_type l) []) with (blocks_new l) in *. cbn [app] in *.
    pose proof (ReorderBlocks_keys _ _ HR) as Hkeys. split; [|split].
    + eapply Permutation_NoDup; [exact Hkeys|exact HD].
    + intros t. rewrite <- HK. split.
      * intros (k & b & Hin & <-). eapply Permutation_in; [symmetry; exact Hkeys|]. apply (in_map (fun kv : cow * bbody => cow_str (fst kv)) _ _ Hin).
      * intros H. apply (Permutation_in _ Hkeys) in H. apply in_map_iff in H as ([k b] & E & H). exists k, b. auto.
    + intros k b Hin. destruct (ReorderBlocks_in _ _ _ _ HR Hin) as (x & Hx & Hxb). destruct (HL _ _ Hx) as (run & Hrun & ->).
      exists run. split; [exact Hrun|]. eapply Built_reorder; [apply Built_exists|exact Hxb].
Qed.

(** Nothing is lost iff the blocks of each type are adjacent. *)
Lemma extend_len b g : len_blocks (extend b g) = (len_blocks b + length g)%nat.
Proof.
  unfold extend. revert b. induction g as [|[ls bd] g IH]; intros b; cbn [fold_left length fst snd]; [lia|]. rewrite IH.
  rewrite !len_blocks_flat, (Permutation_length (flat_iter_append b ls bd)). cbn. lia.
Qed.
Lemma insert_len m k v : NoDup (map (fun kv : cow * bbody => cow_str (fst kv)) m) -> (forall kv, In kv m -> (0 < len_blocks (snd kv))%nat) ->
  (list_sum (map (fun kv => len_blocks (snd kv)) (hm_insert m k v)) <= list_sum (map (fun kv => len_blocks (snd kv)) m) + len_blocks v)%nat /\
  (In (cow_str k) (map (fun kv => cow_str (fst kv)) m) ->
   (list_sum (map (fun kv => len_blocks (snd kv)) (hm_insert m k v)) < list_sum (map (fun kv => len_blocks (snd kv)) m) + len_blocks v)%nat).
Proof.
  induction m as [|[a x] m IH]; intros HD Hpos; cbn [hm_insert map fst list_sum fold_right snd] in *.
  - split; [unfold list_sum; cbn; lia|intros []].
  - inversion HD as [|? ? Hn HD']; subst. destruct (cow_eqb a k) eqn:E; cbn [map snd fst list_sum fold_right].
    + pose proof (Hpos (a, x) (or_introl eq_refl)) as Hx. cbn in Hx. split; [|intros _]; unfold list_sum; lia.
    + destruct (IH HD') as [H1 H2]; [intros kv Hkv; apply Hpos; right; exact Hkv|]. unfold list_sum in *. split; [lia|].
      intros [Hk|Hk]; [apply cow_eqb_eq in Hk; congruence|]. specialize (H2 Hk). lia.
Qed.
Lemma group_len l : list_sum (map (fun kg : cow * list (list label * body_t) => length (snd kg)) (group_by_type l)) = length l.
Proof.
  assert (H : forall n l, (length l <= n)%nat -> list_sum (map (fun kg : cow * list (list label * body_t) => length (snd kg)) (group_by_type l)) = length l).
  { clear l. induction n as [|n IH]; intros l Hn; (destruct l as [|b l]; [reflexivity|]); [cbn in Hn; lia|].
    destruct (group_split l b) as (ts & rest & -> & _ & _ & ->). cbn [map snd list_sum fold_right]. unfold list_sum in IH. cbn [length] in Hn.
    rewrite app_length in Hn. rewrite IH by lia. cbn [length]. rewrite map_length, app_length. lia. }
  apply (H (length l)). lia.
Qed.
Lemma fold_insert_len gs : forall m, NoDup (map (fun kv : cow * bbody => cow_str (fst kv)) m) -> (forall kv, In kv m -> (0 < len_blocks (snd kv))%nat) ->
  (forall kg, In kg gs -> snd kg <> []) ->
  let r := list_sum (map (fun kv => len_blocks (snd kv)) (fold_left (fun m kg => hm_insert m (fst kg) (extend bdefault (snd kg))) gs m)) in
  let s := (list_sum (map (fun kv => len_blocks (snd kv)) m) + list_sum (map (fun kg : cow * list (list label * body_t) => length (snd kg)) gs))%nat in
  (r <= s)%nat /\ (r = s -> NoDup (map (fun kg : cow * list (list label * body_t) => cow_str (fst kg)) gs) /\
     forall kg, In kg gs -> ~ In (cow_str (fst kg)) (map (fun kv => cow_str (fst kv)) m)).
Proof.
  induction gs as [|[k g] gs IH]; intros m HD Hpos Hg; cbn [fold_left map fst snd]; [cbn; split; [lia|]; intros _; split; [constructor|intros kg []]|].
  assert (Hpos' : forall kv, In kv (hm_insert m k (extend bdefault g)) -> (0 < len_blocks (snd kv))%nat).
  { intros [k' v'] Hin. apply hm_insert_in in Hin as [[_ ->]|[_ Hin]]; [| |exact HD].
    - cbn [snd]. rewrite extend_len. pose proof (Hg (k, g) (or_introl eq_refl)) as Hne. cbn in Hne. destruct g; [congruence|cbn; lia].
    - apply (Hpos _ Hin). }
  destruct (IH _ (hm_insert_nodup m k (extend bdefault g) HD) Hpos') as [H1 H2]; [intros kg Hkg; apply Hg; right; exact Hkg|].
  destruct (insert_len m k (extend bdefault g) HD Hpos) as [H3 H4]. pose proof (extend_len bdefault g) as H5. cbn [len_blocks bdefault length Nat.add] in H5.
  cbn [list_sum fold_right]. unfold list_sum in *. split; [lia|]. intros E.
  destruct H2 as [H2a H2b]; [lia|]. split.
  - constructor; [|exact H2a]. intros Hi. apply in_map_iff in Hi as (kg & Ek & Hkg). apply (H2b _ Hkg). apply hm_insert_keys. left. exact Ek.
  - intros kg [<-|Hkg].
    + intros Hi. specialize (H4 Hi). cbn [fst] in *. lia.
    + intros Hi. apply (H2b _ Hkg). apply hm_insert_keys. right. exact Hi.
Qed.
Lemma group_types l : forall b, In b l -> In (cow_str (b_type b)) (map (fun kg : cow * list (list label * body_t) => cow_str (fst kg)) (group_by_type l)).
Proof.
  assert (H : forall n l, (length l <= n)%nat -> forall b, In b l ->
    In (cow_str (b_type b)) (map (fun kg : cow * list (list label * body_t) => cow_str (fst kg)) (group_by_type l))).
  { clear l. induction n as [|n IH]; intros l Hn b0 Hb0; (destruct l as [|b l]; [destruct Hb0|]); [cbn in Hn; lia|].
    destruct (group_split l b) as (ts & rest & -> & Hts & _ & ->). cbn [map fst]. destruct Hb0 as [<-|Hb0]; [left; reflexivity|].
    apply in_app_iff in Hb0 as [Hb0|Hb0]; [left; symmetry; apply Hts, Hb0|]. right. apply IH; [|exact Hb0].
    cbn [length] in Hn. rewrite app_length in Hn. lia. }
  apply (H (length l)). lia.
Qed.
Lemma split_two {A} (a b l1 l2 : list A) x : a ++ b = l1 ++ x :: l2 ->
  (exists r, a = l1 ++ x :: r /\ l2 = r ++ b) \/ (exists r, l1 = a ++ r /\ b = r ++ x :: l2).
Proof.
  revert l1. induction a as [|y a IH]; intros l1 E; cbn in E; [right; exists l1; auto|].
  destruct l1 as [|z l1]; cbn in E; injection E as -> E; [left; exists a; auto|].
  destruct (IH _ E) as [(r & -> & ->)|(r & -> & ->)]; [left|right]; exists r; auto.
Qed.
Lemma nodup_adjacent n : forall l, (length l <= n)%nat ->
  NoDup (map (fun kg : cow * list (list label * body_t) => cow_str (fst kg)) (group_by_type l)) -> Adjacent l.
Proof.
  induction n as [|n IH]; intros l Hn HD; (destruct l as [|b l]; [intros l1 b1 l2 b2 l3 E; destruct l1; discriminate E|]); [cbn in Hn; lia|].
  destruct (group_split l b) as (ts & rest & -> & Hts & Hr & Hg). rewrite Hg in HD. cbn [map fst] in HD. inversion HD as [|? ? Hno HD']; subst.
  assert (HA : Adjacent rest) by (apply IH; [cbn [length] in Hn; rewrite app_length in Hn; lia|exact HD']).
  assert (Hrest : forall c, In c rest -> cow_str (b_type c) <> cow_str (b_type b)).
  { intros c Hc E. apply Hno. rewrite <- E. apply group_types, Hc. }
  intros l1 b1 l2 b2 l3 E Ht b0 Hb0. cbn [app] in E. rewrite app_comm_cons in E.
  assert (Hall : forall c, In c (b :: ts) -> cow_str (b_type c) = cow_str (b_type b)) by (intros c [<-|Hc]; [reflexivity|apply Hts, Hc]).
  apply split_two in E as [(r & E1 & E2)|(r & E1 & E2)].
  - assert (H1 : cow_str (b_type b1) = cow_str (b_type b)) by (apply Hall; rewrite E1; apply in_app_iff; right; left; reflexivity).
    symmetry in E2. apply split_two in E2 as [(r' & E3 & E4)|(r' & E3 & E4)].
    + rewrite H1. apply Hall. rewrite E1, E3. apply in_app_iff. right. right. apply in_app_iff. left. exact Hb0.
    + exfalso. apply (Hrest b2); [rewrite E4; apply in_app_iff; right; left; reflexivity|congruence].
  - apply (HA r b1 l2 b2 l3 E2 Ht b0 Hb0).
Qed.
Theorem C85_keeps_all : forall l, blocks_len_blocks (blocks_new l) = length l <-> Adjacent l.
Proof.
  intros l. split; [|intros HA; apply (C31_new_partial l HA)]. intros E.
  assert (Hne : forall kg, In kg (group_by_type l) -> snd kg <> []).
  { clear E. assert (H : forall n l, (length l <= n)%nat -> forall kg, In kg (group_by_type l) -> snd kg <> []).
    { clear l. induction n as [|n IH]; intros l Hn kg Hkg; (destruct l as [|b l]; [destruct Hkg|]); [cbn in Hn; lia|].
      destruct (group_split l b) as (ts & rest & -> & _ & _ & Hg). rewrite Hg in Hkg. destruct Hkg as [<-|Hkg]; [discriminate|].
      apply (IH rest); [|exact Hkg]. cbn [length] in Hn. rewrite app_length in Hn. lia. }
    apply (H (length l)). lia. }
  destruct (fold_insert_len (group_by_type l) [] (NoDup_nil _) ltac:(intros kv []) Hne) as [_ H].
  apply (nodup_adjacent (length l) l (le_n _)). apply H. rewrite group_len. cbn [map list_sum fold_right Nat.add].
  unfold blocks_len_blocks in E. rewrite (fold_len (fun kv => len_blocks (snd kv))) in E. exact E.
Qed.
Print Assumptions C85_new.
Print Assumptions C85_keeps_all.
Example C85_nonvacuous : LastRun (lit "t") [bk "t" [X] bd1; bk "u" [] bd2; bk "t" [Y] bd2; bk "t" [] bd1; bk "u" [] bd2] [bk "t" [Y] bd2; bk "t" [] bd1].
Proof.
  exists [bk "t" [X] bd1; bk "u" [] bd2], [bk "u" [] bd2]. split; [reflexivity|]. split; [discriminate|].
  split; [intros b [<-|[<-|[]]]; reflexivity|]. split; [intros b [<-|[]] H; discriminate H|].
  intros [|a [|a' [|a'' l]]] b E; injection E; intros; subst; try discriminate.
Qed.
