(** * Property theorems: the block index (C29-C37) *)
From Coq Require Import Permutation Sorted.
From Verif Require Import Base Ast NomFacts Blocks BlockSpec BlockProofs.

(** ** The [Blocks] level *)
Lemma of_type_app t h h' : of_type t (h ++ h') = of_type t h ++ of_type t h'.
Proof. unfold of_type. rewrite filter_app, map_app. reflexivity. Qed.
Lemma of_type_one t b : of_type t [b] = if str_eqb (cow_str (b_type b)) t then [(b_labels b, b_body b)] else [].
Proof. unfold of_type. cbn. destruct (str_eqb _ _); reflexivity. Qed.

Definition BInv (h : list block_t) (m : blocks_t) : Prop :=
  NoDup (map (fun kv => cow_str (fst kv)) m) /\
  (forall k b, In (k, b) m -> Built (of_type (cow_str k) h) b /\ of_type (cow_str k) h <> []) /\
  (forall blk, In blk h -> exists k b, In (k, b) m /\ cow_str k = cow_str (b_type blk)).

Lemma cow_eqb_eq a b : cow_eqb a b = true <-> cow_str a = cow_str b.
Proof. apply str_eqb_eq. Qed.

Lemma Built_one ls body : Built [(ls, body)] (append bdefault ls body).
Proof. apply (Built_append [] bdefault ls body); [constructor|apply Reorder_refl]. Qed.

Lemma blocks_append_inv h m b : BInv h m -> BInv (h ++ [b]) (blocks_append m b).
Proof.
  intros (HD & HB & HE).
  assert (Hnone : (forall k x, In (k, x) m -> cow_str k <> cow_str (b_type b)) -> of_type (cow_str (b_type b)) h = []).
  { intros Hn. unfold of_type. replace (filter _ h) with (@nil block_t); [reflexivity|]. symmetry.
    destruct (filter (fun b0 => str_eqb (cow_str (b_type b0)) (cow_str (b_type b))) h) as [|b0 l] eqn:E; [reflexivity|exfalso].
    assert (Hb0 : In b0 (filter (fun b0 => str_eqb (cow_str (b_type b0)) (cow_str (b_type b))) h)) by (rewrite E; left; reflexivity).
    apply filter_In in Hb0 as [Hb0 Ht]. apply str_eqb_eq in Ht. destruct (HE _ Hb0) as (k & x & Hkx & Hk).
    apply (Hn _ _ Hkx). congruence. }
  assert (Hkeys : forall x, In x (map (fun kv => cow_str (fst kv)) (blocks_append m b)) <->
                   In x (map (fun kv => cow_str (fst kv)) m) \/ x = cow_str (b_type b)).
  { clear. intros x. induction m as [|[k y] m IH]; cbn [blocks_append map In fst]; [intuition congruence|].
    destruct (cow_eqb k (b_type b)) eqn:E; cbn [map In fst].
    - apply cow_eqb_eq in E. rewrite E. intuition.
    - rewrite IH. tauto. }
  split; [|split].
  - clear Hnone HB HE Hkeys. induction m as [|[k x] m IH]; cbn [blocks_append map fst]; [constructor; [intros []|constructor]|].
    cbn [map fst] in HD. inversion HD as [|? ? Hn HD']; subst. destruct (cow_eqb k (b_type b)) eqn:E; cbn [map fst]; [exact HD|].
    constructor; [|apply IH, HD']. intros Hi.
    assert (Hk : In (cow_str k) (map (fun kv => cow_str (fst kv)) m) \/ cow_str k = cow_str (b_type b)).
    { clear - Hi. induction m as [|[k' y] m IH]; cbn [blocks_append map In fst] in *; [intuition congruence|].
      destruct (cow_eqb k' (b_type b)) eqn:E; cbn [map In fst] in Hi; tauto. }
    destruct Hk as [Hk|Hk]; [exact (Hn Hk)|]. apply cow_eqb_eq in Hk. congruence.
  - intros k x Hkx.
    assert (Hcase : (In (k, x) m /\ cow_str k <> cow_str (b_type b)) \/
       (exists x0, In (k, x0) m /\ cow_str k = cow_str (b_type b) /\ x = append x0 (b_labels b) (b_body b)) \/
       ((forall k x, In (k, x) m -> cow_str k <> cow_str (b_type b)) /\ cow_str k = cow_str (b_type b) /\
        x = append bdefault (b_labels b) (b_body b))).
    { clear HB HE Hnone Hkeys. induction m as [|[k' y] m IH]; cbn [blocks_append] in Hkx.
      - destruct Hkx as [[= <- <-]|[]]. right. right. split; [intros ? ? []|auto].
      - cbn [map fst] in HD. inversion HD as [|? ? Hn HD']; subst. destruct (cow_eqb k' (b_type b)) eqn:E.
        + apply cow_eqb_eq in E. destruct Hkx as [[= <- <-]|Hkx].
          * right. left. exists y. split; [left; reflexivity|]. auto.
          * left. split; [right; exact Hkx|]. intros Ek. apply Hn. rewrite E, <- Ek.
            apply (in_map (fun kv : cow * bbody => cow_str (fst kv)) _ _ Hkx).
        + assert (E' : cow_str k' <> cow_str (b_type b)) by (intros H; apply cow_eqb_eq in H; congruence).
          destruct Hkx as [[= <- <-]|Hkx].
          * left. split; [left; reflexivity|exact E'].
          * destruct (IH HD' Hkx) as [[H1 H2]|[(x0 & H1 & H2 & H3)|(H1 & H2 & H3)]].
            -- left. split; [right; exact H1|exact H2].
            -- right. left. exists x0. split; [right; exact H1|auto].
            -- right. right. split; [|auto]. intros k0 z [Hz|Hz]; [injection Hz as <- <-; exact E'|eapply H1, Hz]. }
    rewrite of_type_app, of_type_one. destruct Hcase as [[H1 H2]|[(x0 & H1 & H2 & ->)|(H1 & H2 & ->)]].
    + replace (str_eqb (cow_str (b_type b)) (cow_str k)) with false by (symmetry; apply str_eqb_neq; congruence).
      rewrite app_nil_r. apply HB, H1.
    + rewrite <- H2, str_eqb_refl. destruct (HB _ _ H1) as [HBx _]. split; [|intros E; apply app_eq_nil in E as [_ E]; discriminate].
      apply (Built_append _ x0); [exact HBx|apply Reorder_refl].
    + rewrite H2, str_eqb_refl, (Hnone H1). split; [apply Built_one|discriminate].
  - intros blk Hblk. assert (Hi : In (cow_str (b_type blk)) (map (fun kv => cow_str (fst kv)) (blocks_append m b))).
    { apply Hkeys. apply in_app_iff in Hblk as [Hblk|[<-|[]]]; [|auto]. left. destruct (HE _ Hblk) as (k & x & Hkx & Hk).
      rewrite <- Hk. apply (in_map (fun kv : cow * bbody => cow_str (fst kv)) _ _ Hkx). }
    apply in_map_iff in Hi as ([k x] & Hk & Hkx). eauto.
Qed.

Lemma ReorderBlocks_in m m' k x' : ReorderBlocks m m' -> In (k, x') m' -> exists x, In (k, x) m /\ Reorder x x'.
Proof.
  intros [m0 m1 m2 P F] Hin.
  assert (H : exists x, In (k, x) m1 /\ Reorder x x').
  { clear - F Hin. induction F as [|[ka a] [kb b] l l' [E R] _ IH]; [destruct Hin|]. cbn in *. destruct Hin as [[= <- <-]|Hin].
    - subst. eauto.
    - destruct (IH Hin) as (x & ? & ?). eauto. }
  destruct H as (x & H1 & H2). exists x. split; [|exact H2]. eapply Permutation_in; [symmetry; exact P|exact H1].
Qed.
Lemma ReorderBlocks_in' m m' k x : ReorderBlocks m m' -> In (k, x) m -> exists x', In (k, x') m' /\ Reorder x x'.
Proof.
  intros [m0 m1 m2 P F] Hin. apply (Permutation_in _ P) in Hin.
  induction F as [|[ka a] [kb b] l l' [E R] _ IH] in Hin |- *; [destruct Hin|]. cbn in *. destruct Hin as [[= <- <-]|Hin].
  - subst. eauto.
  - destruct (IH Hin) as (y & ? & ?). eauto.
Qed.
Lemma ReorderBlocks_keys m m' : ReorderBlocks m m' ->
  Permutation (map (fun kv => cow_str (fst kv)) m) (map (fun kv => cow_str (fst kv)) m').
Proof.
  intros [m0 m1 m2 P F]. rewrite (Permutation_map _ P).
  clear P. induction F as [|a b l l' [E _] _ IH]; cbn; [constructor|]. rewrite E. apply perm_skip, IH.
Qed.
Lemma ReorderBlocks_inv h m m' : BInv h m -> ReorderBlocks m m' -> BInv h m'.
Proof.
  intros (HD & HB & HE) HR. split; [|split].
  - eapply Permutation_NoDup; [apply ReorderBlocks_keys, HR|exact HD].
  - intros k x' Hin. destruct (ReorderBlocks_in _ _ _ _ HR Hin) as (x & Hx & Rx). destruct (HB _ _ Hx) as [H1 H2].
    split; [eapply Built_reorder; eassumption|exact H2].
  - intros blk Hblk. destruct (HE _ Hblk) as (k & x & Hx & Hk). destruct (ReorderBlocks_in' _ _ _ _ HR Hx) as (x' & Hx' & _). eauto.
Qed.
Lemma BlocksBuilt_inv h m : BlocksBuilt h m -> BInv h m.
Proof.
  induction 1 as [|h m b m' _ IH HR].
  - split; [constructor|]. split; [intros ? ? []|intros ? []].
  - eapply ReorderBlocks_inv; [|exact HR]. apply blocks_append_inv, IH.
Qed.
Lemma ReorderBlocks_refl m : ReorderBlocks m m.
Proof. apply (ROB m m m); [apply Permutation_refl|]. induction m; constructor; auto using Reorder_refl. Qed.
Lemma ReorderBlocks_flat m m' : ReorderBlocks m m' -> Permutation (blocks_flat_iter m) (blocks_flat_iter m').
Proof.
  intros [m0 m1 m2 P F]. unfold blocks_flat_iter. rewrite (Permutation_flat_map _ P).
  eapply flat_map_perm; [exact F|]. intros [ka a] [kb b] _ [E R]. cbn [fst snd] in *. subst. apply Permutation_map, Reorder_flat, R.
Qed.
Lemma blocks_len_flat m : blocks_len_blocks m = length (blocks_flat_iter m).
Proof.
  unfold blocks_len_blocks, blocks_flat_iter. rewrite (fold_len (fun kv => len_blocks (snd kv))), list_sum_flat_map. cbn [Nat.add]. f_equal.
  apply map_ext. intros kv. rewrite map_length. apply len_blocks_flat.
Qed.
Lemma flat_append_default ls body : flat_iter (append bdefault ls body) = [(map label_str ls, body)].
Proof. rewrite append_default_eq. apply flat_iter_default. Qed.
Lemma blocks_flat_append m b : exists p, is_prefix p (map label_str (b_labels b)) /\
  Permutation (blocks_flat_iter (blocks_append m b)) ((cow_str (b_type b), p, b_body b) :: blocks_flat_iter m).
Proof.
  induction m as [|[k x] m (p & Hp & IH)]; cbn [blocks_append].
  - exists (map label_str (b_labels b)). split; [exists []; rewrite app_nil_r; reflexivity|].
    unfold blocks_flat_iter. cbn [flat_map fst snd]. rewrite flat_append_default. cbn. apply Permutation_refl.
  - destruct (cow_eqb k (b_type b)) eqn:E.
    + exists (map label_str (eff x (b_labels b))). split; [apply eff_prefix|]. unfold blocks_flat_iter. cbn [flat_map fst snd].
      apply cow_eqb_eq in E. rewrite <- E.
      exact (Permutation_app_tail _ (Permutation_map (fun pb : list str * body_t => (cow_str k, fst pb, snd pb)) (flat_iter_append x (b_labels b) (b_body b)))).
    + exists p. split; [exact Hp|]. unfold blocks_flat_iter in *. cbn [flat_map]. rewrite IH. symmetry. apply Permutation_middle.
Qed.

(** C29: appending adds exactly one entry - the body, under a prefix of its labels -
    to what is stored, whatever the state, and nothing else changes. *)
Theorem C29_append_one : forall b ls body b', Reorder (append b ls body) b' ->
  len_blocks b' = S (len_blocks b) /\
  exists p, is_prefix p (map label_str ls) /\ Permutation (flat_iter b') ((p, body) :: flat_iter b).
Proof.
  intros b ls body b' HR.
  assert (HP : Permutation (flat_iter b') ((map label_str (eff b ls), body) :: flat_iter b)).
  { etransitivity; [symmetry; apply Reorder_flat, HR|apply flat_iter_append]. }
  split.
  - rewrite !len_blocks_flat, (Permutation_length HP). reflexivity.
  - exists (map label_str (eff b ls)). split; [apply eff_prefix|exact HP].
Qed.
Theorem C29_blocks_append_one : forall m b m', ReorderBlocks (blocks_append m b) m' ->
  blocks_len_blocks m' = S (blocks_len_blocks m) /\
  exists p, is_prefix p (map label_str (b_labels b)) /\
    Permutation (blocks_flat_iter m') ((cow_str (b_type b), p, b_body b) :: blocks_flat_iter m).
Proof.
  intros m b m' HR. destruct (blocks_flat_append m b) as (p & Hp & HP).
  assert (HP' : Permutation (blocks_flat_iter m') ((cow_str (b_type b), p, b_body b) :: blocks_flat_iter m)).
  { etransitivity; [symmetry; apply ReorderBlocks_flat, HR|exact HP]. }
  split; [rewrite !blocks_len_flat, (Permutation_length HP'); reflexivity|eauto].
Qed.
(** Over a whole history: one entry per block, with its type and body. *)
Theorem C29_history : forall h m, BlocksBuilt h m ->
  blocks_len_blocks m = length h /\
  Permutation (map (fun e => (fst (fst e), snd e)) (blocks_flat_iter m)) (map (fun b => (cow_str (b_type b), b_body b)) h).
Proof.
  intros h m H. induction H as [|h m b m' _ [IH1 IH2] HR]; [split; [reflexivity|constructor]|].
  destruct (C29_blocks_append_one m b m' HR) as (H1 & p & _ & H2). split.
  - rewrite H1, IH1, app_length. cbn. lia.
  - rewrite (Permutation_map _ H2). cbn [map fst snd]. rewrite map_app. cbn [map]. rewrite IH2. apply Permutation_cons_append.
Qed.
Print Assumptions C29_append_one.
Print Assumptions C29_blocks_append_one.
Print Assumptions C29_history.

Definition X := LString (lit "x").
Definition Y := LString (lit "y").
Definition Z' := LString (lit "z").
Definition bd1 : body_t := [Attr (Borrowed (lit "a")) ENull].
Definition bd2 : body_t := [Attr (Borrowed (lit "b")) (EBool true)].
Definition bk (t : string) ls bd := mk_block (Borrowed (lit t)) ls bd.
Example C29_nonvacuous :
  blocks_len_blocks (blocks_extend [] [bk "t" [X] bd1; bk "t" [] bd2; bk "u" [X; Y] bd1; bk "t" [X; Y] bd2]) = 4%nat /\
  BlocksBuilt [bk "t" [X] bd1] [(Borrowed (lit "t"), BLabels [] [(X, BBody [bd1])])].
Proof.
  split; [reflexivity|]. apply (BB_append [] [] (bk "t" [X] bd1)); [constructor|apply ReorderBlocks_refl].
Qed.

(** C30: REFUTED: a block with two labels, the first of which is new, loses the
    second one. *)
Theorem C30_get_refuted : exists h m, BlocksBuilt h m /\ In (bk "t" [Y; Z'] bd2) h /\
  blocks_get m (lit "t") [lit "y"; lit "z"] = None.
Proof.
  exists [bk "t" [X] bd1; bk "t" [Y; Z'] bd2]. eexists. split; [|split; [right; left; reflexivity|]].
  - eapply (BB_append [bk "t" [X] bd1]); [|apply ReorderBlocks_refl].
    apply (BB_append [] []); [constructor|apply ReorderBlocks_refl].
  - reflexivity.
Qed.

Definition all_labels (h : list (list label * body_t)) (ls : list label) : list label := history_labels h ++ ls.

(** The full effect of an append on lookups, under consistently written labels: one
    place gets the body, as its last one; all other lookups are unchanged.  The
    place is the block's own label path when that path is known. *)
Theorem C30_append_get_partial : forall h b ls body b', Built h b -> Consistent (all_labels h ls) ->
  Reorder (append b ls body) b' ->
  exists p, is_prefix p (map label_str ls) /\ (KnownPath b ls -> p = map label_str ls) /\
    (exists node, bget b' p = Some node /\ In body (get_empty node)) /\
    forall q, bodies_at b' q = bodies_at b q ++ (if path_eqb q p then [body] else []).
Proof.
  intros h b ls body b' HB HC HR. destruct (Built_good h b HB) as [HG _].
  assert (HG' : Good (fun l => In l (all_labels h ls)) b).
  { eapply Good_mono; [|exact HG]. intros l Hl. apply in_app_iff. auto. }
  assert (Hls : forall l, In l ls -> In l (all_labels h ls)) by (intros l Hl; apply in_app_iff; auto).
  destruct (append_good _ b ls body HG' Hls) as [HGa _]. pose proof (Good_unamb _ HC _ HGa) as HU.
  exists (map label_str (eff b ls)). split; [apply eff_prefix|]. split; [|split].
  - intros HK. apply (KnownPath_eff _ HC b ls HK HG' Hls).
  - assert (Hat : bodies_at b' (map label_str (eff b ls)) = bodies_at b (map label_str (eff b ls)) ++ [body]).
    { rewrite <- (Reorder_bodies_at _ _ _ HU HR), (bodies_at_append _ HC b ls body _ HG' Hls).
      rewrite (proj2 (path_eqb_eq _ _) eq_refl). reflexivity. }
    unfold bodies_at in Hat at 1. destruct (bget b' (map label_str (eff b ls))) as [node|].
    + exists node. split; [reflexivity|]. rewrite Hat. apply in_app_iff. right. left. reflexivity.
    + symmetry in Hat. apply app_eq_nil in Hat as [_ Hat]. discriminate.
  - intros q. rewrite <- (Reorder_bodies_at _ _ _ HU HR). apply (bodies_at_append _ HC b ls body q HG' Hls).
Qed.
Lemma path_eqb_sym p q : path_eqb p q = path_eqb q p.
Proof.
  destruct (path_eqb p q) eqn:E.
  - apply path_eqb_eq in E. subst. symmetry. apply path_eqb_eq. reflexivity.
  - destruct (path_eqb q p) eqn:E'; [|reflexivity]. apply path_eqb_eq in E'. subst. rewrite (proj2 (path_eqb_eq p p) eq_refl) in E. discriminate.
Qed.
(** If no block has more than one label, every lookup returns exactly the bodies of
    the blocks with these labels, in order. *)
Theorem C30_short_labels_partial : forall h b, Built h b -> Consistent (history_labels h) ->
  (forall ls body, In (ls, body) h -> (length ls <= 1)%nat) ->
  forall q, bodies_at b q = map snd (filter (fun lb => path_eqb q (map label_str (fst lb))) h).
Proof.
  intros h b HB. induction HB as [|h b ls body b' HB IH HR]; intros HC Hs q; [destruct q; reflexivity|].
  assert (HC' : Consistent (all_labels h ls)).
  { unfold all_labels. unfold history_labels in *. rewrite flat_map_app in HC. cbn in HC. rewrite app_nil_r in HC. exact HC. }
  destruct (C30_append_get_partial h b ls body b' HB HC' HR) as (p & _ & Hp & _ & Hq).
  assert (HK : KnownPath b ls).
  { assert (Hl : (length ls <= 1)%nat) by (apply (Hs ls body), in_app_iff; right; left; reflexivity).
    destruct ls as [|l [|l' ls]]; [constructor|constructor|cbn in Hl; lia]. }
  rewrite (Hp HK) in Hq. rewrite Hq, filter_app, map_app, IH.
  - cbn [filter fst snd]. destruct (path_eqb q (map label_str ls)); reflexivity.
  - intros a c Ha Hc. apply HC'; apply in_app_iff; auto.
  - intros ls' body' Hi. apply (Hs ls' body'), in_app_iff. auto.
Qed.
(** The same through [Blocks]. *)
Lemma find_type m k x t : NoDup (map (fun kv : cow * bbody => cow_str (fst kv)) m) -> In (k, x) m -> cow_str k = t ->
  exists k', find (fun kv : cow * bbody => str_eqb (cow_str (fst kv)) t) m = Some (k', x).
Proof.
  intros HD Hin Hk. induction m as [|[k' y] m IH]; [destruct Hin|]. cbn [find fst map] in *. inversion HD as [|? ? Hn HD']; subst.
  destruct Hin as [[= <- <-]|Hin]; [rewrite str_eqb_refl; eauto|].
  destruct (str_eqb (cow_str k') (cow_str k)) eqn:E; [|apply IH; auto]. exfalso. apply str_eqb_eq in E. apply Hn. rewrite E.
  apply (in_map (fun kv : cow * bbody => cow_str (fst kv)) _ _ Hin).
Qed.
Lemma blocks_get_in m k x t path : NoDup (map (fun kv : cow * bbody => cow_str (fst kv)) m) -> In (k, x) m -> cow_str k = t ->
  blocks_get m t path = bget x path.
Proof. intros HD Hin Hk. unfold blocks_get. destruct (find_type m k x t HD Hin Hk) as (k' & ->). reflexivity. Qed.
Theorem C30_blocks_get_partial : forall h m, BlocksBuilt h m ->
  forall blk, In blk h ->
  Consistent (history_labels (of_type (cow_str (b_type blk)) h)) ->
  (forall blk', In blk' h -> cow_str (b_type blk') = cow_str (b_type blk) -> (length (b_labels blk') <= 1)%nat) ->
  exists node, blocks_get m (cow_str (b_type blk)) (map label_str (b_labels blk)) = Some node /\
    In (b_body blk) (get_empty node).
Proof.
  intros h m HB blk Hblk HC Hs. destruct (BlocksBuilt_inv h m HB) as (HD & HBu & HE).
  destruct (HE _ Hblk) as (k & x & Hkx & Hk). destruct (HBu _ _ Hkx) as [Hx _]. rewrite Hk in Hx.
  rewrite (blocks_get_in m k x _ _ HD Hkx Hk).
  assert (Hsh : forall ls body, In (ls, body) (of_type (cow_str (b_type blk)) h) -> (length ls <= 1)%nat).
  { intros ls body Hi. apply in_map_iff in Hi as (b' & [= <- <-] & Hb'). apply filter_In in Hb' as [Hb' Ht].
    apply str_eqb_eq in Ht. apply Hs; assumption. }
  pose proof (C30_short_labels_partial _ x Hx HC Hsh (map label_str (b_labels blk))) as Hat.
  assert (Hin : In (b_body blk) (bodies_at x (map label_str (b_labels blk)))).
  { rewrite Hat. apply in_map_iff. exists (b_labels blk, b_body blk). split; [reflexivity|]. apply filter_In. split.
    - apply in_map_iff. exists blk. split; [reflexivity|]. apply filter_In. split; [exact Hblk|apply str_eqb_refl].
    - cbn. apply path_eqb_eq. reflexivity. }
  unfold bodies_at in Hin. destruct (bget x (map label_str (b_labels blk))) as [node|]; [eauto|destruct Hin].
Qed.
Print Assumptions C30_get_refuted.
Print Assumptions C30_append_get_partial.
Print Assumptions C30_short_labels_partial.
Print Assumptions C30_blocks_get_partial.
Example C30_nonvacuous :
  Built [([X], bd1); ([], bd2)] (BLabels [bd2] [(X, BBody [bd1])]) /\ Consistent [X; Y; LIdent (Borrowed (lit "w"))] /\
  KnownPath (BLabels [bd2] [(X, BBody [bd1])]) [X; Y; Z'].
Proof.
  split; [|split].
  - apply (Built_append [([X], bd1)] (BLabels [] [(X, BBody [bd1])]) [] bd2); [|apply Reorder_refl]. apply Built_one.
  - intros a b Ha Hb. cbn in Ha, Hb. intuition (subst; cbn in *; try exact I; try discriminate).
  - eapply KP_step; [left; reflexivity|reflexivity|constructor].
Qed.

(** C31: REFUTED: of two separate runs of blocks of one type, only the last is
    kept. *)
Theorem C31_new_refuted : exists l, blocks_len_blocks (blocks_new l) <> length l /\
  blocks_get (blocks_new l) (lit "t") [lit "x"] = None /\ In (bk "t" [X] bd1) l.
Proof.
  exists [bk "t" [X] bd1; bk "u" [] bd2; bk "t" [Y] bd2]. split; [discriminate|]. split; [reflexivity|left; reflexivity].
Qed.
(** What holds: if the blocks of each type are adjacent, [new] is the same as
    appending them one by one. *)
Definition Adjacent (l : list block_t) : Prop :=
  forall l1 b1 l2 b2 l3, l = l1 ++ [b1] ++ l2 ++ [b2] ++ l3 -> cow_str (b_type b1) = cow_str (b_type b2) ->
    forall b, In b l2 -> cow_str (b_type b) = cow_str (b_type b1).
Lemma hm_insert_absent m (k : cow) (v : bbody) : (forall kv, In kv m -> cow_str (fst kv) <> cow_str k) -> hm_insert m k v = m ++ [(k, v)].
Proof.
  induction m as [|[k' v'] m IH]; intros H; cbn; [reflexivity|].
  destruct (cow_eqb k' k) eqn:E; [exfalso; apply cow_eqb_eq in E; apply (H (k', v')); [left; reflexivity|exact E]|].
  rewrite IH; [reflexivity|]. intros kv Hkv. apply H. right. exact Hkv.
Qed.
Lemma blocks_append_absent m b : (forall kv, In kv m -> cow_str (fst kv) <> cow_str (b_type b)) ->
  blocks_append m b = m ++ [(b_type b, append bdefault (b_labels b) (b_body b))].
Proof.
  induction m as [|[k' v'] m IH]; intros H; cbn; [reflexivity|].
  destruct (cow_eqb k' (b_type b)) eqn:E; [exfalso; apply cow_eqb_eq in E; apply (H (k', v')); [left; reflexivity|exact E]|].
  rewrite IH; [reflexivity|]. intros kv Hkv. apply H. right. exact Hkv.
Qed.
Lemma blocks_append_last m k x b : (forall kv, In kv m -> cow_str (fst kv) <> cow_str (b_type b)) -> cow_str k = cow_str (b_type b) ->
  blocks_append (m ++ [(k, x)]) b = m ++ [(k, append x (b_labels b) (b_body b))].
Proof.
  intros H Hk. induction m as [|[k' v'] m IH]; cbn.
  - rewrite (proj2 (cow_eqb_eq k (b_type b)) Hk). reflexivity.
  - destruct (cow_eqb k' (b_type b)) eqn:E; [exfalso; apply cow_eqb_eq in E; apply (H (k', v')); [left; reflexivity|exact E]|].
    rewrite IH; [reflexivity|]. intros kv Hkv. apply H. right. exact Hkv.
Qed.
Lemma Adjacent_tail b l : Adjacent (b :: l) -> Adjacent l.
Proof. intros H l1 b1 l2 b2 l3 E. apply (H (b :: l1) b1 l2 b2 l3). rewrite E. reflexivity. Qed.
(* One run: [ts] all have the type of [b]. *)
Lemma extend_run m k x b ts : (forall kv, In kv m -> cow_str (fst kv) <> cow_str (b_type b)) -> cow_str k = cow_str (b_type b) ->
  (forall c, In c ts -> cow_str (b_type c) = cow_str (b_type b)) ->
  blocks_extend (m ++ [(k, x)]) ts = m ++ [(k, extend x (map (fun c => (b_labels c, b_body c)) ts))].
Proof.
  intros Hm Hk. revert x. induction ts as [|c ts IH]; intros x Hts; [reflexivity|].
  unfold blocks_extend in *. cbn [fold_left map]. rewrite (blocks_append_last m k x c).
  - rewrite IH; [reflexivity|]. intros d Hd. apply Hts. right. exact Hd.
  - intros kv Hkv. rewrite (Hts c (or_introl eq_refl)). apply Hm, Hkv.
  - rewrite (Hts c (or_introl eq_refl)). exact Hk.
Qed.
(* Splitting off the first run. *)
Lemma group_split l : forall b, exists ts rest, l = ts ++ rest /\ (forall c, In c ts -> cow_str (b_type c) = cow_str (b_type b)) /\
  (match rest with [] => True | c :: _ => cow_str (b_type c) <> cow_str (b_type b) end) /\
  group_by_type (b :: l) = (b_type b, map (fun c => (b_labels c, b_body c)) (b :: ts)) :: group_by_type rest.
Proof.
  induction l as [|c l IH]; intros b.
  - exists [], []. split; [reflexivity|]. split; [intros ? []|]. split; [exact I|reflexivity].
  - destruct (str_eqb (cow_str (b_type b)) (cow_str (b_type c))) eqn:E.
    + destruct (IH c) as (ts & rest & -> & Hts & Hr & Hg). exists (c :: ts), rest. apply str_eqb_eq in E. split; [reflexivity|].
      split; [intros d [<-|Hd]; [congruence|rewrite E; apply Hts, Hd]|]. split; [rewrite E; exact Hr|].
      change (group_by_type (b :: c :: ts ++ rest)) with
        (match group_by_type (c :: ts ++ rest) with
         | (k, g) :: gs => if cow_eqb (b_type b) k then (b_type b, (b_labels b, b_body b) :: g) :: gs
                           else (b_type b, [(b_labels b, b_body b)]) :: (k, g) :: gs
         | [] => [(b_type b, [(b_labels b, b_body b)])] end).
      rewrite Hg, (proj2 (cow_eqb_eq (b_type b) (b_type c)) E). reflexivity.
    + exists [], (c :: l). split; [reflexivity|]. split; [intros ? []|]. apply str_eqb_neq in E. split; [congruence|].
      destruct (IH c) as (ts & rest & -> & _ & _ & Hg).
      change (group_by_type (b :: c :: ts ++ rest)) with
        (match group_by_type (c :: ts ++ rest) with
         | (k, g) :: gs => if cow_eqb (b_type b) k then (b_type b, (b_labels b, b_body b) :: g) :: gs
                           else (b_type b, [(b_labels b, b_body b)]) :: (k, g) :: gs
         | [] => [(b_type b, [(b_labels b, b_body b)])] end).
      rewrite Hg. destruct (cow_eqb (b_type b) (b_type c)) eqn:E'; [apply cow_eqb_eq in E'; contradiction|]. reflexivity.
Qed.
Lemma new_is_extend n : forall l m, (length l <= n)%nat -> Adjacent l ->
  (forall b kv, In b l -> In kv m -> cow_str (fst kv) <> cow_str (b_type b)) ->
  fold_left (fun m kg => hm_insert m (fst kg) (extend bdefault (snd kg))) (group_by_type l) m = blocks_extend m l.
Proof.
  induction n as [|n IH]; intros l m Hn HA Hm; [destruct l; [reflexivity|cbn in Hn; lia]|].
  destruct l as [|b l]; [reflexivity|]. destruct (group_split l b) as (ts & rest & -> & Hts & Hr & Hg).
  rewrite Hg. cbn [fold_left fst snd].
  rewrite hm_insert_absent by (intros kv Hkv; apply Hm; [left; reflexivity|exact Hkv]).
  rewrite IH.
  - unfold blocks_extend. cbn [fold_left]. rewrite fold_left_app.
    rewrite blocks_append_absent by (intros kv Hkv; apply Hm; [left; reflexivity|exact Hkv]).
    pose proof (extend_run m (b_type b) (append bdefault (b_labels b) (b_body b)) b ts) as HE.
    unfold blocks_extend in HE. rewrite HE; [reflexivity| |reflexivity|exact Hts].
    intros kv Hkv. apply Hm; [left; reflexivity|exact Hkv].
  - cbn [length] in Hn. rewrite app_length in Hn. lia.
  - clear - HA. intros l1 b1 l2 b2 l3 E. apply (HA ((b :: ts) ++ l1) b1 l2 b2 l3). rewrite E, <- app_assoc. reflexivity.
  - intros c kv Hc Hkv. apply in_app_iff in Hkv as [Hkv|[<-|[]]].
    + apply Hm; [right; apply in_app_iff; right; exact Hc|exact Hkv].
    + cbn [fst]. intros E. destruct rest as [|r rest]; [destruct Hc|]. destruct Hc as [<-|Hc]; [congruence|].
      apply in_split in Hc as (r1 & r2 & ->). apply Hr.
      apply (HA [] b (ts ++ r :: r1) c r2).
      * cbn. rewrite <- !app_assoc. reflexivity.
      * exact E.
      * apply in_app_iff. right. left. reflexivity.
Qed.
Lemma blocks_extend_built h m : BlocksBuilt h m -> forall l, BlocksBuilt (h ++ l) (blocks_extend m l).
Proof.
  intros H l. revert h m H. induction l as [|b l IH]; intros h m H; [rewrite app_nil_r; exact H|].
  cbn. change (b :: l) with ([b] ++ l). rewrite app_assoc. apply IH. apply (BB_append h m b); [exact H|apply ReorderBlocks_refl].
Qed.
Theorem C31_new_partial : forall l, Adjacent l ->
  blocks_new l = blocks_extend [] l /\ BlocksBuilt l (blocks_new l) /\ blocks_len_blocks (blocks_new l) = length l.
Proof.
  intros l HA. assert (E : blocks_new l = blocks_extend [] l).
  { unfold blocks_new. apply (new_is_extend (length l)); [lia|exact HA|intros ? ? _ []]. }
  assert (HB : BlocksBuilt l (blocks_new l)) by (rewrite E; apply (blocks_extend_built [] []); constructor).
  split; [exact E|]. split; [exact HB|]. apply (C29_history l _ HB).
Qed.
Print Assumptions C31_new_refuted.
Print Assumptions C31_new_partial.
Example C31_nonvacuous : Adjacent [bk "t" [X] bd1; bk "t" [Y] bd2; bk "u" [] bd2] /\
  blocks_len_blocks (blocks_new [bk "t" [X] bd1; bk "t" [Y] bd2; bk "u" [] bd2]) = 3%nat.
Proof.
  split; [|reflexivity]. intros l1 b1 l2 b2 l3 E Ht b Hb.
  destruct l1 as [|? [|? [|? [|? ?]]]]; cbn in E; try discriminate E; injection E; clear E; intros; subst;
    destruct l2 as [|? [|? [|? ?]]]; cbn in *; try discriminate; try (injection H; clear H; intros; subst); cbn in *; try tauto;
    try discriminate; try congruence; destruct l2; discriminate.
Qed.

(** C32: counting and the three iterators agree. *)
Theorem C32_iterators_agree : forall m,
  length (blocks_flat_iter m) = blocks_len_blocks m /\
  blocks_flat_iter_mut m = blocks_flat_iter m /\
  map (fun e => (cow_str (fst (fst e)), map cow_str (snd (fst e)), snd e)) (blocks_flat_into_iter m) = blocks_flat_iter m.
Proof.
  intros m. split; [symmetry; apply blocks_len_flat|]. split; [reflexivity|]. unfold blocks_flat_into_iter, blocks_flat_iter.
  induction m as [|[k x] m IH]; [reflexivity|]. cbn [flat_map fst snd]. rewrite map_app, IH, map_map, <- (flat_into_iter_eq x), map_map.
  reflexivity.
Qed.
(** REFUTED: an entry may be hidden from [get] by a label written alike but of the
    other kind. *)
Theorem C32_reachable_refuted : exists h m p body, BlocksBuilt h m /\ In (lit "t", p, body) (blocks_flat_iter m) /\
  forall node, blocks_get m (lit "t") p = Some node -> ~ In body (get_empty node).
Proof.
  exists [bk "t" [LString (lit "x")] bd1; bk "t" [LIdent (Borrowed (lit "x"))] bd2]. do 3 eexists. split; [|split].
  - eapply (BB_append [bk "t" [LString (lit "x")] bd1]); [|apply ReorderBlocks_refl].
    apply (BB_append [] []); [constructor|apply ReorderBlocks_refl].
  - cbn. right. left. reflexivity.
  - intros node [= <-]. cbn. intros [H|[]]. discriminate.
Qed.
(** What holds: with consistently written labels, [get] with the labels of an entry
    yields exactly the entries with these labels, in iteration order. *)
Theorem C32_reachable_partial : forall h m, BlocksBuilt h m ->
  forall k b, In (k, b) m -> Consistent (history_labels (of_type (cow_str k) h)) ->
  forall p, (forall node, blocks_get m (cow_str k) p = Some node ->
               get_empty node = map snd (filter (fun e => path_eqb (fst e) p) (flat_iter b))) /\
            (forall body, In (p, body) (flat_iter b) -> exists node, blocks_get m (cow_str k) p = Some node /\ In body (get_empty node)).
Proof.
  intros h m HB k b Hkb HC p. destruct (BlocksBuilt_inv h m HB) as (HD & HBu & _). destruct (HBu _ _ Hkb) as [Hb _].
  rewrite (blocks_get_in m k b _ p HD Hkb eq_refl). destruct (Built_good _ _ Hb) as [HG _]. pose proof (Good_unamb _ HC _ HG) as HU.
  pose proof (bodies_at_flat b p HU) as Hat. unfold bodies_at in Hat. split.
  - intros node Hn. rewrite Hn in Hat. exact Hat.
  - intros body Hin. assert (Hi : In body (map snd (filter (fun e => path_eqb (fst e) p) (flat_iter b)))).
    { apply in_map_iff. exists (p, body). split; [reflexivity|]. apply filter_In. split; [exact Hin|apply path_eqb_eq; reflexivity]. }
    rewrite <- Hat in Hi. destruct (bget b p) as [node|]; [eauto|destruct Hi].
Qed.
(** [get] never invents anything: what it finds is iterated under these labels. *)
Lemma bget_flat : forall p b node body, bget b p = Some node -> In body (get_empty node) -> In (p, body) (flat_iter b).
Proof.
  induction p as [|q ps IH]; intros b node body H Hin.
  - injection H as <-. destruct b; cbn in *; [|apply in_app_iff; left]; apply in_map_iff; eauto.
  - destruct b as [bs|e m]; [discriminate|]. cbn in H. destruct (find _ m) as [[k x]|] eqn:E; [|discriminate].
    apply find_some in E as [Hkx Hk]. apply str_eqb_eq in Hk. cbn in *. apply in_app_iff. right. apply in_flat_map. exists (k, x).
    split; [exact Hkx|]. apply in_map_iff. exists (ps, body). cbn. split; [congruence|]. eapply IH; eassumption.
Qed.
Theorem C32_get_is_iterated : forall m t p node body, blocks_get m t p = Some node -> In body (get_empty node) ->
  In (t, p, body) (blocks_flat_iter m).
Proof.
  intros m t p node body H Hin. unfold blocks_get in H. destruct (find _ m) as [[k x]|] eqn:E; [|discriminate].
  apply find_some in E as [Hkx Hk]. apply str_eqb_eq in Hk. cbn in Hk. unfold blocks_flat_iter. apply in_flat_map. exists (k, x).
  split; [exact Hkx|]. apply in_map_iff. exists (p, body). cbn. split; [congruence|]. eapply bget_flat; eassumption.
Qed.
Print Assumptions C32_iterators_agree.
Print Assumptions C32_reachable_refuted.
Print Assumptions C32_reachable_partial.
Print Assumptions C32_get_is_iterated.
Example C32_nonvacuous : blocks_flat_iter (blocks_extend [] [bk "t" [X; Y] bd1; bk "t" [X] bd2; bk "t" [] bd1]) =
  [(lit "t", [], bd1); (lit "t", [lit "x"], bd2); (lit "t", [lit "x"; lit "y"], bd1)].
Proof. reflexivity. Qed.

(** [into_iter] moves the labels out: a quoted label comes as owned text, an identifier as it
    was kept (borrowed from the document or owned). *)
Inductive AtLabels : bbody -> list label -> body_t -> Prop :=
| AL_body bodies body : In body bodies -> AtLabels (BBody bodies) [] body
| AL_here e m body : In body e -> AtLabels (BLabels e m) [] body
| AL_under e m l x ls body : In (l, x) m -> AtLabels x ls body -> AtLabels (BLabels e m) (l :: ls) body.
Definition MovedOut (l : label) (c : cow) : Prop := match l with LString s => c = Owned s | LIdent i => c = i end.
Lemma flat_into_iter_moved b : forall p body, In (p, body) (flat_into_iter b) <-> exists ls, AtLabels b ls body /\ Forall2 MovedOut ls p.
Proof.
  induction b as [bs|e m IH] using bbody_ind'; intros p body; cbn [flat_into_iter].
  - rewrite in_map_iff. split.
    + intros (x & [= <- <-] & Hx). exists []. split; [constructor; exact Hx|constructor].
    + intros (ls & H & HF). inversion H; subst. inversion HF; subst. eauto.
  - rewrite in_app_iff, in_map_iff, in_flat_map. rewrite Forall_forall in IH. split.
    + intros [(x & [= <- <-] & Hx)|([l x] & Hin & Hp)]; [exists []; split; [apply AL_here; exact Hx|constructor]|].
      apply in_map_iff in Hp as ([q bd] & [= <- <-] & Hq). destruct (proj1 (IH _ Hin q bd) Hq) as (ls & HA & HF).
      exists (l :: ls). split; [eapply AL_under; eassumption|constructor; [destruct l; reflexivity|exact HF]].
    + intros (ls & H & HF). inversion H as [|? ? ? Hx|? ? l x ls' ? Hin HA]; subst; inversion HF as [|? c ? p' Hc HF']; subst; [left; eauto|]. right.
      exists (l, x). split; [exact Hin|]. apply in_map_iff. exists (p', body). split; [destruct l; cbn in Hc; subst; reflexivity|].
      apply (IH _ Hin). eauto.
Qed.
Theorem C32_into_iter_moved : forall m t p body, In (t, p, body) (blocks_flat_into_iter m) <->
  exists b ls, In (t, b) m /\ AtLabels b ls body /\ Forall2 MovedOut ls p.
Proof.
  intros m t p body. unfold blocks_flat_into_iter. rewrite in_flat_map. split.
  - intros ([k b] & Hin & H). apply in_map_iff in H as ([q bd] & [= -> -> ->] & Hq). apply flat_into_iter_moved in Hq as (ls & HA & HF). eauto.
  - intros (b & ls & Hin & HA & HF). exists (t, b). split; [exact Hin|]. apply in_map_iff. exists (p, body). split; [reflexivity|].
    apply flat_into_iter_moved. eauto.
Qed.
Theorem C32_as_cow : forall l, MovedOut l (label_cow l).
Proof. intros [s|i]; reflexivity. Qed.
(** [len] is the number of different types appended, [is_empty] says that nothing was. *)
Theorem C32_len : forall h m, BlocksBuilt h m ->
  (exists ts, NoDup ts /\ (forall t, In t ts <-> exists b, In b h /\ cow_str (b_type b) = t) /\ blocks_len m = length ts) /\
  (blocks_is_empty m = true <-> h = []).
Proof.
  intros h m HB. destruct (BlocksBuilt_inv h m HB) as (HD & HT & HE). split.
  - exists (map (fun kv => cow_str (fst kv)) m). split; [exact HD|]. split; [|unfold blocks_len; symmetry; apply map_length].
    intros t. rewrite in_map_iff. split.
    + intros ([k x] & <- & Hin). destruct (HT _ _ Hin) as [_ Hne]. cbn [fst]. destruct (of_type (cow_str k) h) as [|y l] eqn:E; [congruence|].
      assert (Hy : In y (of_type (cow_str k) h)) by (rewrite E; left; reflexivity). unfold of_type in Hy.
      apply in_map_iff in Hy as (b & _ & Hb). apply filter_In in Hb as [Hb Ht]. exists b. split; [exact Hb|apply str_eqb_eq, Ht].
    + intros (b & Hb & <-). destruct (HE _ Hb) as (k & x & H & E). exists (k, x). auto.
  - unfold blocks_is_empty, blocks_len. rewrite Nat.eqb_eq, length_zero_iff_nil. split.
    + intros ->. destruct h as [|b h]; [reflexivity|]. destruct (HE b (or_introl eq_refl)) as (k & x & [] & _).
    + intros ->. destruct m as [|[k x] m]; [reflexivity|]. destruct (HT k x (or_introl eq_refl)) as [_ H]. elim H. reflexivity.
Qed.
(** Whatever the collection: it is empty exactly if it has no type. *)
Theorem C32_is_empty : forall m, blocks_is_empty m = true <-> m = [].
Proof. intros m. unfold blocks_is_empty, blocks_len. rewrite Nat.eqb_eq, length_zero_iff_nil. reflexivity. Qed.
Print Assumptions C32_into_iter_moved.
Print Assumptions C32_as_cow.
Print Assumptions C32_len.
Print Assumptions C32_is_empty.
Example C32_len_nonvacuous :
  blocks_len (blocks_extend [] [bk "t" [X; Y] bd1; bk "u" [X] bd2; bk "t" [] bd1]) = 2%nat /\
  blocks_flat_into_iter (blocks_extend [] [bk "t" [X; LIdent (Borrowed (lit "i"))] bd1]) =
    [(Borrowed (lit "t"), [Owned (lit "x"); Borrowed (lit "i")], bd1)].
Proof. split; reflexivity. Qed.

(** C33: for every collection built from blocks, under each type [label_lens] is
    the set of the label counts of the entries iterated (increasing, none twice). *)
Lemma set_insert_sorted n s : StronglySorted lt s -> StronglySorted lt (set_insert n s).
Proof.
  induction s as [|x s IH]; intros H; cbn [set_insert]; [repeat constructor|]. inversion H as [|? ? HS HF]; subst.
  destruct (Nat.eqb_spec n x) as [->|Hn]; [exact H|]. destruct (Nat.ltb_spec n x) as [Hl|Hl].
  - constructor; [exact H|]. constructor; [exact Hl|]. eapply Forall_impl; [|exact HF]. intros; lia.
  - constructor; [apply IH, HS|]. rewrite Forall_forall in *. intros y Hy. apply set_insert_in in Hy as [->|Hy]; [lia|apply HF, Hy].
Qed.
Lemma label_lens_sorted b : StronglySorted lt (label_lens b).
Proof.
  assert (H : forall l, StronglySorted lt (set_collect l)).
  { intros l. unfold set_collect. assert (H : forall s, StronglySorted lt s -> StronglySorted lt (fold_left (fun s n => set_insert n s) l s)).
    { induction l as [|n l IH]; intros s Hs; [exact Hs|]. apply IH, set_insert_sorted, Hs. }
    apply H. constructor. }
  destruct b as [bs|[|b e] m]; cbn [label_lens]; apply H.
Qed.
Theorem C33_label_lens : forall h m, BlocksBuilt h m -> forall k b, In (k, b) m ->
  In (cow_str k, label_lens b) (blocks_label_lens m) /\ StronglySorted lt (label_lens b) /\
  forall n, In n (label_lens b) <-> exists p body, In (p, body) (flat_iter b) /\ length p = n.
Proof.
  intros h m HB k b Hkb. destruct (BlocksBuilt_inv h m HB) as (_ & HBu & _). destruct (HBu _ _ Hkb) as [Hb Hne].
  destruct (Built_good _ _ Hb) as [HG HN]. split; [|split; [apply label_lens_sorted|]].
  - apply in_map_iff. exists (k, b). auto.
  - apply (label_lens_flat _ b HG (HN Hne)).
Qed.
Theorem C33_label_lens_body : forall h b, Built h b -> h <> [] -> StronglySorted lt (label_lens b) /\
  forall n, In n (label_lens b) <-> exists p body, In (p, body) (flat_iter b) /\ length p = n.
Proof.
  intros h b Hb Hne. destruct (Built_good _ _ Hb) as [HG HN]. split; [apply label_lens_sorted|]. apply (label_lens_flat _ b HG (HN Hne)).
Qed.
Print Assumptions C33_label_lens.
Print Assumptions C33_label_lens_body.
Example C33_nonvacuous : label_lens (extend bdefault [([X; Y], bd1); ([X], bd2); ([], bd1)]) = [0; 1; 2]%nat.
Proof. reflexivity. Qed.

(** C34: REFUTED: the number returned ignores the labels above it, so it is 0 for
    blocks that all have one label, and blocks with different numbers of labels are
    reported uniform. *)
Theorem C34_value_refuted : exists h b, Built h b /\ label_lens b = [1%nat] /\ label_lens_uniform b = Some 0%nat.
Proof. exists [([X], bd1)], (append bdefault [X] bd1). split; [apply Built_one|]. split; reflexivity. Qed.
Theorem C34_is_uniform_refuted : exists h b, Built h b /\ label_lens b = [1; 2]%nat /\ is_label_lens_uniform b = true.
Proof.
  exists [([X; Y], bd1); ([Z'], bd2)]. eexists. split; [|split].
  - eapply (Built_append [([X; Y], bd1)] _ [Z'] bd2); [apply Built_one|apply Reorder_refl].
  - reflexivity.
  - reflexivity.
Qed.
(** What holds: the value is always 0 when there is one; blocks without labels are
    reported exactly; and there are no false negatives. *)
Theorem C34_uniform_partial : forall h b, Built h b -> h <> [] ->
  (forall n, label_lens_uniform b = Some n -> n = 0%nat) /\
  ((forall p body, In (p, body) (flat_iter b) -> p = []) -> label_lens_uniform b = Some 0%nat) /\
  (forall n, (forall x, In x (label_lens b) <-> x = n) -> is_label_lens_uniform b = true).
Proof.
  intros h b Hb Hne. destruct (Built_good _ _ Hb) as [HG HN]. split; [apply uniform_zero|]. split.
  - intros H. apply (uniform_complete _ b HG (HN Hne) 0%nat). intros p body Hp. rewrite (H _ _ Hp). reflexivity.
  - intros n Hn. unfold is_label_lens_uniform. rewrite (uniform_complete _ b HG (HN Hne) n); [reflexivity|].
    intros p body Hp. apply Hn, (label_lens_flat _ b HG (HN Hne)). eauto.
Qed.
(** The per-type listings of [Blocks] are those of its entries, for every index. *)
Theorem C34_per_type : forall m t,
  (forall x, In (t, x) (blocks_label_lens_uniform m) <-> exists k b, In (k, b) m /\ cow_str k = t /\ label_lens_uniform b = x) /\
  (forall x, In (t, x) (blocks_is_label_lens_uniform m) <-> exists k b, In (k, b) m /\ cow_str k = t /\
     (x = true <-> exists n, label_lens_uniform b = Some n)).
Proof.
  intros m t. split; intros x; unfold blocks_label_lens_uniform, blocks_is_label_lens_uniform; rewrite in_map_iff; split.
  - intros ([k b] & [= <- <-] & H). eauto.
  - intros (k & b & H & <- & <-). exists (k, b). auto.
  - intros ([k b] & [= <- <-] & H). exists k, b. split; [exact H|]. split; [reflexivity|]. cbn [snd]. unfold is_label_lens_uniform.
    destruct (label_lens_uniform b); [split; eauto|]. split; [discriminate|intros [? ?]; discriminate].
  - intros (k & b & H & <- & Hx). exists (k, b). split; [|exact H]. cbn [fst snd]. f_equal. unfold is_label_lens_uniform.
    destruct (label_lens_uniform b), x; try reflexivity; exfalso.
    + destruct Hx as [_ Hx]. discriminate Hx. eauto.
    + destruct Hx as [Hx _]. destruct (Hx eq_refl). discriminate.
Qed.
Print Assumptions C34_per_type.
Print Assumptions C34_value_refuted.
Print Assumptions C34_is_uniform_refuted.
Print Assumptions C34_uniform_partial.
Example C34_nonvacuous : label_lens_uniform (extend bdefault [([X], bd1); ([], bd2)]) = None /\
  label_lens_uniform (extend bdefault [([], bd1); ([], bd2)]) = Some 0%nat.
Proof. split; reflexivity. Qed.

(** C35 *)
Theorem C35_extend_batches : forall m l l', blocks_extend m (l ++ l') = blocks_extend (blocks_extend m l) l'.
Proof. intros. apply fold_left_app. Qed.
Theorem C35_extend_built : forall h m l, BlocksBuilt h m -> BlocksBuilt (h ++ l) (blocks_extend m l).
Proof. intros h m l H. apply blocks_extend_built, H. Qed.
(** Bodies stored under the same labels keep the order of the blocks: what is stored
    under a path is a list of bodies of the history in order. *)
Inductive Sublist {A} : list A -> list A -> Prop :=
| Sub_nil : Sublist [] []
| Sub_skip a l l' : Sublist l l' -> Sublist l (a :: l')
| Sub_keep a l l' : Sublist l l' -> Sublist (a :: l) (a :: l').
Lemma Sublist_app {A} (l1 l1' l2 l2' : list A) : Sublist l1 l1' -> Sublist l2 l2' -> Sublist (l1 ++ l2) (l1' ++ l2').
Proof. intros H1 H2. induction H1; cbn; auto using @Sublist. Qed.
Theorem C35_order : forall h b, Built h b -> Consistent (history_labels h) ->
  forall p, Sublist (match bget b p with Some node => get_empty node | None => [] end) (map snd h).
Proof.
  intros h b HB. induction HB as [|h b ls body b' HB IH HR]; intros HC p; [destruct p; constructor|].
  assert (HC' : Consistent (all_labels h ls)).
  { unfold all_labels. unfold history_labels in *. rewrite flat_map_app in HC. cbn in HC. rewrite app_nil_r in HC. exact HC. }
  destruct (C30_append_get_partial h b ls body b' HB HC' HR) as (p0 & _ & _ & _ & Hq). specialize (Hq p). unfold bodies_at in Hq.
  rewrite Hq, map_app. apply Sublist_app.
  - apply IH. intros a c Ha Hc. apply HC'; apply in_app_iff; auto.
  - cbn. destruct (path_eqb p p0); [apply Sub_keep|apply Sub_skip]; constructor.
Qed.
Print Assumptions C35_extend_batches.
Print Assumptions C35_extend_built.
Print Assumptions C35_order.
Example C35_nonvacuous :
  match blocks_get (blocks_extend [] [bk "t" [X] bd2; bk "u" [] bd1; bk "t" [X] bd1]) (lit "t") [lit "x"] with
  | Some n => get_empty n = [bd2; bd1] | None => False end.
Proof. reflexivity. Qed.

(** C36: REFUTED: labels of different kinds with the same text hash and borrow
    alike but differ, so the table can hold both, and looking up the text finds only
    one of them. *)
Theorem C36_borrow_refuted : exists a b, label_str a = label_str b /\ label_hash_input a = label_hash_input b /\ label_eqb a b = false.
Proof. exists (LString (lit "x")), (LIdent (Borrowed (lit "x"))). repeat split. Qed.
(** What holds: equal labels have the same text and hash; a label equals a text iff
    it is its text; the lookup finds a label with the text iff there is one. *)
Theorem C36_labels_partial : forall a b, label_eqb a b = true -> label_str a = label_str b /\ label_hash_input a = label_hash_input b.
Proof. intros a b H. apply label_eqb_str in H. auto. Qed.
Theorem C36_eq_str : forall l s, label_eq_str l s = true <-> label_str l = s.
Proof. intros [t|t] s; cbn; apply str_eqb_eq. Qed.
Theorem C36_equivalence : (forall a, label_eqb a a = true) /\ (forall a b, label_eqb a b = label_eqb b a) /\
  (forall a b c, label_eqb a b = true -> label_eqb b c = true -> label_eqb a c = true).
Proof.
  split; [apply label_eqb_refl|]. split.
  - intros a b. destruct (label_eqb a b) eqn:E.
    + apply label_eqb_keyid in E. symmetry. apply label_eqb_keyid. congruence.
    + destruct (label_eqb b a) eqn:E'; [|reflexivity]. apply label_eqb_keyid in E'. symmetry in E'. apply label_eqb_keyid in E'. congruence.
  - intros a b c. rewrite !label_eqb_keyid. congruence.
Qed.
Theorem C36_lookup_partial : forall e m s, (exists k x, In (k, x) m /\ label_str k = s) <-> bget (BLabels e m) [s] <> None.
Proof.
  intros e m s. cbn. split.
  - intros (k & x & Hin & Hk). destruct (find _ m) as [[k' y]|] eqn:E; [discriminate|].
    apply (find_none _ _ E) in Hin. cbn in Hin. apply str_eqb_neq in Hin. contradiction.
  - destruct (find _ m) as [[k y]|] eqn:E; [|congruence]. intros _. apply find_some in E as [Hin Hk]. apply str_eqb_eq in Hk. eauto.
Qed.
Print Assumptions C36_borrow_refuted.
Print Assumptions C36_labels_partial.
Print Assumptions C36_eq_str.
Print Assumptions C36_equivalence.
Print Assumptions C36_lookup_partial.
Example C36_nonvacuous : label_eqb (LIdent (Borrowed (lit "x"))) (LIdent (Owned (lit "x"))) = true.
Proof. reflexivity. Qed.

(** C37 *)
Inductive NodeOf : bbody -> bbody -> Prop :=
| NO_self b : NodeOf b b
| NO_child e m k x n : In (k, x) m -> NodeOf x n -> NodeOf (BLabels e m) n.
Theorem C37_no_empty_labels : forall h b, Built h b -> forall n, NodeOf b n ->
  (forall m, get_labels n = Some m -> m <> []) /\
  (has_further_labels n = true <-> get_labels n <> None).
Proof.
  intros h b HB n Hn. destruct (Built_good _ _ HB) as [HG _].
  assert (HGn : Good (fun l => In l (history_labels h)) n).
  { clear HB. induction Hn as [b|e m k x n Hin _ IH]; [exact HG|]. apply IH. inversion HG as [|e' m' H1 H2 H3]; subst.
    rewrite Forall_forall in H3. apply (H3 _ Hin). }
  inversion HGn as [bs|e m H1 H2 H3]; subst; cbn.
  - split; [discriminate|]. split; [discriminate|congruence].
  - split; [intros m' [= <-]; exact H1|]. destruct m; [congruence|]. split; [discriminate|reflexivity].
Qed.
(** [has_further_labels] is true exactly when some label is stored - for every value of the
    type, also one not built by appending. *)
Theorem C37_has_further_labels : forall b, has_further_labels b = true <-> exists k x m, get_labels b = Some m /\ In (k, x) m.
Proof.
  intros [bs|e [|[k x] m]]; cbn.
  - split; [discriminate|intros (? & ? & ? & ? & _); discriminate].
  - split; [discriminate|intros (? & ? & ? & [= <-] & [])].
  - split; [|reflexivity]. intros _. exists k, x. eexists. split; [reflexivity|left; reflexivity].
Qed.
Print Assumptions C37_has_further_labels.
(** Also nothing stored is empty: each node below the top holds some block. *)
Theorem C37_no_empty_node : forall h m, BlocksBuilt h m -> forall k b, In (k, b) m -> (0 < len_blocks b)%nat.
Proof.
  intros h m HB k b Hkb. destruct (BlocksBuilt_inv h m HB) as (_ & HBu & _). destruct (HBu _ _ Hkb) as [Hb Hne].
  destruct (Built_good _ _ Hb) as [HG HN]. rewrite len_blocks_flat. pose proof (nonempty_flat _ b HG (HN Hne)) as H.
  destruct (flat_iter b); [congruence|cbn; lia].
Qed.
Print Assumptions C37_no_empty_labels.
Print Assumptions C37_no_empty_node.
Example C37_nonvacuous : NodeOf (append (append bdefault [X; Y] bd1) [] bd2) (BLabels [] [(Y, BBody [bd1])]).
Proof. eapply NO_child; [left; reflexivity|constructor]. Qed.
