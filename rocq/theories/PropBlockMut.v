(** * PropBlockMut: C78, changes through [get_mut], [flat_iter_mut] and [iter_mut] *)
From Coq Require Import Permutation Lia.
From Verif Require Import Base Ast NomFacts Blocks BlockMut BlockSpec BlockProofs.

(** ** [get_mut] *)
Definition hm_upd (p : str) (g : bbody -> option bbody) : list (label * bbody) -> option (list (label * bbody)) :=
  fix hm_get_mut (m : list (label * bbody)) : option (list (label * bbody)) :=
   match m with
   | [] => None
   | (k, x) :: m' =>
       if str_eqb (label_str k) p
       then option_map (fun x' => (k, x') :: m') (g x)
       else option_map (cons (k, x)) (hm_get_mut m')
   end.
Lemma bupdate_labels : forall e m p ps f,
  bupdate (BLabels e m) (p :: ps) f = option_map (BLabels e) (hm_upd p (fun x => bupdate x ps f) m).
Proof. intros. cbn [bupdate]. f_equal. Qed.
Lemma hm_upd_find : forall p g m,
  hm_upd p g m = match find (fun kv => str_eqb (label_str (fst kv)) p) m with
                 | None => None
                 | Some (_, x) => match g x with None => None | Some _ => hm_upd p g m end
                 end.
Proof.
  intros p g m. induction m as [|[k x] m IH]; [reflexivity|]. cbn [hm_upd find fst].
  destruct (str_eqb (label_str k) p); [destruct (g x); reflexivity|].
  rewrite IH. destruct (find _ m) as [[k' x']|]; [|reflexivity]. destruct (g x'); [|reflexivity]. reflexivity.
Qed.
Lemma hm_upd_spec : forall p g m m', hm_upd p g m = Some m' ->
  exists pre k x x' post, m = pre ++ (k, x) :: post /\ m' = pre ++ (k, x') :: post /\ g x = Some x' /\ label_str k = p /\
    (forall kv, In kv pre -> label_str (fst kv) <> p).
Proof.
  intros p g m. induction m as [|[k x] m IH]; intros m' H; [discriminate|]. cbn [hm_upd] in H.
  destruct (str_eqb (label_str k) p) eqn:E.
  - destruct (g x) as [x'|] eqn:Eg; [|discriminate]. injection H as <-.
    exists [], k, x, x', m. repeat split; [exact Eg|apply str_eqb_eq, E|intros ? []].
  - destruct (hm_upd p g m) as [m1|] eqn:Em; [|discriminate]. injection H as <-.
    destruct (IH m1 eq_refl) as (pre & k0 & x0 & x1 & post & -> & -> & Hg & Hk & Hpre).
    exists ((k, x) :: pre), k0, x0, x1, post. repeat split; [exact Hg|exact Hk|].
    intros kv [<-|Hin]; [|apply Hpre, Hin]. cbn. intros Hp. apply str_eqb_eq in Hp. congruence.
Qed.
Lemma find_app_none : forall {A} (f : A -> bool) l1 l2, (forall x, In x l1 -> f x = false) -> find f (l1 ++ l2) = find f l2.
Proof.
  intros A f l1. induction l1 as [|a l1 IH]; intros l2 H; [reflexivity|]. cbn. rewrite (H a (or_introl eq_refl)).
  apply IH. intros x Hx. apply H. right. exact Hx.
Qed.
Lemma find_app_some : forall {A} (f : A -> bool) l1 l2 x, find f l1 = Some x -> find f (l1 ++ l2) = Some x.
Proof.
  intros A f l1. induction l1 as [|a l1 IH]; intros l2 x H; [discriminate|]. cbn in *. destruct (f a); [exact H|apply IH, H].
Qed.
Lemma str_eqb_false : forall a b, str_eqb a b = false <-> a <> b.
Proof.
  intros a b. destruct (str_eqb a b) eqn:E; split; intros H.
  - discriminate.
  - apply str_eqb_eq in E. contradiction.
  - intros ->. rewrite (proj2 (str_eqb_eq b b) eq_refl) in E. discriminate.
  - reflexivity.
Qed.

(** The reference is given out exactly when [get] finds the node. *)
Theorem C78_get_mut_iff_get : forall b path f, bupdate b path f = None <-> bget b path = None.
Proof.
  intros b path f. revert b. induction path as [|p ps IH]; intros b; [split; intros H; discriminate H|].
  destruct b as [bs|e m]; [split; reflexivity|]. rewrite bupdate_labels. cbn [bget].
  rewrite hm_upd_find. destruct (find _ m) as [[k x]|] eqn:E; [|split; reflexivity]. specialize (IH x).
  destruct (bupdate x ps f) as [x'|] eqn:Ex.
  - destruct (hm_upd p (fun x => bupdate x ps f) m) eqn:Em.
    + cbn. split; [discriminate|]. intros H. apply IH in H. discriminate.
    + exfalso. clear IH. revert E Em. induction m as [|[k0 x0] m IHm]; [discriminate|]. cbn [find hm_upd fst].
      destruct (str_eqb (label_str k0) p).
      * intros [= -> ->]. rewrite Ex. discriminate.
      * intros E Em. destruct (hm_upd p _ m) eqn:Em1; [discriminate|]. apply IHm; assumption.
  - cbn. split; [intros _; apply IH; reflexivity|reflexivity].
Qed.

Lemma bupdate_step : forall e m p ps f b', bupdate (BLabels e m) (p :: ps) f = Some b' ->
  exists pre k x x' post, m = pre ++ (k, x) :: post /\ b' = BLabels e (pre ++ (k, x') :: post) /\ bupdate x ps f = Some x' /\
    label_str k = p /\ (forall kv, In kv pre -> label_str (fst kv) <> p).
Proof.
  intros e m p ps f b' H. rewrite bupdate_labels in H. destruct (hm_upd p _ m) as [m'|] eqn:E; [|discriminate]. injection H as <-.
  destruct (hm_upd_spec _ _ _ _ E) as (pre & k & x & x' & post & Hm & Hm' & Hg & Hk & Hpre). subst.
  exists pre, k, x, x', post. auto.
Qed.
Lemma find_at : forall pre k (x : bbody) post p, label_str k = p -> (forall kv, In kv pre -> label_str (fst kv) <> p) ->
  find (fun kv => str_eqb (label_str (fst kv)) p) (pre ++ (k, x) :: post) = Some (k, x).
Proof.
  intros pre k x post p Hk Hpre. rewrite find_app_none.
  - cbn. rewrite (proj2 (str_eqb_eq _ _) Hk). reflexivity.
  - intros kv Hin. apply str_eqb_false, Hpre, Hin.
Qed.
Lemma find_other : forall pre k (x x' : bbody) post q, label_str k <> q ->
  find (fun kv => str_eqb (label_str (fst kv)) q) (pre ++ (k, x') :: post) =
  find (fun kv => str_eqb (label_str (fst kv)) q) (pre ++ (k, x) :: post).
Proof.
  intros pre k x x' post q Hk. induction pre as [|a pre IH].
  - cbn. rewrite (proj2 (str_eqb_false _ _) Hk). reflexivity.
  - cbn. rewrite IH. reflexivity.
Qed.

(** After the change, [get] with the same labels finds the changed node; with labels
    that go on from there, what the changed node has there. *)
Theorem C78_get_after_get_mut : forall b path f b', bupdate b path f = Some b' ->
  exists node, bget b path = Some node /\ bget b' path = Some (f node) /\
  forall further, bget b' (path ++ further) = bget (f node) further.
Proof.
  intros b path f. revert b. induction path as [|p ps IH]; intros b b' H.
  - injection H as <-. exists b. repeat split.
  - destruct b as [bs|e m]; [discriminate|].
    destruct (bupdate_step _ _ _ _ _ _ H) as (pre & k & x & x' & post & -> & -> & Hx & Hk & Hpre).
    destruct (IH _ _ Hx) as (node & H1 & H2 & H3). exists node. cbn [bget app].
    rewrite !find_at by assumption. auto.
Qed.
(** With labels that lead elsewhere, what it found before. *)
Theorem C78_get_mut_elsewhere : forall b path f b' other, bupdate b path f = Some b' ->
  ~ is_prefix path other -> ~ is_prefix other path -> bget b' other = bget b other.
Proof.
  intros b path f. revert b. induction path as [|p ps IH]; intros b b' other H Hn1 Hn2.
  - destruct Hn1. exists other. reflexivity.
  - destruct b as [bs|e m]; [discriminate|].
    destruct (bupdate_step _ _ _ _ _ _ H) as (pre & k & x & x' & post & -> & -> & Hx & Hk & Hpre).
    destruct other as [|q qs]; [destruct Hn2; exists (p :: ps); reflexivity|]. cbn [bget].
    destruct (str_eqb p q) eqn:E.
    + apply str_eqb_eq in E. subst q. rewrite !find_at by assumption. apply (IH _ _ qs Hx).
      * intros [r ->]. apply Hn1. exists r. reflexivity.
      * intros [r ->]. apply Hn2. exists r. reflexivity.
    + apply str_eqb_false in E. rewrite (find_other pre k x x' post q) by congruence. reflexivity.
Qed.
(** Fewer labels: the node there, with the change made below it. *)
Theorem C78_get_mut_above : forall b path further f b', bupdate b (path ++ further) f = Some b' ->
  exists node node', bget b path = Some node /\ bget b' path = Some node' /\ bupdate node further f = Some node'.
Proof.
  intros b path. revert b. induction path as [|p ps IH]; intros b further f b' H.
  - exists b, b'. repeat split. exact H.
  - destruct b as [bs|e m]; [discriminate|]. cbn [app] in H.
    destruct (bupdate_step _ _ _ _ _ _ H) as (pre & k & x & x' & post & -> & -> & Hx & Hk & Hpre).
    destruct (IH _ _ _ _ Hx) as (node & node' & H1 & H2 & H3). exists node, node'. cbn [bget].
    rewrite !find_at by assumption. auto.
Qed.

Definition under (path : list str) (l : list (list str * body_t)) : list (list str * body_t) :=
  map (fun e => (path ++ fst e, snd e)) l.
(** In iteration: the blocks below the node are replaced by those below the changed
    node, all others keep place, labels and body. *)
Theorem C78_get_mut_iteration : forall b path f b', bupdate b path f = Some b' ->
  exists node before after, bget b path = Some node /\
    flat_iter b = before ++ under path (flat_iter node) ++ after /\
    flat_iter b' = before ++ under path (flat_iter (f node)) ++ after.
Proof.
  intros b path f. revert b. induction path as [|p ps IH]; intros b b' H.
  - injection H as <-. exists b, [], []. unfold under. cbn [app]. rewrite !app_nil_r.
    repeat split; (rewrite <- (map_id (flat_iter _)) at 1; apply map_ext; intros [? ?]; reflexivity).
  - destruct b as [bs|e m]; [discriminate|].
    destruct (bupdate_step _ _ _ _ _ _ H) as (pre & k & x & x' & post & -> & -> & Hx & Hk & Hpre).
    destruct (IH _ _ Hx) as (node & before & after & H1 & H2 & H3).
    set (add := fun e : list str * body_t => (p :: fst e, snd e)).
    set (g := fun kv : label * bbody => map (fun pb => (label_str (fst kv) :: fst pb, snd pb)) (flat_iter (snd kv))).
    exists node, (map (fun body => ([], body)) e ++ flat_map g pre ++ map add before), (map add after ++ flat_map g post).
    split; [cbn [bget]; rewrite find_at by assumption; exact H1|].
    assert (HU : forall l, under (p :: ps) l = map add (under ps l)).
    { intros l. unfold under, add. rewrite map_map. reflexivity. }
    rewrite !HU. cbn [flat_iter]. rewrite !flat_map_app. cbn [flat_map fst snd]. rewrite H2, H3, !map_app. unfold add at 5 6. subst p.
    rewrite <- !app_assoc. split; reflexivity.
Qed.
Theorem C78_get_mut_count : forall b path f b' node, bupdate b path f = Some b' -> bget b path = Some node ->
  (len_blocks b' + len_blocks node = len_blocks b + len_blocks (f node))%nat.
Proof.
  intros b path f b' node H Hn. destruct (C78_get_mut_iteration _ _ _ _ H) as (node' & before & after & H1 & H2 & H3).
  rewrite Hn in H1. injection H1 as <-. rewrite !len_blocks_flat, H2, H3. unfold under. rewrite !app_length, !map_length. lia.
Qed.

(** The same for [Blocks::get_mut]. *)
Lemma blocks_update_spec : forall t path f m m', blocks_update m t path f = Some m' ->
  exists pre k x x' post, m = pre ++ (k, x) :: post /\ m' = pre ++ (k, x') :: post /\ bupdate x path f = Some x' /\ cow_str k = t /\
    (forall kv, In kv pre -> cow_str (fst kv) <> t).
Proof.
  intros t path f m. induction m as [|[k x] m IH]; intros m' H; [discriminate|]. cbn [blocks_update] in H.
  destruct (str_eqb (cow_str k) t) eqn:E.
  - destruct (bupdate x path f) as [x'|] eqn:Eg; [|discriminate]. injection H as <-.
    exists [], k, x, x', m. repeat split; [exact Eg|apply str_eqb_eq, E|intros ? []].
  - destruct (blocks_update m t path f) as [m1|] eqn:Em; [|discriminate]. injection H as <-.
    destruct (IH m1 eq_refl) as (pre & k0 & x0 & x1 & post & -> & -> & Hg & Hk & Hpre).
    exists ((k, x) :: pre), k0, x0, x1, post. repeat split; [exact Hg|exact Hk|].
    intros kv [<-|Hin]; [|apply Hpre, Hin]. cbn. apply str_eqb_false, E.
Qed.
Lemma bfind_at : forall pre k (x : bbody) post t, cow_str k = t -> (forall kv, In kv pre -> cow_str (fst kv) <> t) ->
  find (fun kv => str_eqb (cow_str (fst kv)) t) (pre ++ (k, x) :: post) = Some (k, x).
Proof.
  intros pre k x post p Hk Hpre. rewrite find_app_none.
  - cbn. rewrite (proj2 (str_eqb_eq _ _) Hk). reflexivity.
  - intros kv Hin. apply str_eqb_false, Hpre, Hin.
Qed.
Lemma bfind_other : forall pre k (x x' : bbody) post q, cow_str k <> q ->
  find (fun kv => str_eqb (cow_str (fst kv)) q) (pre ++ (k, x') :: post) =
  find (fun kv => str_eqb (cow_str (fst kv)) q) (pre ++ (k, x) :: post).
Proof.
  intros pre k x x' post q Hk. induction pre as [|a pre IH].
  - cbn. rewrite (proj2 (str_eqb_false _ _) Hk). reflexivity.
  - cbn. rewrite IH. reflexivity.
Qed.
Theorem C78_blocks_get_mut_iff_get : forall m t path f, blocks_update m t path f = None <-> blocks_get m t path = None.
Proof.
  intros m t path f. unfold blocks_get. induction m as [|[k x] m IH]; [split; reflexivity|]. cbn [blocks_update find fst].
  destruct (str_eqb (cow_str k) t).
  - rewrite <- (C78_get_mut_iff_get x path f). destruct (bupdate x path f); cbn; (split; [discriminate 1 || reflexivity|]); intros H; (discriminate H || reflexivity).
  - rewrite <- IH. destruct (blocks_update m t path f); cbn; (split; [discriminate 1 || reflexivity|]); intros H; (discriminate H || reflexivity).
Qed.
Theorem C78_blocks_get_mut : forall m t path f m', blocks_update m t path f = Some m' ->
  (exists node, blocks_get m t path = Some node /\
     forall further, blocks_get m' t (path ++ further) = bget (f node) further) /\
  (forall other, ~ is_prefix path other -> ~ is_prefix other path -> blocks_get m' t other = blocks_get m t other) /\
  (forall t' other, t' <> t -> blocks_get m' t' other = blocks_get m t' other) /\
  map fst m' = map fst m.
Proof.
  intros m t path f m' H. destruct (blocks_update_spec _ _ _ _ _ H) as (pre & k & x & x' & post & -> & -> & Hx & Hk & Hpre).
  unfold blocks_get. split; [|split; [|split]].
  - destruct (C78_get_after_get_mut _ _ _ _ Hx) as (node & H1 & _ & H3). exists node. rewrite !bfind_at by assumption. split; [exact H1|].
    intros further. apply H3.
  - intros other H1 H2. rewrite !bfind_at by assumption. eapply C78_get_mut_elsewhere; eassumption.
  - intros t' other Ht. rewrite (bfind_other pre k x x' post t') by congruence. reflexivity.
  - rewrite !map_app. reflexivity.
Qed.
Theorem C78_blocks_get_mut_iteration : forall m t path f m', blocks_update m t path f = Some m' ->
  exists node before after, blocks_get m t path = Some node /\
    blocks_flat_iter m = before ++ map (fun e => (t, fst e, snd e)) (under path (flat_iter node)) ++ after /\
    blocks_flat_iter m' = before ++ map (fun e => (t, fst e, snd e)) (under path (flat_iter (f node))) ++ after.
Proof.
  intros m t path f m' H. destruct (blocks_update_spec _ _ _ _ _ H) as (pre & k & x & x' & post & -> & -> & Hx & Hk & Hpre).
  destruct (C78_get_mut_iteration _ _ _ _ Hx) as (node & before & after & H1 & H2 & H3). subst t.
  set (g := fun kv : cow * bbody => map (fun pb => (cow_str (fst kv), fst pb, snd pb)) (flat_iter (snd kv))).
  exists node, (flat_map g pre ++ map (fun pb => (cow_str k, fst pb, snd pb)) before),
    (map (fun pb => (cow_str k, fst pb, snd pb)) after ++ flat_map g post).
  split; [unfold blocks_get; rewrite bfind_at by (assumption || reflexivity); exact H1|].
  unfold blocks_flat_iter. rewrite !flat_map_app. cbn [flat_map fst snd]. rewrite H2, H3, !map_app, <- !app_assoc. split; reflexivity.
Qed.

(** ** [flat_iter_mut] *)
Lemma put_list_spec : forall bs new,
  (forall i, nth_error (fst (put_list bs new)) i =
     option_map (fun old => match nth_error new i with Some n => n | None => old end) (nth_error bs i)) /\
  snd (put_list bs new) = skipn (length bs) new /\ length (fst (put_list bs new)) = length bs.
Proof.
  intros bs. induction bs as [|b bs IH]; intros new; [split; [intros [|i]; reflexivity|split; reflexivity]|].
  destruct new as [|n new].
  - cbn. split; [|split; reflexivity]. intros i. destruct (nth_error (b :: bs) i) eqn:E; cbn in *; rewrite ?E; [|reflexivity].
    destruct i; reflexivity.
  - cbn [put_list]. specialize (IH new). destruct (put_list bs new) as [r rest]. cbn in *. destruct IH as (H1 & H2 & H3).
    split; [intros [|i]; [reflexivity|apply H1]|]. split; [exact H2|lia].
Qed.
(** [overwrite l new]: the i-th body replaced by the i-th new one if there is one. *)
Fixpoint overwrite {L} (l : list (L * body_t)) (new : list body_t) : list (L * body_t) :=
  match l, new with
  | [], _ => []
  | _, [] => l
  | (ls, _) :: l', n :: new' => (ls, n) :: overwrite l' new'
  end.
Lemma overwrite_nth : forall {L} (l : list (L * body_t)) new i,
  nth_error (overwrite l new) i =
  option_map (fun e => (fst e, match nth_error new i with Some n => n | None => snd e end)) (nth_error l i).
Proof.
  intros L l. induction l as [|[ls b] l IH]; intros new i; [destruct i; reflexivity|]. destruct new as [|n new].
  - cbn [overwrite]. destruct (nth_error ((ls, b) :: l) i) as [[? ?]|]; cbn; [|reflexivity]. destruct i; reflexivity.
  - destruct i; [reflexivity|]. cbn. apply IH.
Qed.
Lemma overwrite_app : forall {L} (l1 l2 : list (L * body_t)) new,
  overwrite (l1 ++ l2) new = overwrite l1 new ++ overwrite l2 (skipn (length l1) new).
Proof.
  intros L l1. induction l1 as [|[ls b] l1 IH]; intros l2 new; [destruct new; reflexivity|]. destruct new as [|n new].
  - cbn. destruct l2 as [|[? ?] ?]; reflexivity.
  - cbn. f_equal. apply IH.
Qed.
Lemma overwrite_map : forall {L L'} (g : L -> L') (l : list (L * body_t)) new,
  overwrite (map (fun e => (g (fst e), snd e)) l) new = map (fun e => (g (fst e), snd e)) (overwrite l new).
Proof.
  intros L L' g l. induction l as [|[ls b] l IH]; intros new; [reflexivity|]. destruct new; [reflexivity|]. cbn. f_equal. apply IH.
Qed.
Lemma overwrite_put_list : forall bs new,
  map (fun b : body_t => (@nil str, b)) (fst (put_list bs new)) = overwrite (map (fun b => ([], b)) bs) new.
Proof.
  intros bs. induction bs as [|b bs IH]; intros new; [reflexivity|]. destruct new as [|n new]; [reflexivity|]. cbn.
  specialize (IH new). destruct (put_list bs new). cbn in *. f_equal. exact IH.
Qed.
Definition nested_put : list (label * bbody) -> list body_t -> list (label * bbody) * list body_t :=
  fix nested (m : list (label * bbody)) (new : list body_t) : list (label * bbody) * list body_t :=
   match m with
   | [] => ([], new)
   | (k, x) :: m' =>
       let (x', rest) := flat_put x new in
       let (m'', rest') := nested m' rest in ((k, x') :: m'', rest')
   end.
Definition SameShape (b b' : bbody) : Prop :=
  label_lens b' = label_lens b /\ len_blocks b' = len_blocks b /\
  forall p, match bget b p, bget b' p with
            | Some node, Some node' => length (get_empty node') = length (get_empty node) /\ len_blocks node' = len_blocks node
            | None, None => True
            | _, _ => False
            end.
Lemma flat_put_spec : forall b new,
  flat_iter (fst (flat_put b new)) = overwrite (flat_iter b) new /\
  snd (flat_put b new) = skipn (len_blocks b) new.
Proof.
  intros b. induction b as [bs|e m IH] using bbody_ind'; intros new.
  - cbn [flat_put flat_iter len_blocks]. pose proof (put_list_spec bs new) as (_ & H & _). pose proof (overwrite_put_list bs new) as H2.
    destruct (put_list bs new). cbn in *. auto.
  - cbn [flat_put]. fold nested_put. pose proof (put_list_spec e new) as (_ & He & _). pose proof (overwrite_put_list e new) as He2.
    destruct (put_list e new) as [e' rest]. cbn [fst snd] in He, He2. cbn [flat_iter]. rewrite overwrite_app, <- He2, map_length, <- He.
    assert (Hm : forall rest,
      flat_map (fun kv => map (fun pb => (label_str (fst kv) :: fst pb, snd pb)) (flat_iter (snd kv))) (fst (nested_put m rest)) =
      overwrite (flat_map (fun kv => map (fun pb => (label_str (fst kv) :: fst pb, snd pb)) (flat_iter (snd kv))) m) rest /\
      snd (nested_put m rest) = skipn (length (flat_map (fun kv => map (fun pb => (label_str (fst kv) :: fst pb, snd pb)) (flat_iter (snd kv))) m)) rest).
    { clear - IH. induction IH as [|[k x] m Hx _ IHm]; intros rest; [split; [destruct rest; reflexivity|reflexivity]|].
      cbn [nested_put flat_map fst snd]. specialize (Hx rest). cbn [snd] in Hx. destruct (flat_put x rest) as [x' r1]. cbn [fst snd] in Hx.
      destruct Hx as [Hx1 Hx2]. specialize (IHm r1). destruct (nested_put m r1) as [m2 r2]. cbn [fst snd] in *. destruct IHm as [I1 I2].
      cbn [flat_map fst snd]. rewrite overwrite_app, (overwrite_map (cons (label_str k))), <- Hx1, map_length, <- len_blocks_flat, <- Hx2, <- I1.
      split; [reflexivity|]. rewrite app_length, map_length, <- len_blocks_flat, I2, Hx2.
      clear. revert rest. induction (len_blocks x) as [|n IH]; intros rest; [reflexivity|]. destruct rest; [cbn; destruct (length _); reflexivity|].
      cbn. apply IH. }
    specialize (Hm rest). destruct (nested_put m rest) as [m' rest']. cbn [fst snd] in *. destruct Hm as [Hm1 Hm2]. cbn [flat_iter].
    rewrite Hm1. split; [reflexivity|]. rewrite Hm2, He, len_blocks_flat. cbn [flat_iter]. rewrite app_length, map_length.
    clear. revert new. induction (length e) as [|n IH]; intros new; [reflexivity|]. destruct new; [cbn; destruct (length _); reflexivity|].
    cbn. apply IH.
Qed.
(** The bodies written are the ones iterated afterwards, in order and under the same
    labels; a body that was not written stays; none is created or lost. *)
Theorem C78_flat_iter_mut : forall b new i,
  nth_error (flat_iter (fst (flat_put b new))) i =
  option_map (fun e => (fst e, match nth_error new i with Some n => n | None => snd e end)) (nth_error (flat_iter b) i).
Proof. intros b new i. rewrite (proj1 (flat_put_spec b new)). apply overwrite_nth. Qed.
Lemma overwrite_length : forall {L} (l : list (L * body_t)) new, length (overwrite l new) = length l.
Proof. intros L l. induction l as [|[ls b] l IH]; intros new; [reflexivity|]. destruct new; [reflexivity|]. cbn. f_equal. apply IH. Qed.
Lemma flat_put_len : forall b new, len_blocks (fst (flat_put b new)) = len_blocks b.
Proof. intros b new. rewrite !len_blocks_flat, (proj1 (flat_put_spec b new)). apply overwrite_length. Qed.
Lemma nested_put_cons : forall k x m new,
  nested_put ((k, x) :: m) new =
  ((k, fst (flat_put x new)) :: fst (nested_put m (snd (flat_put x new))), snd (nested_put m (snd (flat_put x new)))).
Proof. intros. cbn [nested_put]. destruct (flat_put x new) as [a r]. cbn [fst snd]. destruct (nested_put m r). reflexivity. Qed.
Lemma flat_put_labels : forall e m new,
  flat_put (BLabels e m) new =
  (BLabels (fst (put_list e new)) (fst (nested_put m (snd (put_list e new)))), snd (nested_put m (snd (put_list e new)))).
Proof. intros. cbn [flat_put]. fold nested_put. destruct (put_list e new) as [a r]. cbn [fst snd]. destruct (nested_put m r). reflexivity. Qed.
Lemma nested_put_find : forall m new p,
  match find (fun kv => str_eqb (label_str (fst kv)) p) m, find (fun kv => str_eqb (label_str (fst kv)) p) (fst (nested_put m new)) with
  | Some (k, x), Some (k', x') => k' = k /\ In (k, x) m /\ exists r, x' = fst (flat_put x r)
  | None, None => True
  | _, _ => False
  end.
Proof.
  intros m. induction m as [|[k x] m IH]; intros new p; [exact I|]. rewrite nested_put_cons. cbn [find fst snd].
  destruct (str_eqb (label_str k) p); [split; [reflexivity|]; split; [left; reflexivity|]; eexists; reflexivity|].
  specialize (IH (snd (flat_put x new)) p). destruct (find _ m) as [[? ?]|], (find _ (fst (nested_put m _))) as [[? ?]|]; try exact IH.
  destruct IH as (H1 & H2 & H3). split; [exact H1|]. split; [right; exact H2|exact H3].
Qed.
Lemma flat_put_label_lens : forall b new, label_lens (fst (flat_put b new)) = label_lens b.
Proof.
  intros b. induction b as [bs|e m IH] using bbody_ind'; intros new.
  - cbn. destruct (put_list bs new). reflexivity.
  - rewrite flat_put_labels. cbn [fst label_lens].
    assert (Hm : forall r, flat_map (fun kv => map S (label_lens (snd kv))) (fst (nested_put m r)) = flat_map (fun kv => map S (label_lens (snd kv))) m).
    { clear - IH. induction IH as [|[k x] m Hx _ IHm]; intros r; [reflexivity|]. rewrite nested_put_cons. cbn [fst flat_map snd].
      cbn [snd] in Hx. rewrite Hx, IHm. reflexivity. }
    rewrite Hm. pose proof (put_list_spec e new) as (_ & _ & Hl). destruct (fst (put_list e new)), e; try discriminate; reflexivity.
Qed.
(** Lookups find a node exactly where they did, with as many blocks as before. *)
Theorem C78_flat_iter_mut_shape : forall b new, SameShape b (fst (flat_put b new)).
Proof.
  intros b new. split; [apply flat_put_label_lens|]. split; [apply flat_put_len|].
  intros p. revert b new. induction p as [|q p IH]; intros b new.
  - cbn [bget]. split; [|apply flat_put_len]. destruct b as [bs|e m].
    + cbn. pose proof (put_list_spec bs new) as (_ & _ & H). destruct (put_list bs new). exact H.
    + rewrite flat_put_labels. cbn. apply (put_list_spec e new).
  - destruct b as [bs|e m].
    + cbn. destruct (put_list bs new). exact I.
    + rewrite flat_put_labels. cbn [fst bget]. pose proof (nested_put_find m (snd (put_list e new)) q) as H.
      destruct (find _ m) as [[k x]|], (find _ (fst (nested_put m _))) as [[k' x']|]; try contradiction; [|exact I].
      destruct H as (_ & _ & r & ->). apply IH.
Qed.
Lemma blocks_flat_put_cons : forall k x m new,
  blocks_flat_put ((k, x) :: m) new =
  ((k, fst (flat_put x new)) :: fst (blocks_flat_put m (snd (flat_put x new))), snd (blocks_flat_put m (snd (flat_put x new)))).
Proof. intros. cbn [blocks_flat_put]. destruct (flat_put x new) as [a r]. cbn [fst snd]. destruct (blocks_flat_put m r). reflexivity. Qed.
Theorem C78_blocks_flat_iter_mut : forall m new,
  (forall i, nth_error (blocks_flat_iter (fst (blocks_flat_put m new))) i =
     option_map (fun e => (fst e, match nth_error new i with Some n => n | None => snd e end)) (nth_error (blocks_flat_iter m) i)) /\
  map fst (fst (blocks_flat_put m new)) = map fst m /\
  Forall2 SameShape (map snd m) (map snd (fst (blocks_flat_put m new))).
Proof.
  intros m new. split; [|split].
  - intros i. rewrite <- overwrite_nth. f_equal. revert new. induction m as [|[k x] m IH]; intros new; [destruct new; reflexivity|].
    rewrite blocks_flat_put_cons. unfold blocks_flat_iter. cbn [fst flat_map snd]. fold (blocks_flat_iter m).
    rewrite overwrite_app, (overwrite_map (fun ls => (cow_str k, ls))), map_length, <- len_blocks_flat, <- (proj1 (flat_put_spec x new)), <- (proj2 (flat_put_spec x new)).
    f_equal. apply IH.
  - revert new. induction m as [|[k x] m IH]; intros new; [reflexivity|]. rewrite blocks_flat_put_cons. cbn. f_equal. apply IH.
  - revert new. induction m as [|[k x] m IH]; intros new; [constructor|]. rewrite blocks_flat_put_cons. cbn. constructor; [apply C78_flat_iter_mut_shape|apply IH].
Qed.

(** ** [iter] and [iter_mut]: one item per block type; what is done to the blocks of a
    type is what lookups and iteration then see. *)
Theorem C78_iter_mut : forall m f,
  map fst (blocks_iter_mut m f) = map fst m /\
  (forall t path, blocks_get (blocks_iter_mut m f) t path =
     match blocks_get m t [] with Some b => bget (f t b) path | None => None end) /\
  (forall t p body, In (t, p, body) (blocks_flat_iter (blocks_iter_mut m f)) <->
     exists k b, In (k, b) (blocks_iter m) /\ cow_str k = t /\ In (p, body) (flat_iter (f t b))).
Proof.
  intros m f. split; [|split].
  - unfold blocks_iter_mut. rewrite map_map. reflexivity.
  - intros t path. unfold blocks_get, blocks_iter_mut. induction m as [|[k x] m IH]; [reflexivity|]. cbn [map find fst snd].
    destruct (str_eqb (cow_str k) t) eqn:E; [|exact IH]. cbn [bget]. apply str_eqb_eq in E. rewrite E. reflexivity.
  - intros t p body. unfold blocks_flat_iter, blocks_iter_mut, blocks_iter. rewrite in_flat_map. split.
    + intros (kv & Hin & Hb). apply in_map_iff in Hin as ([k b] & <- & Hin). apply in_map_iff in Hb as ([p' body'] & Heq & Hb). cbn in Heq.
      injection Heq as <- <- <-. exists k, b. auto.
    + intros (k & b & Hin & <- & Hb). exists (k, f (cow_str k) b). split; [apply in_map_iff; exists (k, b); auto|].
      apply in_map_iff. exists (p, body). auto.
Qed.
Lemma NoDup_types_find : forall m k b, NoDup (map (fun kv => cow_str (fst kv)) m) -> In (k, b) m -> blocks_get m (cow_str k) [] = Some b.
Proof.
  intros m k b HN Hin. unfold blocks_get. induction m as [|[k0 x0] m IH]; [destruct Hin|]. cbn in HN. inversion HN as [|? ? Hni HN']; subst.
  cbn [find fst]. destruct Hin as [[= -> ->]|Hin].
  - rewrite (proj2 (str_eqb_eq _ _) eq_refl). reflexivity.
  - destruct (str_eqb (cow_str k0) (cow_str k)) eqn:E; [|apply IH; assumption]. apply str_eqb_eq in E. destruct Hni.
    apply in_map_iff. exists (k, b). auto.
Qed.

(** A case: two blocks under a label and one without; the labelled ones replaced. *)
Definition one (n : string) : body_t := [Attr (Borrowed (lit n)) ENull].
Example C78_case :
  let m := blocks_extend [] [mk_block (Borrowed (lit "t")) [] (one "a"); mk_block (Borrowed (lit "t")) [LString (lit "l")] (one "b");
                             mk_block (Borrowed (lit "t")) [LString (lit "l")] (one "c")] in
  exists m', blocks_update m (lit "t") [lit "l"] (fun _ => BBody [one "z"]) = Some m' /\
    blocks_flat_iter m' = [(lit "t", [], one "a"); (lit "t", [lit "l"], one "z")] /\
    blocks_flat_iter (fst (blocks_flat_put m [one "x"; one "y"])) =
      [(lit "t", [], one "x"); (lit "t", [lit "l"], one "y"); (lit "t", [lit "l"], one "c")].
Proof. cbn zeta. eexists. split; [vm_compute; reflexivity|]. split; vm_compute; reflexivity. Qed.

Print Assumptions C78_get_mut_iff_get.
Print Assumptions C78_get_after_get_mut.
Print Assumptions C78_get_mut_elsewhere.
Print Assumptions C78_get_mut_above.
Print Assumptions C78_get_mut_iteration.
Print Assumptions C78_get_mut_count.
Print Assumptions C78_blocks_get_mut_iff_get.
Print Assumptions C78_blocks_get_mut.
Print Assumptions C78_blocks_get_mut_iteration.
Print Assumptions C78_flat_iter_mut.
Print Assumptions C78_flat_iter_mut_shape.
Print Assumptions C78_blocks_flat_iter_mut.
Print Assumptions C78_iter_mut.
