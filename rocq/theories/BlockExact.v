(** * BlockExact: the block index is a function of the history of appends *)
From Coq Require Import Permutation.
From Verif Require Import Base Ast NomFacts MoreProofs Blocks BlockSpec BlockProofs BlockExactSpec.

Lemma label_id_eq l : label_id l = keyid l.
Proof. destruct l; reflexivity. Qed.
Lemma path_dec (p q : lpath) : {p = q} + {p <> q}.
Proof. apply list_eq_dec. intros [a s] [b t]. destruct (Bool.bool_dec a b); destruct (list_eq_dec N.eq_dec s t); subst; auto; right; congruence. Qed.

(** ** The tree flattened with label identities *)
Fixpoint kflat (b : bbody) : list (lpath * body_t) :=
  match b with
  | BBody bodies => map (fun body => ([], body)) bodies
  | BLabels e m =>
      map (fun body => ([], body)) e ++
      flat_map (fun kv => map (fun pb => (keyid (fst kv) :: fst pb, snd pb)) (kflat (snd kv))) m
  end.
Lemma keyid_str l : snd (keyid l) = label_str l.
Proof. destruct l; reflexivity. Qed.
Lemma kflat_flat b : flat_iter b = map (fun pb => (map snd (fst pb), snd pb)) (kflat b).
Proof.
  induction b as [bs|e m IH] using bbody_ind'; cbn [flat_iter kflat].
  - rewrite map_map. reflexivity.
  - rewrite map_app, map_map. f_equal. induction IH as [|[k x] m Hx _ IHm]; cbn [flat_map]; [reflexivity|].
    rewrite map_app, IHm. f_equal. cbn [fst snd] in *. rewrite Hx, !map_map. apply map_ext. intros [p q]. cbn. rewrite keyid_str. reflexivity.
Qed.
Lemma kflat_default ls body : kflat (append_default ls body) = [(map keyid ls, body)].
Proof. induction ls as [|l ls IH]; cbn; [reflexivity|]. rewrite IH. reflexivity. Qed.
Lemma kflat_append b : forall ls body,
  Permutation (kflat (append b ls body)) ((map keyid (eff b ls), body) :: kflat b).
Proof.
  induction b as [bs|e m IH] using bbody_ind'; intros ls body.
  - destruct ls as [|l ls]; cbn [append kflat eff].
    + rewrite map_app. cbn. symmetry. apply Permutation_cons_append.
    + cbn [flat_map app fst snd]. rewrite kflat_default. cbn. symmetry. apply Permutation_cons_append.
  - destruct ls as [|l ls].
    + cbn [append kflat eff map]. rewrite map_app. cbn [map]. rewrite <- app_assoc.
      symmetry. apply Permutation_middle.
    + rewrite append_labels, eff_labels. cbn [kflat].
      set (g := fun kv : label * bbody => map (fun pb : lpath * body_t => (keyid (fst kv) :: fst pb, snd pb)) (kflat (snd kv))).
      assert (H : Permutation (flat_map g (upsert l (fun x => append x ls body) (BBody [body]) m))
                              ((map keyid (eff_in l (fun x => eff x ls) m), body) :: flat_map g m)).
      { induction IH as [|[k x] m Hx _ IHm]; cbn [upsert eff_in flat_map].
        - cbn. apply Permutation_refl.
        - destruct (label_eqb k l) eqn:E; cbn [flat_map].
          + specialize (Hx ls body). cbn [snd] in Hx.
            exact (Permutation_app_tail (flat_map g m) (Permutation_map (fun pb : lpath * body_t => (keyid k :: fst pb, snd pb)) Hx)).
          + rewrite IHm. symmetry. apply Permutation_middle. }
      eapply Permutation_trans; [apply Permutation_app_head, H|]. symmetry. apply Permutation_middle.
Qed.
Lemma Reorder_kflat b : forall b', Reorder b b' -> Permutation (kflat b) (kflat b').
Proof.
  induction b as [bs|e m IH] using bbody_ind'; intros b' H; inversion H as [|e' m' m1 m2 P F]; subst; [apply Permutation_refl|].
  cbn [kflat]. apply Permutation_app_head. rewrite (Permutation_flat_map _ P).
  eapply flat_map_perm; [exact F|]. intros [ka a] [kb b] Hin [Hk Hr]. cbn [fst snd] in *. subst. apply Permutation_map.
  rewrite Forall_forall in IH. apply (IH (kb, a)); [|exact Hr]. eapply Permutation_in; [symmetry; exact P|exact Hin].
Qed.
Lemma kflat_nonempty (P : label -> Prop) b : Good P b -> NonEmpty b -> kflat b <> [].
Proof. intros HG HN E. apply (nonempty_flat P b HG HN). rewrite kflat_flat, E. reflexivity. Qed.

(** ** Paths *)
Notation paths b := (map fst (kflat b)).
Lemma paths_labels e m p : In p (paths (BLabels e m)) <->
  (p = [] /\ e <> []) \/ exists k x p', In (k, x) m /\ p = keyid k :: p' /\ In p' (paths x).
Proof.
  cbn [kflat]. rewrite map_app, in_app_iff. split.
  - intros [H|H].
    + apply in_map_iff in H as ([q b] & Hq & H). apply in_map_iff in H as (b' & E & H). injection E as <- <-. cbn in Hq.
      left. split; [congruence|]. intros ->. destruct H.
    + right. apply in_map_iff in H as ([q b] & Hq & H). apply in_flat_map in H as ([k x] & Hin & H). cbn [fst snd] in *.
      apply in_map_iff in H as ([q' b'] & E & H). injection E as E1 E2. cbn [fst snd] in *. subst. exists k, x, q'.
      split; [exact Hin|]. split; [reflexivity|]. apply (in_map fst) in H. exact H.
  - intros [[-> He]|(k & x & p' & Hin & -> & H)].
    + left. destruct e as [|b e]; [congruence|]. left. reflexivity.
    + right. apply in_map_iff in H as ([q b] & Hq & H). cbn in Hq. subst q. apply in_map_iff. exists (keyid k :: p', b).
      split; [reflexivity|]. apply in_flat_map. exists (k, x). split; [exact Hin|]. apply in_map_iff. exists (p', b). auto.
Qed.
Lemma entry_unique m k x k' x' : NoDup (map (fun kv : label * bbody => keyid (fst kv)) m) -> In (k, x) m -> In (k', x') m ->
  keyid k = keyid k' -> x = x'.
Proof.
  intros HD H1 H2 E. induction m as [|[a y] m IH]; [destruct H1|]. cbn [map fst] in HD. inversion HD as [|? ? Hn HD']; subst.
  destruct H1 as [H1|H1], H2 as [H2|H2].
  - congruence.
  - exfalso. apply Hn. injection H1 as -> ->. rewrite E. apply (in_map (fun kv : label * bbody => keyid (fst kv)) _ _ H2).
  - exfalso. apply Hn. injection H2 as -> ->. rewrite <- E. apply (in_map (fun kv : label * bbody => keyid (fst kv)) _ _ H1).
  - apply IH; assumption.
Qed.
Section Child.
Context (P : label -> Prop) e m k x (HG : Good P (BLabels e m)) (Hin : In (k, x) m).
Lemma child_paths p : In (keyid k :: p) (paths (BLabels e m)) <-> In p (paths x).
Proof.
  inversion HG as [|e' m' H1 H2 H3]; subst. rewrite paths_labels. split.
  - intros [[E _]|(k' & x' & p' & Hin' & E & H)]; [discriminate|]. injection E as E1 E2. subst.
    rewrite (entry_unique m k x k' x' H2 Hin Hin' E1). exact H.
  - intros H. right. exists k, x, p. auto.
Qed.
Lemma child_used q : Used (paths (BLabels e m)) (keyid k :: q) <-> Used (paths x) q.
Proof. unfold Used. split; intros [r H]; exists r; apply (child_paths (q ++ r)); exact H. Qed.
Lemma child_branch q : Branch (paths (BLabels e m)) (keyid k :: q) <-> Branch (paths x) q.
Proof. unfold Branch. split; intros (y & r & H); exists y, r; apply (child_paths (q ++ y :: r)); exact H. Qed.
Lemma child_some : Used (paths x) [].
Proof.
  inversion HG as [|e' m' H1 H2 H3]; subst. rewrite Forall_forall in H3. destruct (H3 _ Hin) as (_ & HN & Hg). cbn [snd] in *.
  pose proof (kflat_nonempty P x Hg HN) as Hne. destruct (kflat x) as [|[p b] l]; [congruence|]. exists p. left. reflexivity.
Qed.
End Child.
Lemma root_branch (P : label -> Prop) e m : Good P (BLabels e m) -> Branch (paths (BLabels e m)) [].
Proof.
  intros HG. inversion HG as [|e' m' H1 H2 H3]; subst. destruct m as [|[k x] m]; [congruence|].
  destruct (child_some P e ((k, x) :: m) k x HG (or_introl eq_refl)) as [r Hr]. cbn in Hr. exists (keyid k), r.
  apply (child_paths P e ((k, x) :: m) k x HG (or_introl eq_refl)). exact Hr.
Qed.
Lemma absent_used e m i q : (forall k x, In (k, x) m -> keyid k <> i) -> ~ Used (paths (BLabels e m)) (i :: q).
Proof.
  intros Hno [r H]. apply paths_labels in H as [[E _]|(k & x & p & Hin & E & _)]; [discriminate|]. injection E as E _.
  exact (Hno k x Hin (eq_sym E)).
Qed.

(** ** [eff] is the specified place *)
Lemma Placed_perm P P' ls p : (forall q, In q P <-> In q P') -> Placed P ls p -> Placed P' ls p.
Proof.
  intros HP. assert (HU : forall q, Used P q <-> Used P' q) by (intros q; split; intros [r H]; exists r; apply HP, H).
  assert (HB : forall q, Branch P q <-> Branch P' q) by (intros q; split; intros (y & r & H); exists y, r; apply HP, H).
  intros [q x r H1 H2|l H].
  - apply Placed_cut; [apply HB, H1|]. rewrite <- HU. exact H2.
  - apply Placed_whole. intros q x r E Hb. apply HU. eapply H; [exact E|]. apply HB, Hb.
Qed.
Lemma eff_placed (P : label -> Prop) b : forall ls, Good P b -> Placed (paths b) (map keyid ls) (map keyid (eff b ls)).
Proof.
  induction b as [bs|e m IH] using bbody_ind'; intros ls HG.
  - replace (eff (BBody bs) ls) with ls by (destruct ls; reflexivity). apply Placed_whole. intros q x r _ (y & r' & H). exfalso. cbn [kflat] in H. rewrite map_map in H. cbn in H. apply in_map_iff in H as (b & E & _).
    symmetry in E. apply app_eq_nil in E as [_ E]. discriminate.
  - destruct ls as [|l ls]; [apply Placed_whole; intros q x r E; symmetry in E; apply app_eq_nil in E as [_ E]; discriminate|].
    rewrite eff_labels.
    destruct (existsb (fun kv => label_eqb (fst kv) l) m) eqn:Ex.
    + apply existsb_exists in Ex as ([k x] & Hin & Hk). cbn [fst] in Hk. inversion HG as [|e' m' H1 H2 H3]; subst.
      assert (Ee : eff_in l (fun x => eff x ls) m = k :: eff x ls).
      { clear - H2 Hin Hk. apply label_eqb_keyid in Hk. induction m as [|[k' y] m IHm]; [destruct Hin|]. cbn [eff_in map fst] in *.
        inversion H2 as [|? ? Hn Hd]; subst. destruct Hin as [Hin|Hin].
        - injection Hin as -> ->. rewrite (proj2 (label_eqb_keyid k l) Hk). reflexivity.
        - destruct (label_eqb k' l) eqn:E; [|apply IHm; assumption]. exfalso. apply label_eqb_keyid in E. apply Hn.
          replace (keyid k') with (keyid (fst (k, x))) by (cbn; congruence).
          apply (in_map (fun kv : label * bbody => keyid (fst kv)) _ _ Hin). }
      rewrite Ee. cbn [map]. apply label_eqb_keyid in Hk. rewrite <- Hk.
      assert (Hg : Good P x) by (rewrite Forall_forall in H3; apply (H3 _ Hin)).
      rewrite Forall_forall in IH. specialize (IH _ Hin ls Hg). cbn [snd] in IH.
      pose proof (child_used P e m k x HG Hin) as CU. pose proof (child_branch P e m k x HG Hin) as CB.
      pose proof (child_some P e m k x HG Hin) as CS.
      inversion IH as [q y r Hb Hn E1 E2|l' Hw E1 E2]; subst.
      * change (keyid k :: q ++ y :: r) with ((keyid k :: q) ++ y :: r). change (keyid k :: q ++ [y]) with ((keyid k :: q) ++ [y]).
        apply Placed_cut; [apply CB, Hb|]. cbn [app]. rewrite CU. exact Hn.
      * rewrite E2 in Hw. apply Placed_whole. intros q y r E Hb. destruct q as [|z q].
        -- cbn [app] in *. injection E as <- _. apply CU, CS.
        -- cbn [app] in *. injection E as <- E. apply CU. apply CB in Hb. apply (Hw q y r); [congruence|exact Hb].
    + assert (Hno : forall k x, In (k, x) m -> label_eqb k l = false).
      { intros k x Hin. destruct (label_eqb k l) eqn:E; [|reflexivity]. rewrite <- Ex. symmetry. apply existsb_exists. exists (k, x). auto. }
      assert (Ee : eff_in l (fun x => eff x ls) m = [l]).
      { clear - Hno. induction m as [|[k x] m IHm]; [reflexivity|]. cbn [eff_in]. rewrite (Hno k x (or_introl eq_refl)).
        apply IHm. intros k' x' H. apply (Hno k' x'). right. exact H. }
      rewrite Ee. cbn [map]. apply (Placed_cut _ [] (keyid l) (map keyid ls)).
      * apply (root_branch P e m HG).
      * cbn [app]. apply absent_used. intros k x Hin E. apply label_eqb_keyid in E. rewrite (Hno k x Hin) in E. discriminate.
Qed.

(** ** Nodes *)
Inductive NodeAt : bbody -> lpath -> bbody -> Prop :=
| NA_here b : NodeAt b [] b
| NA_below e m k x p n : In (k, x) m -> NodeAt x p n -> NodeAt (BLabels e m) (keyid k :: p) n.
Definition kat (p : lpath) (c : list (lpath * body_t)) : list body_t :=
  map snd (filter (fun pb => if path_dec (fst pb) p then true else false) c).
Lemma HeldAt_kat p c bs : HeldAt p c bs <-> bs = kat p c.
Proof.
  unfold kat. split.
  - induction 1 as [|b c bs _ IH|q b c bs Hq _ IH]; cbn [filter fst]; [reflexivity| |].
    + destruct (path_dec p p); [|congruence]. cbn. rewrite IH. reflexivity.
    + destruct (path_dec q p); [congruence|]. exact IH.
  - intros ->. induction c as [|[q b] c IH]; cbn [filter fst]; [constructor|].
    destruct (path_dec q p) as [->|Hq]; cbn; constructor; auto.
Qed.
Lemma kat_app p c c' : kat p (c ++ c') = kat p c ++ kat p c'.
Proof. unfold kat. rewrite filter_app, map_app. reflexivity. Qed.
Lemma kat_nil_here bs : kat [] (map (fun body => ([], body)) bs) = bs.
Proof. unfold kat. induction bs; cbn [map filter fst]; [reflexivity|]. destruct (path_dec [] []); [|congruence]. cbn [map snd]. f_equal. exact IHbs. Qed.
Lemma kat_cons_here i p bs : kat (i :: p) (map (fun body => ([], body)) bs) = [].
Proof. unfold kat. induction bs; cbn [map filter fst]; [reflexivity|]. destruct (path_dec [] (i :: p)); [discriminate|]. exact IHbs. Qed.
Lemma kat_child i p c : kat (i :: p) (map (fun pb => (i :: fst pb, snd pb)) c) = kat p c.
Proof.
  unfold kat. induction c as [|[q b] c IH]; cbn [map filter fst snd]; [reflexivity|].
  destruct (path_dec (i :: q) (i :: p)), (path_dec q p); try congruence; cbn [map snd]; rewrite IH; reflexivity.
Qed.
Lemma kat_other i j p c : i <> j -> kat (j :: p) (map (fun pb => (i :: fst pb, snd pb)) c) = [].
Proof.
  intros H. unfold kat. induction c as [|[q b] c IH]; cbn [map filter fst snd]; [reflexivity|].
  destruct (path_dec (i :: q) (j :: p)); [congruence|exact IH].
Qed.
Lemma kat_nil_child i c : kat [] (map (fun pb => (i :: fst pb, snd pb)) c) = [].
Proof. unfold kat. induction c as [|[q b] c IH]; cbn; [reflexivity|]. destruct (path_dec (i :: q) []); [discriminate|exact IH]. Qed.
Lemma kat_labels_nil e m : kat [] (kflat (BLabels e m)) = e.
Proof.
  cbn [kflat]. rewrite kat_app, kat_nil_here. rewrite <- app_nil_r. f_equal. induction m as [|[k x] m IH]; cbn [flat_map]; [reflexivity|].
  rewrite kat_app, kat_nil_child. exact IH.
Qed.
Lemma kat_labels e m k x p : NoDup (map (fun kv : label * bbody => keyid (fst kv)) m) -> In (k, x) m ->
  kat (keyid k :: p) (kflat (BLabels e m)) = kat p (kflat x).
Proof.
  intros HD Hin. cbn [kflat]. rewrite kat_app, kat_cons_here. cbn [app].
  assert (Hout : forall m', (forall kv, In kv m' -> keyid (fst kv) <> keyid k) ->
    kat (keyid k :: p) (flat_map (fun kv => map (fun pb : lpath * body_t => (keyid (fst kv) :: fst pb, snd pb)) (kflat (snd kv))) m') = []).
  { induction m' as [|[k' x'] m' IH]; intros Hno; cbn [flat_map]; [reflexivity|]. rewrite kat_app, kat_other.
    - apply IH. intros kv Hkv. apply Hno. right. exact Hkv.
    - apply (Hno (k', x')). left. reflexivity. }
  induction m as [|[k' x'] m IH]; [destruct Hin|]. cbn [map fst] in HD. inversion HD as [|? ? Hn HD']; subst. cbn [flat_map fst snd].
  rewrite kat_app. destruct Hin as [Hin|Hin].
  - injection Hin as -> ->. rewrite kat_child, Hout, app_nil_r; [reflexivity|]. intros kv Hkv E. apply Hn. rewrite <- E.
    apply (in_map (fun kv : label * bbody => keyid (fst kv)) _ _ Hkv).
  - rewrite kat_other; [apply IH; assumption|]. intros E. apply Hn. rewrite E.
    apply (in_map (fun kv : label * bbody => keyid (fst kv)) _ _ Hin).
Qed.
Lemma NodeAt_bodies (P : label -> Prop) b p n : NodeAt b p n -> Good P b -> get_empty n = kat p (kflat b).
Proof.
  induction 1 as [b|e m k x p n Hin _ IH]; intros HG.
  - destruct b as [bs|e m]; cbn [get_empty]; [cbn [kflat]; rewrite kat_nil_here; reflexivity|rewrite kat_labels_nil; reflexivity].
  - inversion HG as [|e' m' H1 H2 H3]; subst. rewrite (kat_labels e m k x p H2 Hin). apply IH.
    rewrite Forall_forall in H3. apply (H3 _ Hin).
Qed.
Lemma NodeAt_used (P : label -> Prop) b : Good P b -> forall p, (exists n, NodeAt b p n) <-> p = [] \/ Used (paths b) p.
Proof.
  induction b as [bs|e m IH] using bbody_ind'; intros HG p.
  - split.
    + intros [n Hn]. inversion Hn; auto.
    + intros [->|[r H]]; [eexists; constructor|]. cbn [kflat] in H. rewrite map_map in H. apply in_map_iff in H as (b & E & _). cbn in E.
      symmetry in E. apply app_eq_nil in E as [-> _]. eexists; constructor.
  - split.
    + intros [n Hn]. inversion Hn as [|e' m' k x p' n' Hin Hn']; subst; [auto|]. right.
      apply (child_used P e m k x HG Hin). rewrite Forall_forall in IH. inversion HG as [|e' m' H1 H2 H3]; subst.
      rewrite Forall_forall in H3. destruct (proj1 (IH _ Hin (proj2 (proj2 (H3 _ Hin))) p')) as [->|H]; [eauto| |exact H].
      apply (child_some P e m k x HG Hin).
    + intros [->|HU]; [eexists; constructor|]. destruct p as [|i p]; [eexists; constructor|].
      assert (Hk : exists k x, In (k, x) m /\ keyid k = i).
      { destruct HU as [r H]. apply paths_labels in H as [[E _]|(k & x & p' & Hin & E & _)]; [discriminate|]. injection E as E _. eauto. }
      destruct Hk as (k & x & Hin & <-). apply (child_used P e m k x HG Hin) in HU.
      inversion HG as [|e' m' H1 H2 H3]; subst. rewrite Forall_forall in IH, H3.
      destruct (proj2 (IH _ Hin (proj2 (proj2 (H3 _ Hin))) p)) as [n Hn]; [auto|]. exists n. econstructor; eassumption.
Qed.
Lemma NodeAt_branch (P : label -> Prop) b p n : NodeAt b p n -> Good P b -> ((exists m, get_labels n = Some m) <-> Branch (paths b) p).
Proof.
  induction 1 as [b|e m k x p n Hin _ IH]; intros HG.
  - destruct b as [bs|e m]; cbn [get_labels].
    + split; [intros [m H]; discriminate|]. intros (y & r & H). exfalso. cbn [kflat] in H. rewrite map_map in H.
      apply in_map_iff in H as (b & E & _). discriminate.
    + split; [intros _; apply (root_branch P e m HG)|eauto].
  - rewrite (child_branch P e m k x HG Hin). apply IH. inversion HG as [|e' m' H1 H2 H3]; subst.
    rewrite Forall_forall in H3. apply (H3 _ Hin).
Qed.

(** ** The contents *)
Lemma Contents_det h c : Contents h c -> forall c', Contents h c' -> c = c'.
Proof.
  assert (HP : forall P ls p p', Placed P ls p -> Placed P ls p' -> p = p').
  { assert (Hcut : forall P q x r q' x' r', q ++ x :: r = q' ++ x' :: r' -> Branch P q -> ~ Used P (q ++ [x]) ->
      Branch P q' -> ~ Used P (q' ++ [x']) -> q ++ [x] = q' ++ [x']).
    { intros P q. revert P. induction q as [|a q IH]; intros P x r [|a' q'] x' r' E Hb Hn Hb' Hn'; cbn in E; injection E as -> E.
      - reflexivity.
      - exfalso. apply Hn. destruct Hb' as (y & s & H). exists (q' ++ y :: s). exact H.
      - exfalso. apply Hn'. destruct Hb as (y & s & H). exists (q ++ y :: s). exact H.
      - cbn [app]. f_equal.
        set (P' := map (@tl (bool * str)) (filter (fun p => match p with b :: _ => if path_dec [b] [a'] then true else false | [] => false end) P)).
        assert (HI : forall p, In p P' <-> In (a' :: p) P).
        { intros p. unfold P'. rewrite in_map_iff. split.
          - intros ([|b p1] & Hp & H); apply filter_In in H as [H1 H2]; [discriminate|]. destruct (path_dec [b] [a']) as [E1|]; [|discriminate].
            injection E1 as ->. cbn in Hp. subst. exact H1.
          - intros H. exists (a' :: p). split; [reflexivity|]. apply filter_In. split; [exact H|]. destruct (path_dec [a'] [a']); congruence. }
        apply (IH P' x r q' x' r' E).
        + destruct Hb as (y & s & H). exists y, s. apply HI. exact H.
        + intros [s H]. apply Hn. exists s. apply HI in H. exact H.
        + destruct Hb' as (y & s & H). exists y, s. apply HI. exact H.
        + intros [s H]. apply Hn'. exists s. apply HI in H. exact H. }
    intros P ls p p' H H'. destruct H as [q x r Hb Hn|ls Hw]; inversion H' as [q' x' r' Hb' Hn' E1 E2|ls' Hw' E1 E2]; subst.
    - symmetry. eapply Hcut; eassumption.
    - exfalso. apply Hn. eapply Hw'; [reflexivity|exact Hb].
    - exfalso. apply Hn'. eapply Hw; [reflexivity|exact Hb'].
    - reflexivity. }
  induction 1 as [|h c ls body p _ IH Hp]; intros c' H'.
  - inversion H' as [E|h c ls body p H0 Hp E]; subst; [reflexivity|]. apply app_eq_nil in E as [_ E]. discriminate.
  - inversion H' as [E|h' c0 ls' body' p' H0 Hp' E]; subst; [symmetry in E; apply app_eq_nil in E as [_ E]; discriminate|].
    apply app_inj_tail in E as [-> [= -> ->]]. rewrite (IH _ H0) in *. rewrite (HP _ _ _ _ Hp Hp'). reflexivity.
Qed.
Lemma kat_reorder (P : label -> Prop) b : forall b' p, Good P b -> Reorder b b' -> kat p (kflat b) = kat p (kflat b').
Proof.
  induction b as [bs|e m IH] using bbody_ind'; intros b' p HG HR; inversion HR as [|e' m' m1 m2 PM F]; subst; [reflexivity|].
  pose proof (Reorder_good P _ _ HR HG) as HG'. inversion HG as [|e' m' H1 H2 H3]; subst. inversion HG' as [|e' m' H1' H2' H3']; subst.
  destruct p as [|i p]; [rewrite !kat_labels_nil; reflexivity|].
  assert (Hnone : forall m0, (forall kv, In kv m0 -> keyid (fst kv) <> i) -> kat (i :: p) (kflat (BLabels e m0)) = []).
  { intros m0 Hno. cbn [kflat]. rewrite kat_app, kat_cons_here. cbn [app]. induction m0 as [|[k x] m0 IHm]; cbn [flat_map]; [reflexivity|].
    rewrite kat_app, kat_other by (apply (Hno (k, x)); left; reflexivity). apply IHm. intros kv Hkv. apply Hno. right. exact Hkv. }
  destruct (existsb (fun kv => if path_dec [keyid (fst kv)] [i] then true else false) m) eqn:Ex.
  - apply existsb_exists in Ex as ([k x] & Hin & Hk). cbn [fst] in Hk. destruct (path_dec [keyid k] [i]) as [E|]; [|discriminate]. injection E as <-.
    assert (Hin1 : In (k, x) m1) by (eapply Permutation_in; eassumption).
    assert (Hex : exists y, In (k, y) m2 /\ Reorder x y).
    { clear - F Hin1. induction F as [|[ka a] [kb b] l l' [E R] _ IHF]; [destruct Hin1|]. cbn in *. destruct Hin1 as [Hin|Hin].
      - injection Hin as -> ->. subst. exists b. auto.
      - destruct (IHF Hin) as (y & Hy & Ry). exists y. auto. }
    destruct Hex as (y & Hy & Ry). rewrite (kat_labels e m k x p H2 Hin), (kat_labels e m2 k y p H2' Hy).
    rewrite Forall_forall in IH, H3. apply (IH _ Hin); [apply (H3 _ Hin)|exact Ry].
  - rewrite !Hnone; [reflexivity| |].
    + intros kv Hkv E. assert (Hi : In (keyid (fst kv)) (map (fun kv => keyid (fst kv)) m2)) by (apply (in_map (fun kv => keyid (fst kv)) _ _ Hkv)).
      rewrite <- (Forall2_map_fst _ _ F keyid) in Hi. apply in_map_iff in Hi as ([k x] & Hk & Hi).
      apply (Permutation_in _ (Permutation_sym PM)) in Hi. cbn [fst] in Hk.
      assert (existsb (fun kv => if path_dec [keyid (fst kv)] [i] then true else false) m = true).
      { apply existsb_exists. exists (k, x). split; [exact Hi|]. cbn [fst]. destruct (path_dec [keyid k] [i]); congruence. }
      congruence.
    + intros kv Hkv E. assert (existsb (fun kv => if path_dec [keyid (fst kv)] [i] then true else false) m = true).
      { apply existsb_exists. exists kv. split; [exact Hkv|]. destruct (path_dec [keyid (fst kv)] [i]); congruence. }
      congruence.
Qed.
Lemma kat_append (P : label -> Prop) b : forall ls body p, Good P b ->
  kat p (kflat (append b ls body)) = kat p (kflat b) ++ (if path_dec p (map keyid (eff b ls)) then [body] else []).
Proof.
  induction b as [bs|e m IH] using bbody_ind'; intros ls body p HG.
  - destruct ls as [|l ls].
    + cbn [append kflat eff map]. rewrite map_app, kat_app. f_equal. cbn. unfold kat. cbn.
      destruct (path_dec [] p), (path_dec p []); congruence || reflexivity.
    + cbn [append kflat eff map flat_map fst snd]. rewrite kat_app, app_nil_r. f_equal. rewrite kflat_default. cbn [map fst snd].
      unfold kat. cbn [filter fst map]. destruct (path_dec (keyid l :: map keyid ls) p), (path_dec p (keyid l :: map keyid ls)); cbn; congruence || reflexivity.
  - inversion HG as [|e' m' H1 H2 H3]; subst. destruct ls as [|l ls].
    + cbn [append eff map]. destruct p as [|i p].
      * rewrite !kat_labels_nil. destruct (path_dec [] []); congruence.
      * cbn [kflat]. rewrite !kat_app, !kat_cons_here. cbn [app]. destruct (path_dec (i :: p) []); [discriminate|]. rewrite app_nil_r. reflexivity.
    + rewrite append_labels, eff_labels. destruct p as [|i p].
      { rewrite !kat_labels_nil. assert (He : forall m0, eff_in l (fun x => eff x ls) m0 <> []).
        { induction m0 as [|[k x] m0 IHm]; cbn; [discriminate|]. destruct (label_eqb k l); [discriminate|exact IHm]. }
        destruct (path_dec [] (map keyid (eff_in l (fun x => eff x ls) m))) as [E|]; [|rewrite app_nil_r; reflexivity].
        symmetry in E. apply map_eq_nil in E. exfalso. exact (He m E). }
      cbn [kflat]. rewrite !kat_app, !kat_cons_here. cbn [app]. clear H1 HG.
      induction m as [|[k x] m IHm].
      * cbn [upsert eff_in flat_map map fst snd kflat]. unfold kat. cbn [app filter map fst snd].
        destruct (path_dec [keyid l] (i :: p)), (path_dec (i :: p) [keyid l]); cbn; congruence || reflexivity.
      * inversion IH as [|? ? IHx IH']; subst. inversion H3 as [|? ? (_ & _ & Hg) H3']; subst. cbn [map fst] in H2. inversion H2 as [|? ? Hn HD]; subst.
        cbn [upsert eff_in]. cbn [snd] in *. destruct (label_eqb k l) eqn:E.
        -- cbn [flat_map fst snd]. rewrite !kat_app. destruct (path_dec [keyid k] [i]) as [Ei|Ei].
           ++ injection Ei as <-. rewrite !kat_child, (IHx ls body p Hg), <- !app_assoc. f_equal.
              replace (kat (keyid k :: p) (flat_map _ m)) with (@nil body_t).
              ** cbn [app map]. rewrite app_nil_r. destruct (path_dec p (map keyid (eff x ls))), (path_dec (keyid k :: p) (keyid k :: map keyid (eff x ls))); congruence.
              ** symmetry. clear - Hn. induction m as [|[k' x'] m IHm]; cbn [flat_map]; [reflexivity|]. cbn [map fst In] in Hn.
                 rewrite kat_app, kat_other by (cbn; tauto). apply IHm. tauto.
           ++ rewrite !kat_other by congruence. cbn [app map].
              destruct (path_dec (i :: p) (keyid k :: map keyid (eff x ls))); [congruence|]. rewrite app_nil_r. reflexivity.
        -- cbn [flat_map fst snd]. rewrite !kat_app, <- app_assoc. f_equal. apply IHm; assumption.
Qed.
Lemma Built_contents h b : Built h b -> exists c, Contents h c /\ Permutation (kflat b) c /\ forall p, kat p (kflat b) = kat p c.
Proof.
  induction 1 as [|h b ls body b' HB (c & HC & HP & Hk) HR].
  - exists []. split; [constructor|]. split; [apply Permutation_refl|reflexivity].
  - destruct (Built_good _ _ HB) as [HG _].
    exists (c ++ [(map keyid (eff b ls), body)]). split; [|split].
    + constructor; [exact HC|]. replace (map label_id ls) with (map keyid ls) by (apply map_ext; intros l; symmetry; apply label_id_eq).
      apply (Placed_perm (paths b)); [|apply (eff_placed _ b ls HG)]. intros q. split; apply Permutation_in, Permutation_map; [|symmetry]; exact HP.
    + rewrite <- (Reorder_kflat _ _ HR), kflat_append, HP. apply Permutation_cons_append.
    + intros p. assert (HG' : Good (fun l => In l (history_labels h ++ ls)) b).
      { eapply Good_mono; [|exact HG]. intros l Hl. apply in_app_iff. auto. }
      destruct (append_good _ b ls body HG') as [HGa _]; [intros l Hl; apply in_app_iff; auto|].
      rewrite <- (kat_reorder _ _ _ p HGa HR), (kat_append _ b ls body p HG), kat_app, Hk. f_equal.
      unfold kat. cbn [filter fst map]. destruct (path_dec p (map keyid (eff b ls))), (path_dec (map keyid (eff b ls)) p); cbn; congruence || reflexivity.
Qed.
