(** * EqProofs: lemmas about equality *)
From Coq Require Import SpecFloat Permutation.
From Verif Require Import Base Ast Blocks BlockSpec BlockProofs NumConv NumSpec NumProofs Kvp Value ValueSpec ValueProofs NomFacts Equality EqSpec.

Lemma str_eqb_sym a : forall b, str_eqb a b = str_eqb b a.
Proof. induction a as [|x a IH]; intros [|y b]; cbn; try reflexivity. rewrite IH, N.eqb_sym. reflexivity. Qed.
Lemma cow_eqb_iff a b : cow_eqb a b = true <-> own a = own b.
Proof. unfold cow_eqb, own. rewrite str_eqb_eq. split; [intros ->; reflexivity|congruence]. Qed.
Lemma okey_eqb_iff a b : okey_eqb a b = true <-> skel_key a = skel_key b.
Proof. destruct a, b; cbn; rewrite ?cow_eqb_iff; split; congruence. Qed.
Lemma label_eqb_iff a b : label_eqb a b = true <-> skel_label a = skel_label b.
Proof. destruct a, b; cbn; unfold own; rewrite ?str_eqb_eq; split; congruence. Qed.

Notation Eqs := (Forall2 (fun n m => number_eq n m = true)).
Lemma Eqs_app l1 l2 r1 r2 : length l1 = length r1 -> (Eqs (l1 ++ l2) (r1 ++ r2) <-> Eqs l1 r1 /\ Eqs l2 r2).
Proof.
  revert r1. induction l1 as [|x l1 IH]; intros [|y r1]; cbn; intros E; try discriminate.
  - split; [intros H; split; [constructor|exact H]|tauto].
  - injection E as E. specialize (IH r1 E). split.
    + intros H. inversion H; subst. apply IH in H5 as [H5 H6]. split; [constructor|]; assumption.
    + intros [H1 H2]. inversion H1; subst. constructor; [assumption|]. apply IH. tauto.
Qed.

Section ListEq.
  Context {A S : Type} (f : A -> A -> bool) (sk : A -> S) (nums : A -> list number_t).
  Definition Good (x : A) : Prop := forall y,
    (f x y = true <-> sk x = sk y /\ Eqs (nums x) (nums y)) /\ (sk x = sk y -> length (nums x) = length (nums y)).
  Lemma list_eqb_good l : Forall Good l -> forall l',
    (list_eqb f l l' = true <-> map sk l = map sk l' /\ Eqs (flat_map nums l) (flat_map nums l')) /\
    (map sk l = map sk l' -> length (flat_map nums l) = length (flat_map nums l')).
  Proof.
    induction 1 as [|x l Hx _ IH]; intros [|y l']; cbn.
    - split; [|reflexivity]. split; [intros _; split; constructor|reflexivity].
    - split; [|discriminate]. split; [discriminate|intros [E _]; discriminate].
    - split; [|discriminate]. split; [discriminate|intros [E _]; discriminate].
    - destruct (Hx y) as [H1 H2], (IH l') as [H3 H4]. split.
      + rewrite andb_true_iff, H1, H3. split.
        * intros [[Ea Fa] [Eb Fb]]. split; [congruence|]. apply Eqs_app; auto.
        * intros [E F]. injection E as Ea Eb. apply Eqs_app in F as [Fa Fb]; auto.
      + intros E. injection E as Ea Eb. rewrite !app_length, H2, H4 by assumption. reflexivity.
  Qed.
End ListEq.

Lemma expr_good e : Good expr_eqb skel_expr numbers_expr e.
Proof.
  induction e as [|n|b|s|l IH|l IH] using expr_ind'; intros y; destruct y; cbn [expr_eqb skel_expr numbers_expr];
    unfold no_number; try (split; [split; [discriminate|intros [E _]; discriminate]|discriminate]).
  - split; [|reflexivity]. split; [intros _; split; constructor|reflexivity].
  - split; [|reflexivity]. split; [intros H; split; [reflexivity|constructor; [exact H|constructor]]|].
    intros [_ H]. inversion H; subst; assumption.
  - split; [|reflexivity]. rewrite eqb_true_iff. split; [intros ->; split; constructor|intros [E _]; congruence].
  - split; [|reflexivity]. rewrite cow_eqb_iff. split; [intros ->; split; constructor|intros [E _]; congruence].
  - destruct (list_eqb_good _ _ _ l IH l0) as [H1 H2]. split.
    + rewrite H1. split; (intros [E F]; split; [congruence|exact F]).
    + intros E. apply H2. congruence.
  - assert (IH' : Forall (Good (fun ke ke' => okey_eqb (fst ke) (fst ke') && expr_eqb (snd ke) (snd ke'))
      (fun ke => (skel_key (fst ke), skel_expr (snd ke))) (fun ke => numbers_expr (snd ke))) l).
    { apply Forall_forall. intros [k e] Hin [k' e']. cbn [fst snd]. rewrite Forall_forall in IH. specialize (IH _ Hin e') as [H1 H2].
      cbn [snd] in *. rewrite andb_true_iff, okey_eqb_iff, H1. split.
      - split; [intros [-> [-> F]]; auto|intros [E F]; injection E; auto].
      - intros E. apply H2. congruence. }
    destruct (list_eqb_good _ _ _ l IH' l0) as [H1 H2]. split.
    + rewrite H1. split; (intros [E F]; split; [congruence|exact F]).
    + intros E. apply H2. congruence.
Qed.
Lemma labels_good ls ls' : list_eqb label_eqb ls ls' = true <-> map skel_label ls = map skel_label ls'.
Proof.
  revert ls'. induction ls as [|l ls IH]; intros [|l' ls']; cbn; try (split; congruence).
  rewrite andb_true_iff, label_eqb_iff, IH. split; [intros [-> ->]; reflexivity|intros E; injection E; auto].
Qed.
Lemma elem_good el : Good element_eqb skel_elem numbers_elem el.
Proof.
  induction el as [n v|t ls b IH] using element_ind'; intros y; destruct y as [n' v'|t' ls' b']; cbn [element_eqb skel_elem numbers_elem];
    try (split; [split; [discriminate|intros [E _]; discriminate]|discriminate]).
  - destruct (expr_good v v') as [H1 H2]. rewrite andb_true_iff, cow_eqb_iff, H1. split.
    + split; [intros [-> [-> F]]; auto|intros [E F]; repeat split; congruence || exact F].
    + intros E. apply H2. congruence.
  - destruct (list_eqb_good _ _ _ b IH b') as [H1 H2]. rewrite !andb_true_iff, cow_eqb_iff, labels_good, H1. split.
    + split; [intros (-> & -> & -> & F); auto|intros [E F]; repeat split; congruence || exact F].
    + intros E. apply H2. congruence.
Qed.
Lemma body_good : forall b, Good body_eqb skeleton numbers b.
Proof. intros b b'. apply list_eqb_good. apply Forall_forall. intros x _. apply elem_good. Qed.

Lemma body_eqb_spec a b : body_eqb a b = true <-> skeleton a = skeleton b /\ Eqs (numbers a) (numbers b).
Proof. apply body_good. Qed.
Lemma expr_eqb_spec a b : expr_eqb a b = true <-> skel_expr a = skel_expr b /\ Eqs (numbers_expr a) (numbers_expr b).
Proof. apply expr_good. Qed.
Lemma Eqs_sym l l' : Eqs l l' -> Eqs l' l.
Proof. induction 1; constructor; [rewrite number_eq_sym|]; assumption. Qed.
Lemma bool_iff (a b : bool) : (a = true <-> b = true) -> a = b.
Proof. destruct a, b; intuition congruence. Qed.
Lemma body_eqb_sym a b : body_eqb a b = body_eqb b a.
Proof.
  apply bool_iff. rewrite !body_eqb_spec. split; (intros [E F]; split; [congruence|apply Eqs_sym, F]).
Qed.
Lemma Eqs_refl l : Eqs l l <-> Forall (fun n => number_eq n n = true) l.
Proof.
  induction l as [|x l IH]; split; intros H; try constructor; inversion H; subst; try assumption; apply IH; assumption.
Qed.
Lemma body_eqb_refl b : body_eqb b b = true <-> Forall (fun n => number_eq n n = true) (numbers b).
Proof. rewrite body_eqb_spec, Eqs_refl. tauto. Qed.

(** ** Tables *)
Lemma list_eqb_F2 {A} (f : A -> A -> bool) (R : A -> A -> Prop) l : Forall (fun x => forall y, f x y = true <-> R x y) l ->
  forall l', list_eqb f l l' = true <-> Forall2 R l l'.
Proof.
  induction 1 as [|x l Hx _ IH]; intros [|y l']; cbn.
  - split; [constructor|reflexivity].
  - split; [discriminate|intros H; inversion H].
  - split; [discriminate|intros H; inversion H].
  - rewrite andb_true_iff, Hx, IH. split; [intros [H1 H2]; constructor; assumption|intros H; inversion H; auto].
Qed.
Section Tables.
  Context {K V I : Type} (k_eqb : K -> K -> bool) (id : K -> I) (Hk : forall a b, k_eqb a b = true <-> id a = id b).
  Notation ids m := (map (fun kv => id (fst kv)) m).
  Lemma find_id (m : list (K * V)) k v k' : NoDup (ids m) -> In (k, v) m -> id k = id k' ->
    find (fun kv => k_eqb (fst kv) k') m = Some (k, v).
  Proof.
    induction m as [|[q w] m IH]; cbn [map find In]; intros HD Hin E; [destruct Hin|].
    inversion HD as [|? ? Hn HD']; subst. cbn [fst] in *. destruct (k_eqb q k') eqn:Eq.
    - apply Hk in Eq. destruct Hin as [Hin|Hin]; [congruence|]. elim Hn. rewrite Eq, <- E.
      apply (in_map (fun kv => id (fst kv)) _ (k, v)), Hin.
    - destruct Hin as [Hin|Hin]; [|apply IH; assumption]. injection Hin as -> ->.
      apply Hk in E. congruence.
  Qed.
  Lemma hm_eqb_spec (f : V -> V -> bool) (m m' : list (K * V)) : NoDup (ids m) -> NoDup (ids m') ->
    (hm_eqb k_eqb f m m' = true <->
     exists m1, Permutation m' m1 /\ Forall2 (fun a b => id (fst a) = id (fst b) /\ f (snd a) (snd b) = true) m m1).
  Proof.
    intros HD HD'. unfold hm_eqb. rewrite andb_true_iff, Nat.eqb_eq, forallb_forall. split.
    - intros [HL HF]. revert m' HD' HL HF. induction m as [|[k v] m IH]; intros m' HD' HL HF.
      + destruct m'; [|discriminate]. exists []. split; constructor.
      + pose proof (HF (k, v) (or_introl eq_refl)) as H. cbn [fst snd] in H.
        destruct (find (fun kv' => k_eqb (fst kv') k) m') as [[k' v']|] eqn:Ef; [|discriminate].
        apply find_some in Ef as [Hin Ek]. cbn [fst snd] in *. apply Hk in Ek.
        apply in_split in Hin as (x & y & ->).
        assert (HP : Permutation (x ++ (k', v') :: y) ((k', v') :: x ++ y)) by (symmetry; apply Permutation_middle).
        pose proof (Permutation_NoDup (Permutation_map (fun kv => id (fst kv)) HP) HD') as HD2. cbn [map] in HD2.
        inversion HD2 as [|? ? Hn HD3]; subst. cbn [map] in HD. inversion HD as [|? ? Hn0 HD0]; subst.
        destruct (IH HD0 (x ++ y) HD3) as (m1 & P1 & F1).
        * apply Permutation_length in HP. cbn [length] in *. lia.
        * intros [k2 v2] Hin2. cbn [fst snd]. pose proof (HF (k2, v2) (or_intror Hin2)) as H2. cbn [fst snd] in H2.
          destruct (find (fun kv' => k_eqb (fst kv') k2) (x ++ (k', v') :: y)) as [[k3 v3]|] eqn:Ef; [|discriminate].
          apply find_some in Ef as [Hin3 Ek3]. cbn [fst snd] in *. apply Hk in Ek3.
          rewrite (find_id (x ++ y) k3 v3 k2 HD3); [exact H2| |exact Ek3].
          apply (Permutation_in _ HP) in Hin3 as [E|Hin3]; [|exact Hin3]. injection E as <- <-. elim Hn0. cbn [fst].
          rewrite <- Ek, Ek3. apply (in_map (fun kv => id (fst kv)) _ (k2, v2)), Hin2.
        * exists ((k', v') :: m1). split; [rewrite HP; apply perm_skip, P1|]. constructor; [|exact F1]. split; [symmetry; exact Ek|exact H].
    - intros (m1 & HP & HF). split; [rewrite (Permutation_length HP); clear HP HD HD'; induction HF; cbn; congruence|].
      intros [k v] Hin. cbn [fst snd].
      assert (Hx : exists k' v', In (k', v') m1 /\ id k = id k' /\ f v v' = true).
      { clear HP HD HD'. induction HF as [|[k1 v1] [k2 v2] l1 l2 [E1 E2] _ IH]; [destruct Hin|]. destruct Hin as [E|Hin].
        - injection E as -> ->. exists k2, v2. split; [left; reflexivity|]. auto.
        - destruct (IH Hin) as (a & b & H1 & H2). exists a, b. split; [right; exact H1|exact H2]. }
      destruct Hx as (k' & v' & Hin' & E & Hf). rewrite (find_id m' k' v' k HD'); [exact Hf| |symmetry; exact E].
      eapply Permutation_in; [symmetry; exact HP|exact Hin'].
  Qed.
End Tables.

Lemma Forall2_iff_in {A B} (P Q : A -> B -> Prop) l l' : (forall a b, In a l -> In b l' -> (P a b <-> Q a b)) -> (Forall2 P l l' <-> Forall2 Q l l').
Proof.
  intros H. split.
  - intros HF. induction HF as [|a b l l' Hab _ IH]; constructor; [apply H; [left; reflexivity|left; reflexivity|exact Hab]|].
    apply IH. intros x y Hx Hy. apply H; right; assumption.
  - intros HF. induction HF as [|a b l l' Hab _ IH]; constructor; [apply H; [left; reflexivity|left; reflexivity|exact Hab]|].
    apply IH. intros x y Hx Hy. apply H; right; assumption.
Qed.

(** ** Block indexes *)
Notation same_body := (fun a b : body_t => skeleton a = skeleton b /\ Forall2 (fun n m => number_eq n m = true) (numbers a) (numbers b)).
Lemma bodies_eqb l l' : list_eqb body_eqb l l' = true <-> Forall2 same_body l l'.
Proof. apply list_eqb_F2. apply Forall_forall. intros x _ y. apply body_eqb_spec. Qed.
Lemma bbody_eqb_spec b : forall b', DistinctKeys b -> DistinctKeys b' -> (bbody_eqb b b' = true <-> bsame b b').
Proof.
  induction b as [l|e m IH] using bbody_ind'; intros b' HD HD'; destruct b' as [l'|e' m']; cbn [bbody_eqb].
  - rewrite bodies_eqb. split; [constructor; assumption|intros H; inversion H; assumption].
  - split; [discriminate|intros H; inversion H].
  - split; [discriminate|intros H; inversion H].
  - inversion HD as [|? ? HN HF]; subst. inversion HD' as [|? ? HN' HF']; subst.
    rewrite andb_true_iff, bodies_eqb, (hm_eqb_spec label_eqb skel_label label_eqb_iff) by assumption.
    assert (HX : forall m1, Permutation m' m1 ->
      (Forall2 (fun a b => skel_label (fst a) = skel_label (fst b) /\ bbody_eqb (snd a) (snd b) = true) m m1 <->
       Forall2 (fun a b => skel_label (fst a) = skel_label (fst b) /\ bsame (snd a) (snd b)) m m1)).
    { intros m1 HP. apply Forall2_iff_in. intros a b Ha Hb. rewrite Forall_forall in IH, HF, HF'.
      rewrite (IH a Ha) by first [solve [auto] | apply HF'; eapply Permutation_in; [symmetry; exact HP|exact Hb]]. tauto. }
    split.
    + intros [He (m1 & HP & H)]. apply (BS_labels e e' m m1 m'); [exact He|exact HP|apply HX; assumption].
    + intros H. inversion H as [|? ? ? m1 ? He HP HF2]; subst. split; [exact He|]. exists m1. split; [exact HP|apply HX; assumption].
Qed.
Lemma blocks_eqb_spec m m' : DistinctBlocks m -> DistinctBlocks m' -> (blocks_eqb m m' = true <-> blocks_same m m').
Proof.
  intros [HN HF] [HN' HF']. unfold blocks_eqb. rewrite (hm_eqb_spec cow_eqb cow_str) by (assumption || (intros; unfold cow_eqb; apply str_eqb_eq)).
  assert (HX : forall m1, Permutation m' m1 ->
    (Forall2 (fun a b => cow_str (fst a) = cow_str (fst b) /\ bbody_eqb (snd a) (snd b) = true) m m1 <->
     Forall2 (fun a b => cow_str (fst a) = cow_str (fst b) /\ bsame (snd a) (snd b)) m m1)).
  { intros m1 HP. apply Forall2_iff_in. intros a b Ha Hb. rewrite Forall_forall in HF, HF'.
    rewrite bbody_eqb_spec by first [solve [auto] | apply HF'; eapply Permutation_in; [symmetry; exact HP|exact Hb]]. tauto. }
  split.
  - intros (m1 & HP & H). apply (BSS m m1 m'); [exact HP|apply HX; assumption].
  - intros H. inversion H as [? m1 ? HP HF2]; subst. exists m1. split; [exact HP|apply HX; assumption].
Qed.

(** ** Values *)
Lemma key_eqb_iff a b : key_eqb a b = true <-> (fun k : key => k) a = (fun k : key => k) b.
Proof. apply key_eqb_eq. Qed.
Lemma labels_eqb_iff a b : labels_eqb a b = true <-> (fun k : list str => k) a = (fun k : list str => k) b.
Proof. apply labels_eqb_eq. Qed.
Lemma kvp_eqb_u {K V} (e : K -> K -> bool) (He : forall a b, e a b = true <-> a = b) (f : V -> V -> bool) (R : V -> V -> Prop) l l' :
  (forall a b, In a l -> In b l' -> (f (snd a) (snd b) = true <-> R (snd a) (snd b))) ->
  (list_eqb (fun a b => e (fst a) (fst b) && f (snd a) (snd b)) l l' = true <-> Forall2 (fun a b => fst a = fst b /\ R (snd a) (snd b)) l l').
Proof.
  intros H. revert l' H. induction l as [|a l IH]; intros [|b l'] H; cbn.
  - split; [constructor|reflexivity].
  - split; [discriminate|intros X; inversion X].
  - split; [discriminate|intros X; inversion X].
  - rewrite !andb_true_iff, He, (H a b (or_introl eq_refl) (or_introl eq_refl)), IH by (intros; apply H; right; assumption).
    split; [intros [? ?]; constructor; assumption|intros X; inversion X; auto].
Qed.
Lemma kvp_eqb_m {K V} (e : K -> K -> bool) (He : forall a b, e a b = true <-> a = b) (f : V -> V -> bool) (R : V -> V -> Prop) m m' :
  NoDup (map fst m) -> NoDup (map fst m') ->
  (forall a b, In a m -> In b m' -> (f (snd a) (snd b) = true <-> R (snd a) (snd b))) ->
  (hm_eqb e f m m' = true <-> exists m1, Permutation m' m1 /\ Forall2 (fun a b => fst a = fst b /\ R (snd a) (snd b)) m m1).
Proof.
  intros HD HD' H. rewrite (hm_eqb_spec e (fun k => k) He f m m' HD HD').
  assert (HX : forall m1, Permutation m' m1 -> (Forall2 (fun a b => fst a = fst b /\ f (snd a) (snd b) = true) m m1 <->
    Forall2 (fun a b => fst a = fst b /\ R (snd a) (snd b)) m m1)).
  { intros m1 HP. apply Forall2_iff_in. intros a b Ha Hb. rewrite (H a b Ha); [tauto|].
    eapply Permutation_in; [symmetry; exact HP|exact Hb]. }
  split; intros (m1 & HP & HF); exists m1; (split; [exact HP|]); apply HX; assumption.
Qed.
Lemma value_eqb_spec :
  (forall v w, WfTables v -> WfTables w -> (value_eqb v w = true <-> vsame v w)) /\
  (forall p q, WfTablesMap p -> WfTablesMap q -> (mapvalues_eqb p q = true <-> msame p q)).
Proof.
  apply value_map_ind.
  - intros w _ _. destruct w; cbn; (split; [try discriminate; constructor|intros H; inversion H; reflexivity]).
  - intros i w _ _. destruct w; cbn; try (split; [discriminate|intros H; inversion H]). rewrite Z.eqb_eq. split; [intros ->; constructor|intros H; inversion H; reflexivity].
  - intros f w _ _. destruct w; cbn; try (split; [discriminate|intros H; inversion H]). split; [constructor; assumption|intros H; inversion H; assumption].
  - intros b w _ _. destruct w; cbn; try (split; [discriminate|intros H; inversion H]). rewrite eqb_true_iff. split; [intros ->; constructor|intros H; inversion H; reflexivity].
  - intros s w _ _. destruct w; cbn; try (split; [discriminate|intros H; inversion H]). rewrite str_eqb_eq. split; [intros ->; constructor|intros H; inversion H; reflexivity].
  - intros l IH w HW HW'. destruct w; cbn; try (split; [discriminate|intros H; inversion H]).
    inversion HW as [|? X|? HF| |]; subst; [discriminate|]. inversion HW' as [|? X|? HF'| |]; subst; [discriminate|].
    assert (HE : list_eqb value_eqb l l0 = true <-> Forall2 vsame l l0).
    { clear HW HW'. revert l0 HF'. induction l as [|x l IHl]; intros [|y l0] HF'; cbn.
      - split; [constructor|reflexivity].
      - split; [discriminate|intros X; inversion X].
      - split; [discriminate|intros X; inversion X].
      - inversion IH; subst. inversion HF; subst. inversion HF'; subst. rewrite andb_true_iff, H1, IHl by assumption.
        split; [intros [? ?]; constructor; assumption|intros X; inversion X; auto]. }
    rewrite HE. split; [constructor; assumption|intros X; inversion X; assumption].
  - intros l IH w HW HW'. destruct w; cbn; try (split; [discriminate|intros H; inversion H]).
    inversion HW as [|? X| |? HF|]; subst; [discriminate|]. inversion HW' as [|? X| |? HF'|]; subst; [discriminate|].
    assert (HE : list_eqb mapvalues_eqb l l0 = true <-> Forall2 msame l l0).
    { clear HW HW'. revert l0 HF'. induction l as [|x l IHl]; intros [|y l0] HF'; cbn.
      - split; [constructor|reflexivity].
      - split; [discriminate|intros X; inversion X].
      - split; [discriminate|intros X; inversion X].
      - inversion IH; subst. inversion HF; subst. inversion HF'; subst. rewrite andb_true_iff, H1, IHl by assumption.
        split; [intros [? ?]; constructor; assumption|intros X; inversion X; auto]. }
    fold mapvalues_eqb. rewrite HE. split; [constructor; assumption|intros X; inversion X; assumption].
  - intros b IH w HW HW'. destruct w; cbn; try (split; [discriminate|intros H; inversion H]).
    inversion HW as [|? X| | |? HN HF]; subst; [discriminate|]. inversion HW' as [|? X| | |? HN' HF']; subst; [discriminate|].
    rewrite Forall_forall in IH, HF, HF'. fold mapvalues_eqb.
    destruct b as [m|l], b0 as [m'|l']; cbn [entries kvp_eqb NoDupTable] in *; try (split; [discriminate|intros H; inversion H]).
    + rewrite (kvp_eqb_m labels_eqb labels_eqb_eq mapvalues_eqb msame m m' HN HN').
      * split; [intros (m1 & HP & H); apply (VS_block_m m m1 m'); assumption|intros H; inversion H; subst; eauto].
      * intros a b Ha Hb. apply IH; auto.
    + rewrite (kvp_eqb_u labels_eqb labels_eqb_eq mapvalues_eqb msame).
      * split; [constructor; assumption|intros H; inversion H; subst; assumption].
      * intros a b Ha Hb. apply IH; auto.
  - intros p IH q HW HW'. inversion HW as [? HN HF]; subst. inversion HW' as [? HN' HF']; subst.
    rewrite Forall_forall in IH, HF, HF'. unfold mapvalues_eqb.
    destruct p as [m|l], q as [m'|l']; cbn [entries kvp_eqb NoDupTable] in *; try (split; [discriminate|intros H; inversion H]).
    + rewrite (kvp_eqb_m key_eqb key_eqb_eq value_eqb vsame m m' HN HN').
      * split; [intros (m1 & HP & H); apply (MS_m m m1 m'); assumption|intros H; inversion H; subst; eauto].
      * intros a b Ha Hb. apply IH; auto.
    + rewrite (kvp_eqb_u key_eqb key_eqb_eq value_eqb vsame).
      * split; [constructor; assumption|intros H; inversion H; subst; assumption].
      * intros a b Ha Hb. apply IH; auto.
Qed.

(** ** Reflexivity *)
Lemma list_eqb_refl {A} (f : A -> A -> bool) l : list_eqb f l l = true <-> Forall (fun x => f x x = true) l.
Proof.
  induction l as [|x l IH]; cbn; [split; constructor|]. rewrite andb_true_iff, IH.
  split; [intros [? ?]; constructor; assumption|intros H; inversion H; auto].
Qed.
Lemma hm_eqb_refl {K V} (e : K -> K -> bool) (He : forall a b, e a b = true <-> a = b) (f : V -> V -> bool) (m : list (K * V)) :
  NoDup (map fst m) -> (hm_eqb e f m m = true <-> Forall (fun kv => f (snd kv) (snd kv) = true) m).
Proof.
  intros HD. unfold hm_eqb. rewrite Nat.eqb_refl. cbn [andb]. rewrite forallb_forall, Forall_forall.
  split; intros H [k v] Hin; specialize (H _ Hin); cbn [fst snd] in *;
    rewrite (find_id e (fun k => k) He m k v k HD Hin eq_refl) in *; exact H.
Qed.
Lemma kvp_eqb_refl {K V} (e : K -> K -> bool) (He : forall a b, e a b = true <-> a = b) (f : V -> V -> bool) (p : kvp K V) :
  NoDupTable p -> (kvp_eqb e f p p = true <-> Forall (fun kv => f (snd kv) (snd kv) = true) (entries p)).
Proof.
  intros HN. destruct p as [m|l]; cbn [kvp_eqb entries] in *; [apply hm_eqb_refl; assumption|].
  rewrite list_eqb_refl. split; apply Forall_impl; intros [k v]; cbn; rewrite andb_true_iff; [tauto|].
  intros H. split; [apply He; reflexivity|exact H].
Qed.
Lemma Forall_iff_in {A} (P Q : A -> Prop) l : (forall a, In a l -> (P a <-> Q a)) -> (Forall P l <-> Forall Q l).
Proof. intros H. rewrite !Forall_forall. split; intros HF x Hx; apply (H x Hx), HF, Hx. Qed.
Lemma SFeqb_nan a : SFeqb a a = true <-> a <> SpecFloat.S754_nan.
Proof. split; [intros H ->; discriminate|apply SFeqb_refl]. Qed.
Lemma value_eqb_refl :
  (forall v, WfTables v -> (value_eqb v v = true <-> NoNaN v)) /\
  (forall p, WfTablesMap p -> (mapvalues_eqb p p = true <-> NoNaNMap p)).
Proof.
  apply value_map_ind.
  - intros _. split; [constructor|reflexivity].
  - intros i _. cbn. rewrite Z.eqb_refl. split; [constructor|reflexivity].
  - intros f _. cbn. rewrite SFeqb_nan. split; [constructor; assumption|intros H; inversion H; assumption].
  - intros b _. cbn. rewrite eqb_reflx. split; [constructor|reflexivity].
  - intros s _. cbn. rewrite (proj2 (str_eqb_eq s s) eq_refl). split; [constructor|reflexivity].
  - intros l IH HW. inversion HW as [|? X|? HF| |]; subst; [discriminate|]. cbn [value_eqb]. rewrite list_eqb_refl.
    rewrite Forall_forall in IH, HF. rewrite (Forall_iff_in _ NoNaN l) by (intros a Ha; apply IH; auto).
    split; [constructor; assumption|intros H; inversion H; assumption].
  - intros l IH HW. inversion HW as [|? X| |? HF|]; subst; [discriminate|]. cbn [value_eqb]. rewrite list_eqb_refl. fold mapvalues_eqb.
    rewrite Forall_forall in IH, HF. rewrite (Forall_iff_in _ NoNaNMap l) by (intros a Ha; apply IH; auto).
    split; [constructor; assumption|intros H; inversion H; assumption].
  - intros b IH HW. inversion HW as [|? X| | |? HN HF]; subst; [discriminate|]. cbn [value_eqb]. fold mapvalues_eqb.
    rewrite (kvp_eqb_refl labels_eqb labels_eqb_eq mapvalues_eqb b HN).
    rewrite Forall_forall in IH, HF. rewrite (Forall_iff_in _ (fun kv => NoNaNMap (snd kv)) (entries b)) by (intros a Ha; apply IH; auto).
    split; [constructor; assumption|intros H; inversion H; assumption].
  - intros p IH HW. inversion HW as [? HN HF]; subst. unfold mapvalues_eqb.
    rewrite (kvp_eqb_refl key_eqb key_eqb_eq value_eqb p HN).
    rewrite Forall_forall in IH, HF. rewrite (Forall_iff_in _ (fun kv => NoNaN (snd kv)) (entries p)) by (intros a Ha; apply IH; auto).
    split; [constructor; assumption|intros H; inversion H; assumption].
Qed.

(** Equality of contents (as in ValueSpec) is equality here, unless there is a NaN. *)
Lemma entries_flip {K V} (R S : V -> V -> Prop) (m m1 m' : list (K * V)) : Permutation m m1 ->
  Forall2 (fun a b => fst a = fst b /\ R (snd a) (snd b)) m1 m' ->
  (forall a b, In a m -> R (snd a) b -> S (snd a) b) ->
  exists m2, Permutation m' m2 /\ Forall2 (fun a b => fst a = fst b /\ S (snd a) (snd b)) m m2.
Proof.
  intros HP HF HS. destruct (Forall2_Permutation _ _ _ m HF (Permutation_sym HP)) as (m2 & HP2 & HF2).
  exists m2. split; [exact HP2|]. clear HP HF HP2. induction HF2 as [|a b l l' [E H] _ IH]; constructor.
  - split; [exact E|]. apply HS; [left; reflexivity|exact H].
  - apply IH. intros x y Hx. apply HS. right. exact Hx.
Qed.
Lemma F2_in {A B} (P Q : A -> B -> Prop) l l' : Forall2 P l l' -> (forall a b, In a l -> P a b -> Q a b) -> Forall2 Q l l'.
Proof. intros HF. induction HF; intros HI; constructor; [apply HI; [left; reflexivity|assumption]|]. apply IHHF. intros. apply HI; [right|]; assumption. Qed.
Lemma veq_vsame :
  (forall v w, veq v w -> NoNaN v -> vsame v w) /\ (forall p q, meq p q -> NoNaNMap p -> msame p q).
Proof.
  apply value_map_ind.
  - intros w H _. inversion H; constructor.
  - intros i w H _. inversion H; constructor.
  - intros f w H HN. inversion H; subst. inversion HN; subst. constructor. apply SFeqb_nan. assumption.
  - intros b w H _. inversion H; constructor.
  - intros s w H _. inversion H; constructor.
  - intros l IH w H HN. inversion H as [| | | | |? l' HF| | |]; subst. inversion HN as [| | | | |? HA| |]; subst. constructor.
    rewrite Forall_forall in IH, HA. apply (F2_in _ _ _ _ HF). intros a b Ha Hab. apply IH; auto.
  - intros l IH w H HN. inversion H as [| | | | | |? l' HF| |]; subst. inversion HN as [| | | | | |? HA|]; subst. constructor.
    rewrite Forall_forall in IH, HA. apply (F2_in _ _ _ _ HF). intros a b Ha Hab. apply IH; auto.
  - intros b IH w H HN. inversion HN as [| | | | | | |? HA]; subst. rewrite Forall_forall in IH, HA.
    inversion H as [| | | | | | |l l' HF|l l1 l' HP HF]; subst; cbn [entries] in *.
    + constructor. apply (F2_in _ _ _ _ HF). intros a c Ha [E Hab]. split; [exact E|]. apply IH; auto.
    + destruct (entries_flip meq msame l l1 l' HP HF) as (m2 & HP2 & HF2); [intros a c Ha Hac; apply IH; auto|].
      apply (VS_block_m l m2 l'); assumption.
  - intros p IH w H HN. inversion HN as [? HA]; subst. rewrite Forall_forall in IH, HA.
    inversion H as [l l' HF|l l1 l' HP HF]; subst; cbn [entries] in *.
    + constructor. apply (F2_in _ _ _ _ HF). intros a c Ha [E Hab]. split; [exact E|]. apply IH; auto.
    + destruct (entries_flip veq vsame l l1 l' HP HF) as (m2 & HP2 & HF2); [intros a c Ha Hac; apply IH; auto|].
      apply (MS_m l m2 l'); assumption.
Qed.
Lemma entries_keys {K V} (R : V -> V -> Prop) (l l' : list (K * V)) : Forall2 (fun a b => fst a = fst b /\ R (snd a) (snd b)) l l' -> map fst l = map fst l'.
Proof. induction 1 as [|a b l l' [E _] _ IH]; cbn; congruence. Qed.
Lemma F2_Forall {A B} (P : A -> B -> Prop) (Q : B -> Prop) l l' : Forall2 P l l' -> (forall a b, In a l -> P a b -> Q b) -> Forall Q l'.
Proof. intros HF. induction HF as [|a b l l' Hab _ IH]; intros HI; constructor; [apply (HI a b); [left; reflexivity|exact Hab]|]. apply IH. intros x y Hx. apply HI. right. exact Hx. Qed.
Lemma veq_wf : (forall v w, veq v w -> WfTables v -> WfTables w) /\ (forall p q, meq p q -> WfTablesMap p -> WfTablesMap q).
Proof.
  apply value_map_ind.
  - intros w H _. inversion H; constructor.
  - intros i w H _. inversion H; constructor; reflexivity.
  - intros f w H _. inversion H; constructor; reflexivity.
  - intros b w H _. inversion H; constructor; reflexivity.
  - intros s w H _. inversion H; constructor; reflexivity.
  - intros l IH w H HW. inversion H as [| | | | |? l' HF| | |]; subst. inversion HW as [|? X|? HA| |]; subst; [discriminate|]. apply WF_list.
    rewrite Forall_forall in IH, HA. apply (F2_Forall _ _ _ _ HF). intros a b Ha Hab. eapply IH; eauto.
  - intros l IH w H HW. inversion H as [| | | | | |? l' HF| |]; subst. inversion HW as [|? X| |? HA|]; subst; [discriminate|]. apply WF_object.
    rewrite Forall_forall in IH, HA. apply (F2_Forall _ _ _ _ HF). intros a b Ha Hab. eapply IH; eauto.
  - intros b IH w H HW. inversion HW as [|? X| | |? HN HA]; subst; [discriminate|]. rewrite Forall_forall in IH, HA.
    inversion H as [| | | | | | |l l' HF|l l1 l' HP HF]; subst; cbn [entries NoDupTable] in *; apply WF_block; cbn [entries NoDupTable]; trivial.
    + apply (F2_Forall _ _ _ _ HF). intros a c Ha [E Hab]. eapply IH; eauto.
    + rewrite <- (entries_keys _ _ _ HF). eapply Permutation_NoDup; [apply Permutation_map, HP|exact HN].
    + apply (F2_Forall _ _ _ _ HF). intros a c Ha [E Hab]. assert (Ha' : In a l) by (eapply Permutation_in; [symmetry; exact HP|exact Ha]). eapply IH; eauto.
  - intros p IH w H HW. inversion HW as [? HN HA]; subst. rewrite Forall_forall in IH, HA.
    inversion H as [l l' HF|l l1 l' HP HF]; subst; cbn [entries NoDupTable] in *; apply WF_map; cbn [entries NoDupTable]; trivial.
    + apply (F2_Forall _ _ _ _ HF). intros a c Ha [E Hab]. eapply IH; eauto.
    + rewrite <- (entries_keys _ _ _ HF). eapply Permutation_NoDup; [apply Permutation_map, HP|exact HN].
    + apply (F2_Forall _ _ _ _ HF). intros a c Ha [E Hab]. assert (Ha' : In a l) by (eapply Permutation_in; [symmetry; exact HP|exact Ha]). eapply IH; eauto.
Qed.

(** ** Documents have no NaN, and merging makes none *)
Lemma Combined_nonan vs v : Combined vs v -> Forall NoNaN vs -> NoNaN v.
Proof.
  intros H HF. destruct H as [v|l1 l2 ls|b1 b2 bs m HT].
  - inversion HF; assumption.
  - apply NN_object. apply Forall_concat. rewrite Forall_map in HF. eapply Forall_impl; [|exact HF].
    intros l Hl. inversion Hl; assumption.
  - apply NN_block. cbn [entries]. apply Forall_forall. intros [k p] Hin. apply (proj2 HT) in Hin as (x & y & E & _).
    assert (Hin : In (k, p) (concat (map entries (b1 :: b2 :: bs)))) by (rewrite E; apply in_or_app; right; left; reflexivity).
    apply in_concat in Hin as (es & Hes & Hin). apply in_map_iff in Hes as (b & <- & Hb).
    rewrite Forall_map, Forall_forall in HF. specialize (HF b Hb). inversion HF as [| | | | | | |? HA]; subst.
    rewrite Forall_forall in HA. exact (HA _ Hin).
Qed.
Lemma values_of_Forall (P : value -> Prop) k l : Forall (fun kv => P (snd kv)) l -> Forall P (values_of k l).
Proof.
  intros H. unfold values_of. apply Forall_map. rewrite Forall_forall in *. intros x Hx. apply filter_In in Hx as [Hx _]. apply H, Hx.
Qed.
Lemma merges_nonan :
  (forall v r, MergesTo v r -> NoNaN v -> NoNaN r) /\ (forall p r, MapMergesTo p r -> NoNaNMap p -> NoNaNMap r).
Proof.
  apply value_map_ind.
  1-5: intros; match goal with H : MergesTo _ _ |- _ => inversion H; subst; assumption end.
  - intros l IH r H HN. inversion H as [|? X|? l' HF| |]; subst; [discriminate|]. inversion HN as [| | | | |? HA| |]; subst.
    apply NN_list. rewrite Forall_forall in IH, HA. apply (F2_Forall _ _ _ _ HF). intros a b Ha Hab. eapply IH; eauto.
  - intros l IH r H HN. inversion H as [|? X| |? l' HF|]; subst; [discriminate|]. inversion HN as [| | | | | |? HA|]; subst.
    apply NN_object. rewrite Forall_forall in IH, HA. apply (F2_Forall _ _ _ _ HF). intros a b Ha Hab. eapply IH; eauto.
  - intros b IH r H HN. inversion H as [|? X| | |? l' m HF HT]; subst; [discriminate|]. inversion HN as [| | | | | | |? HA]; subst.
    apply NN_block. cbn [entries]. rewrite Forall_forall in IH, HA.
    assert (HL : Forall (fun kv => NoNaNMap (snd kv)) l').
    { apply (F2_Forall _ _ _ _ HF). intros a c Ha [_ Hab]. eapply IH; eauto. }
    rewrite Forall_forall in *. intros [k p] Hin. apply (proj2 HT) in Hin as (x & y & E & _). apply (HL (k, p)). rewrite E. apply in_or_app. right. left. reflexivity.
  - intros p IH r H HN. inversion H as [|l l' m HF HD HK HC]; subst; [assumption|]. inversion HN as [? HA]; subst. cbn [entries] in *.
    apply NN_map. cbn [entries]. rewrite Forall_forall in IH, HA.
    assert (HL : Forall (fun kv => NoNaN (snd kv)) l').
    { apply (F2_Forall _ _ _ _ HF). intros a c Ha [_ Hab]. eapply IH; eauto. }
    apply Forall_forall. intros [k v] Hin. cbn [snd]. eapply Combined_nonan; [apply (HC k v Hin)|]. apply values_of_Forall, HL.
Qed.
