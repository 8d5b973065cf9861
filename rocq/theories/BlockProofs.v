(** * BlockProofs: lemmas on the block index *)
From Coq Require Import Permutation.
From Verif Require Import Base Ast NomFacts MoreProofs Blocks BlockSpec.

(** ** Labels *)
Definition keyid (l : label) : bool * str :=
  match l with LString s => (true, s) | LIdent i => (false, cow_str i) end.
Lemma label_eqb_keyid a b : label_eqb a b = true <-> keyid a = keyid b.
Proof.
  destruct a, b; cbn; rewrite ?str_eqb_eq; split; try congruence.
Qed.
Lemma label_eqb_refl a : label_eqb a a = true.
Proof. apply label_eqb_keyid. reflexivity. Qed.
Lemma keyid_kind a b : keyid a = keyid b <-> SameKind a b /\ label_str a = label_str b.
Proof. destruct a, b; cbn; split; try (intros [= ?]; auto); try (intros [[] ?]); try (intros [_ ?]); congruence. Qed.
Lemma label_eqb_str a b : label_eqb a b = true -> label_str a = label_str b.
Proof. intros H. apply label_eqb_keyid, keyid_kind in H. tauto. Qed.

(** ** The [entry] loop of [append] as a function *)
Section Upsert.
  Context (l : label) (f : bbody -> bbody) (d : bbody).
  Fixpoint upsert (m : list (label * bbody)) : list (label * bbody) :=
    match m with
    | [] => [(l, d)]
    | (k, x) :: m' => if label_eqb k l then (k, f x) :: m' else (k, x) :: upsert m'
    end.
End Upsert.
Lemma append_labels e m l ls body :
  append (BLabels e m) (l :: ls) body = BLabels e (upsert l (fun x => append x ls body) (BBody [body]) m).
Proof. reflexivity. Qed.
Lemma append_default_eq ls body : append bdefault ls body = append_default ls body.
Proof. destruct ls; reflexivity. Qed.

(** Where [append] puts the body *)
Fixpoint eff (b : bbody) (ls : list label) {struct b} : list label :=
  match b, ls with
  | BBody _, _ => ls
  | BLabels _ _, [] => []
  | BLabels _ m, l :: ls' =>
      (fix go (m : list (label * bbody)) : list label :=
         match m with
         | [] => [l]
         | (k, x) :: m' => if label_eqb k l then k :: eff x ls' else go m'
         end) m
  end.
Section EffIn.
  Context (l : label) (f : bbody -> list label).
  Fixpoint eff_in (m : list (label * bbody)) : list label :=
    match m with
    | [] => [l]
    | (k, x) :: m' => if label_eqb k l then k :: f x else eff_in m'
    end.
End EffIn.
Lemma eff_labels e m l ls : eff (BLabels e m) (l :: ls) = eff_in l (fun x => eff x ls) m.
Proof. reflexivity. Qed.

Lemma eff_prefix b : forall ls, is_prefix (map label_str (eff b ls)) (map label_str ls).
Proof.
  induction b as [bs|e m IH] using bbody_ind'; intros ls; [exists []; cbn; rewrite app_nil_r; reflexivity|].
  destruct ls as [|l ls]; [exists []; reflexivity|]. rewrite eff_labels.
  induction IH as [|[k x] m Hx _ IHm]; cbn [eff_in map]; [exists (map label_str ls); reflexivity|].
  destruct (label_eqb k l) eqn:E; [|exact IHm]. cbn [map]. destruct (Hx ls) as [r Hr]. exists r. cbn [snd] in Hr.
  rewrite Hr, (label_eqb_str k l E). reflexivity.
Qed.

(** ** flat_iter *)
Lemma flat_iter_default ls body : flat_iter (append_default ls body) = [(map label_str ls, body)].
Proof. induction ls as [|l ls IH]; cbn; [reflexivity|]. rewrite IH. reflexivity. Qed.
Lemma flat_iter_append b : forall ls body,
  Permutation (flat_iter (append b ls body)) ((map label_str (eff b ls), body) :: flat_iter b).
Proof.
  induction b as [bs|e m IH] using bbody_ind'; intros ls body.
  - destruct ls as [|l ls]; cbn [append flat_iter eff].
    + rewrite map_app. cbn. symmetry. apply Permutation_cons_append.
    + cbn [flat_map app fst snd]. rewrite flat_iter_default. cbn. symmetry. apply Permutation_cons_append.
  - destruct ls as [|l ls].
    + cbn [append flat_iter eff map]. rewrite map_app. cbn [map]. rewrite <- app_assoc.
      symmetry. apply Permutation_middle.
    + rewrite append_labels, eff_labels. cbn [flat_iter].
      set (g := fun kv : label * bbody => map (fun pb : list str * body_t => (label_str (fst kv) :: fst pb, snd pb)) (flat_iter (snd kv))).
      assert (H : Permutation (flat_map g (upsert l (fun x => append x ls body) (BBody [body]) m))
                              ((map label_str (eff_in l (fun x => eff x ls) m), body) :: flat_map g m)).
      { induction IH as [|[k x] m Hx _ IHm]; cbn [upsert eff_in flat_map].
        - cbn. apply Permutation_refl.
        - destruct (label_eqb k l) eqn:E; cbn [flat_map].
          + specialize (Hx ls body). cbn [snd] in Hx.
            exact (Permutation_app_tail (flat_map g m) (Permutation_map (fun pb : list str * body_t => (label_str k :: fst pb, snd pb)) Hx)).
          + rewrite IHm. symmetry. apply Permutation_middle. }
      rewrite H. symmetry. apply Permutation_middle.
Qed.

Lemma fold_len {A} (f : A -> nat) l : forall a, fold_left (fun acc x => f x + acc)%nat l a = (a + list_sum (map f l))%nat.
Proof. induction l as [|x l IH]; intros a; cbn [fold_left map list_sum fold_right]; [lia|]. rewrite IH. cbn. unfold list_sum. lia. Qed.
Lemma list_sum_flat_map {A B} (g : A -> list B) l : length (flat_map g l) = list_sum (map (fun x => length (g x)) l).
Proof. induction l; cbn; [reflexivity|]. rewrite app_length, IHl. reflexivity. Qed.
Lemma len_blocks_flat b : len_blocks b = length (flat_iter b).
Proof.
  induction b as [bs|e m IH] using bbody_ind'; cbn [len_blocks flat_iter].
  - rewrite map_length. reflexivity.
  - rewrite app_length, map_length. f_equal. rewrite (fold_len (fun kv => len_blocks (snd kv))), list_sum_flat_map. cbn [Nat.add]. f_equal.
    induction IH as [|kv m H _ IHm]; cbn [map]; [reflexivity|]. rewrite IHm, map_length, H. reflexivity.
Qed.
Lemma flat_iter_mut_eq b : flat_iter_mut b = flat_iter b.
Proof.
  reflexivity.
Qed.
Lemma label_cow_str l : cow_str (label_cow l) = label_str l.
Proof. destruct l; reflexivity. Qed.
Lemma flat_into_iter_eq b : map (fun pb => (map cow_str (fst pb), snd pb)) (flat_into_iter b) = flat_iter b.
Proof.
  induction b as [bs|e m IH] using bbody_ind'; cbn [flat_into_iter flat_iter].
  - rewrite map_map. reflexivity.
  - rewrite map_app, map_map. f_equal. induction IH as [|kv m H _ IHm]; cbn [flat_map]; [reflexivity|].
    rewrite map_app, IHm, <- H, !map_map. f_equal. apply map_ext. intros [p q]. cbn. rewrite label_cow_str. reflexivity.
Qed.

(** ** Reordering *)
Lemma Forall2_Permutation {A B} (R : A -> B -> Prop) l l' l0 : Forall2 R l l' -> Permutation l l0 ->
  exists l0', Permutation l' l0' /\ Forall2 R l0 l0'.
Proof.
  intros HF HP. revert l' HF. induction HP as [|x l l0 _ IH|x y l|l1 l2 l3 _ IH1 _ IH2]; intros l' HF.
  - inversion HF; subst. exists []. auto.
  - inversion HF as [|? y ? l1 Hxy HF']; subst. destruct (IH _ HF') as (l2 & P & F). exists (y :: l2). auto.
  - inversion HF as [|? a ? l1 Ha HF']; subst; inversion HF' as [|? b ? l2 Hb HF'']; subst. exists (b :: a :: l2).
    split; [apply perm_swap|auto].
  - destruct (IH1 _ HF) as (l2' & P2 & F2). destruct (IH2 _ F2) as (l3' & P3 & F3). exists l3'. split; [etransitivity; eassumption|exact F3].
Qed.
Lemma Forall2_trans {A} (R S T : A -> A -> Prop) l1 l2 l3 :
  Forall2 R l1 l2 -> Forall2 S l2 l3 -> (forall a b c, In a l1 -> R a b -> S b c -> T a c) -> Forall2 T l1 l3.
Proof.
  intros H. revert l3. induction H as [|a b l1 l2 Hab _ IH]; intros l3 H2 HT; inversion H2; subst; constructor.
  - eapply HT; [left; reflexivity|eassumption|assumption].
  - apply IH; [assumption|]. intros u v w Hx. apply HT. right. exact Hx.
Qed.
Definition EntryRO (a b : label * bbody) : Prop := fst a = fst b /\ Reorder (snd a) (snd b).
Lemma Reorder_refl b : Reorder b b.
Proof.
  induction b as [bs|e m IH] using bbody_ind'; [constructor|]. apply (RO_labels e m m m); [apply Permutation_refl|].
  induction IH; constructor; auto.
Qed.
Lemma Reorder_trans b : forall b' b'', Reorder b b' -> Reorder b' b'' -> Reorder b b''.
Proof.
  induction b as [bs|e m IH] using bbody_ind'; intros b' b'' H1 H2.
  - inversion H1; subst. exact H2.
  - inversion H1 as [|e' m' m1 m2 P1 F1]; subst. inversion H2 as [|e' m' m3 m4 P2 F2]; subst.
    destruct (Forall2_Permutation (fun b a => EntryRO a b) m2 m1 m3) as (m5 & P3 & F3).
    + clear - F1. induction F1; constructor; auto.
    + exact P2.
    + apply (RO_labels e m m5 m4).
      * etransitivity; eassumption.
      * assert (F3' : Forall2 EntryRO m5 m3) by (clear - F3; induction F3; constructor; auto). clear F3. rename F3' into F3.
        eapply Forall2_trans; [exact F3|exact F2|]. intros [ka a] [kb b] [kc c] Hin [Ha Hb] [Ha' Hb']. cbn [fst snd] in *.
        split; [congruence|]. rewrite Forall_forall in IH. eapply (IH (ka, a)); [|exact Hb|exact Hb'].
        eapply Permutation_in; [|exact Hin]. symmetry. etransitivity; eassumption.
Qed.
Lemma flat_map_perm {A B} (g g' : A -> list B) l l' (R : A -> A -> Prop) :
  Forall2 R l l' -> (forall a b, In a l -> R a b -> Permutation (g a) (g' b)) -> Permutation (flat_map g l) (flat_map g' l').
Proof.
  induction 1 as [|a b l l' Hab _ IH]; intros HR; cbn; [constructor|]. apply Permutation_app; [apply HR; [left; reflexivity|exact Hab]|].
  apply IH. intros x y Hx. apply HR. right. exact Hx.
Qed.
Lemma Reorder_flat b : forall b', Reorder b b' -> Permutation (flat_iter b) (flat_iter b').
Proof.
  induction b as [bs|e m IH] using bbody_ind'; intros b' H; inversion H as [|e' m' m1 m2 P F]; subst; [apply Permutation_refl|].
  cbn [flat_iter]. apply Permutation_app_head. rewrite (Permutation_flat_map _ P).
  eapply flat_map_perm; [exact F|]. intros [ka a] [kb b] Hin [Hk Hr]. cbn [fst snd] in *. subst. apply Permutation_map.
  rewrite Forall_forall in IH. apply (IH (kb, a)); [|exact Hr]. eapply Permutation_in; [symmetry; exact P|exact Hin].
Qed.
Lemma Reorder_empty b b' : Reorder b b' -> get_empty b = get_empty b'.
Proof. intros []; reflexivity. Qed.
Lemma Reorder_len b b' : Reorder b b' -> len_blocks b = len_blocks b'.
Proof. intros H. rewrite !len_blocks_flat. apply Permutation_length, Reorder_flat, H. Qed.

(** ** The invariant of all reachable collections *)
Definition NonEmpty (b : bbody) : Prop := match b with BBody bs => bs <> [] | BLabels _ m => m <> [] end.
Inductive Good (P : label -> Prop) : bbody -> Prop :=
| Good_body bs : Good P (BBody bs)
| Good_labels e m : m <> [] -> NoDup (map (fun kv => keyid (fst kv)) m) ->
    Forall (fun kv => P (fst kv) /\ NonEmpty (snd kv) /\ Good P (snd kv)) m -> Good P (BLabels e m).
Lemma Good_mono (P Q : label -> Prop) : (forall l, P l -> Q l) -> forall b, Good P b -> Good Q b.
Proof.
  intros HPQ. induction b as [bs|e m IH] using bbody_ind'; intros H; [constructor|].
  inversion H as [|e' m' H1 H2 H3]; subst. constructor; auto. rewrite Forall_forall in *. intros kv Hkv.
  destruct (H3 kv Hkv) as (Ha & Hb & Hc). auto.
Qed.
Lemma append_default_nonempty ls body : NonEmpty (append_default ls body).
Proof. destruct ls; discriminate. Qed.
Lemma append_default_good (P : label -> Prop) ls body : (forall l, In l ls -> P l) -> Good P (append_default ls body).
Proof.
  induction ls as [|l ls IH]; intros H; cbn; [constructor|]. constructor; [discriminate|constructor; [intros []|constructor]|].
  constructor; [|constructor]. cbn. split; [apply H; left; reflexivity|]. split; [apply append_default_nonempty|].
  apply IH. intros x Hx. apply H. right. exact Hx.
Qed.
Lemma upsert_keys l f d m x : In x (map (fun kv => keyid (fst kv)) (upsert l f d m)) ->
  In x (map (fun kv => keyid (fst kv)) m) \/ x = keyid l.
Proof.
  induction m as [|[k y] m IH]; cbn [upsert]; [cbn; intuition|]. destruct (label_eqb k l); cbn; intuition.
Qed.
Lemma upsert_nodup l f d m : NoDup (map (fun kv => keyid (fst kv)) m) ->
  NoDup (map (fun kv => keyid (fst kv)) (upsert l f d m)).
Proof.
  induction m as [|[k y] m IH]; cbn [upsert map]; intros H; [constructor; [intros []|constructor]|].
  inversion H as [|? ? Hn Hd]; subst. destruct (label_eqb k l) eqn:E; cbn [map]; [exact H|].
  constructor; [|apply IH, Hd]. intros Hi. apply upsert_keys in Hi as [Hi|Hi]; [exact (Hn Hi)|].
  cbn [fst] in Hi. apply label_eqb_keyid in Hi. congruence.
Qed.
Lemma upsert_nonempty l f d m : upsert l f d m <> [].
Proof. destruct m as [|[k y] m]; cbn; [discriminate|]. destruct (label_eqb k l); discriminate. Qed.
Lemma append_good (P : label -> Prop) b : forall ls body, Good P b -> (forall l, In l ls -> P l) ->
  Good P (append b ls body) /\ NonEmpty (append b ls body).
Proof.
  induction b as [bs|e m IH] using bbody_ind'; intros ls body H Hls.
  - destruct ls as [|l ls]; cbn [append].
    + split; [constructor|]. cbn. intros E. apply app_eq_nil in E as [_ E]. discriminate.
    + split; [|discriminate]. constructor; [discriminate|constructor; [intros []|constructor]|]. constructor; [|constructor].
      cbn. split; [apply Hls; left; reflexivity|]. split; [apply append_default_nonempty|]. apply append_default_good.
      intros x Hx. apply Hls. right. exact Hx.
  - inversion H as [|e' m' H1 H2 H3]; subst. destruct ls as [|l ls].
    + cbn [append]. split; [constructor; assumption|exact H1].
    + rewrite append_labels. split; [|apply upsert_nonempty]. constructor; [apply upsert_nonempty|apply upsert_nodup, H2|].
      clear H H1 H2. induction m as [|[k x] m IHm]; cbn [upsert].
      * constructor; [|constructor]. cbn. split; [apply Hls; left; reflexivity|]. split; [discriminate|constructor].
      * inversion H3 as [|? ? (Hk & Hx & Hg) H3']; subst. inversion IH as [|? ? IHx IH']; subst. cbn [fst snd] in *.
        destruct (label_eqb k l).
        -- constructor; [|exact H3']. cbn. split; [exact Hk|].
           destruct (IHx ls body Hg) as [A B]; [intros y Hy; apply Hls; right; exact Hy|]. auto.
        -- constructor; [cbn; auto|]. apply IHm; assumption.
Qed.
Lemma Reorder_nonempty b b' : Reorder b b' -> NonEmpty b -> NonEmpty b'.
Proof.
  intros [|e m m1 m' P F] H; [exact H|]. cbn in *. intros ->. inversion F; subst. apply Permutation_sym, Permutation_nil in P. congruence.
Qed.
Lemma Forall2_map_fst m1 m' : Forall2 (fun a b : label * bbody => fst a = fst b /\ Reorder (snd a) (snd b)) m1 m' ->
  forall {A} (g : label -> A), map (fun kv => g (fst kv)) m1 = map (fun kv => g (fst kv)) m'.
Proof. intros H A g. induction H as [|a b l l' [E _] _ IH]; cbn; [reflexivity|]. rewrite E, IH. reflexivity. Qed.
Lemma Reorder_good (P : label -> Prop) b : forall b', Reorder b b' -> Good P b -> Good P b'.
Proof.
  induction b as [bs|e m IH] using bbody_ind'; intros b' H HG; inversion H as [|e' m' m1 m2 PM F]; subst; [constructor|].
  inversion HG as [|e' m' H1 H2 H3]; subst. constructor.
  - apply (Reorder_nonempty _ _ H H1).
  - rewrite <- (Forall2_map_fst _ _ F keyid). eapply Permutation_NoDup; [|exact H2]. apply Permutation_map, PM.
  - rewrite Forall_forall in *. intros [k x] Hin.
    assert (Hex : exists y, In (k, y) m1 /\ Reorder y x).
    { clear - F Hin. induction F as [|[ka a] [kb b] l l' [E R] _ IHF]; [destruct Hin|]. cbn in *. destruct Hin as [Hin|Hin].
      - injection Hin as -> ->. subst. exists a. auto.
      - destruct (IHF Hin) as (y & Hy & Ry). exists y. auto. }
    destruct Hex as (y & Hy & Ry). assert (Hm : In (k, y) m) by (eapply Permutation_in; [symmetry; exact PM|exact Hy]).
    destruct (H3 _ Hm) as (A & B & C). cbn [fst snd] in *. split; [exact A|]. split; [apply (Reorder_nonempty _ _ Ry B)|].
    apply (IH (k, y) Hm); assumption.
Qed.
Lemma Built_good h b : Built h b -> Good (fun l => In l (history_labels h)) b /\ (h <> [] -> NonEmpty b).
Proof.
  induction 1 as [|h b ls body b' _ [IH _] HR].
  - split; [constructor|congruence].
  - assert (HG : Good (fun l => In l (history_labels (h ++ [(ls, body)]))) b).
    { eapply Good_mono; [|exact IH]. intros l Hl. unfold history_labels. rewrite flat_map_app, in_app_iff. auto. }
    destruct (append_good _ b ls body HG) as [A B].
    { intros l Hl. unfold history_labels. rewrite flat_map_app, in_app_iff. right. cbn. rewrite app_nil_r. exact Hl. }
    split; [apply (Reorder_good _ _ _ HR A)|]. intros _. apply (Reorder_nonempty _ _ HR B).
Qed.
Lemma Built_reorder h b b' : Built h b -> Reorder b b' -> Built h b'.
Proof.
  intros [|h' b0 ls body b1 HB HR] H.
  - inversion H; subst. constructor.
  - apply (Built_append h' b0 ls body); [exact HB|]. eapply Reorder_trans; eassumption.
Qed.

(** ** Lookup by strings when labels are written consistently *)
Section Lookup.
Context (L : list label) (HL : Consistent L).
Notation P := (fun l => In l L).
Lemma consistent_eqb a b : In a L -> In b L -> label_str a = label_str b -> label_eqb a b = true.
Proof. intros Ha Hb E. apply label_eqb_keyid, keyid_kind. split; [apply HL; assumption|exact E]. Qed.

Definition strmatch (q : str) (kv : label * bbody) : bool := str_eqb (label_str (fst kv)) q.
Definition vfind (q : str) (m : list (label * bbody)) : option bbody := option_map snd (find (strmatch q) m).
Lemma vfind_upsert q l f d m : In l L -> Forall (fun kv => In (fst kv) L) m ->
  vfind q (upsert l f d m) =
  if str_eqb (label_str l) q then Some (match vfind q m with Some x => f x | None => d end) else vfind q m.
Proof.
  intros Hl Hm. unfold vfind, strmatch. induction Hm as [|[k x] m Hk _ IH]; cbn [upsert find fst].
  - destruct (str_eqb (label_str l) q); reflexivity.
  - cbn [fst] in Hk. destruct (label_eqb k l) eqn:E; cbn [find fst].
    + rewrite (label_eqb_str k l E).
      destruct (str_eqb (label_str l) q); reflexivity.
    + destruct (str_eqb (label_str k) q) eqn:Ek; [|exact IH].
      destruct (str_eqb (label_str l) q) eqn:El; [|reflexivity]. exfalso.
      apply str_eqb_eq in Ek. apply str_eqb_eq in El. rewrite (consistent_eqb k l Hk Hl) in E; [discriminate|congruence].
Qed.

Definition bodies_at (b : bbody) (p : list str) : list body_t :=
  match bget b p with Some n => get_empty n | None => [] end.
Lemma bodies_at_labels e m q ps :
  bodies_at (BLabels e m) (q :: ps) = match vfind q m with Some x => bodies_at x ps | None => [] end.
Proof.
  unfold bodies_at, vfind. cbn [bget]. unfold strmatch. destruct (find _ m) as [[k x]|]; reflexivity.
Qed.

Fixpoint path_eqb (p q : list str) : bool :=
  match p, q with
  | [], [] => true
  | a :: p', b :: q' => str_eqb a b && path_eqb p' q'
  | _, _ => false
  end.
Lemma path_eqb_eq p : forall q, path_eqb p q = true <-> p = q.
Proof.
  induction p as [|a p IH]; intros [|b q]; cbn; split; try congruence.
  - rewrite andb_true_iff, str_eqb_eq, IH. intuition congruence.
  - intros [= -> ->]. rewrite str_eqb_refl. apply IH. reflexivity.
Qed.
Lemma bodies_at_default ls body : forall p,
  bodies_at (append_default ls body) p = if path_eqb p (map label_str ls) then [body] else [].
Proof.
  induction ls as [|l ls IH]; intros [|q ps]; cbn [append_default map path_eqb]; try reflexivity.
  rewrite bodies_at_labels. unfold vfind. cbn [find]. unfold strmatch. cbn [fst].
  destruct (str_eqb (label_str l) q) eqn:E.
  - cbn. rewrite IH. apply str_eqb_eq in E. subst. rewrite str_eqb_refl. reflexivity.
  - cbn. replace (str_eqb q (label_str l)) with false; [reflexivity|]. symmetry. apply str_eqb_neq. apply str_eqb_neq in E. congruence.
Qed.
Lemma str_eqb_sym a b : str_eqb a b = str_eqb b a.
Proof. destruct (str_eqb a b) eqn:E; symmetry; [apply str_eqb_eq in E; subst; apply str_eqb_refl|apply str_eqb_neq in E; apply str_eqb_neq; congruence]. Qed.

Lemma eff_in_str l f m : Forall (fun kv => In (fst kv) L) m -> In l L ->
  map label_str (eff_in l f m) = label_str l :: match vfind (label_str l) m with Some x => map label_str (f x) | None => [] end.
Proof.
  intros Hm Hl. unfold vfind. induction Hm as [|[k x] m Hk _ IH]; cbn [eff_in find]; [reflexivity|]. cbn [fst] in Hk.
  unfold strmatch at 1. cbn [fst]. destruct (label_eqb k l) eqn:E.
  - rewrite (label_eqb_str k l E), str_eqb_refl. cbn. rewrite (label_eqb_str k l E). reflexivity.
  - destruct (str_eqb (label_str k) (label_str l)) eqn:Ek; [|exact IH]. exfalso. apply str_eqb_eq in Ek.
    rewrite (consistent_eqb k l Hk Hl Ek) in E. discriminate.
Qed.

Lemma bodies_at_append b : forall ls body p, Good P b -> (forall l, In l ls -> In l L) ->
  bodies_at (append b ls body) p =
  bodies_at b p ++ (if path_eqb p (map label_str (eff b ls)) then [body] else []).
Proof.
  induction b as [bs|e m IH] using bbody_ind'; intros ls body p HG Hls.
  - destruct ls as [|l ls]; cbn [append eff].
    + destruct p; cbn; [reflexivity|reflexivity].
    + destruct p as [|q ps]; [cbn; rewrite app_nil_r; reflexivity|].
      pose proof (bodies_at_default (l :: ls) body (q :: ps)) as H. cbn [append_default] in H.
      rewrite bodies_at_labels in *. rewrite H. reflexivity.
  - inversion HG as [|e' m' H1 H2 H3]; subst. destruct ls as [|l ls].
    + destruct p as [|q ps]; [reflexivity|]. cbn [append eff map path_eqb]. rewrite !bodies_at_labels, app_nil_r. reflexivity.
    + rewrite append_labels, eff_labels.
      assert (Hk : Forall (fun kv => In (fst kv) L) m) by (rewrite Forall_forall in *; intros kv Hkv; apply (H3 kv Hkv)).
      assert (Hl : In l L) by (apply Hls; left; reflexivity).
      rewrite (eff_in_str l _ m Hk Hl).
      destruct p as [|q ps]; [cbn; rewrite app_nil_r; reflexivity|]. cbn [path_eqb].
      rewrite !bodies_at_labels, (vfind_upsert q l _ _ m Hl Hk). rewrite (str_eqb_sym (label_str l) q).
      destruct (str_eqb q (label_str l)) eqn:Eq; cbn [andb]; [|rewrite app_nil_r; reflexivity].
      apply str_eqb_eq in Eq. subst q. destruct (vfind (label_str l) m) as [x|] eqn:Ev.
      * unfold vfind in Ev. destruct (find (strmatch (label_str l)) m) as [[k y]|] eqn:Ef; [|discriminate]. injection Ev as ->.
        apply find_some in Ef as [Hin _]. rewrite Forall_forall in IH, H3. apply (IH _ Hin).
        -- apply (H3 _ Hin).
        -- intros z Hz. apply Hls. right. exact Hz.
      * destruct ps; reflexivity.
Qed.

Lemma KnownPath_eff b ls : KnownPath b ls -> Good P b -> (forall l, In l ls -> In l L) -> map label_str (eff b ls) = map label_str ls.
Proof.
  induction 1 as [b|b l|bs ls|e m k x l ls Hin Hk _ IH]; intros HG Hls.
  - destruct b; reflexivity.
  - destruct b as [bs|e m]; [reflexivity|]. inversion HG as [|e' m' H1 H2 H3]; subst.
    assert (HkL : Forall (fun kv => In (fst kv) L) m) by (rewrite Forall_forall in *; intros kv Hkv; apply (H3 kv Hkv)).
    rewrite eff_labels, (eff_in_str l _ m HkL) by (apply Hls; left; reflexivity).
    cbn. f_equal. destruct (vfind (label_str l) m) as [x|]; [|reflexivity]. destruct x; reflexivity.
  - reflexivity.
  - inversion HG as [|e' m' H1 H2 H3]; subst.
    rewrite eff_labels.
    assert (Ee : eff_in l (fun x => eff x ls) m = k :: eff x ls).
    { clear - H2 Hin Hk. apply label_eqb_keyid in Hk. induction m as [|[k' y] m IHm]; [destruct Hin|]. cbn [eff_in map fst] in *.
      inversion H2 as [|? ? Hn Hd]; subst. destruct Hin as [Hin|Hin].
      - injection Hin as -> ->. rewrite (proj2 (label_eqb_keyid k l) Hk). reflexivity.
      - destruct (label_eqb k' l) eqn:E; [|apply IHm; assumption]. exfalso. apply label_eqb_keyid in E. apply Hn.
        replace (keyid k') with (keyid (fst (k, x))) by (cbn; congruence).
        apply (in_map (fun kv : label * bbody => keyid (fst kv)) _ _ Hin). }
    rewrite Ee. cbn [map]. rewrite (label_eqb_str k l Hk), IH; [reflexivity| |].
    + rewrite Forall_forall in H3. apply (H3 _ Hin).
    + intros z Hz. apply Hls. right. exact Hz.
Qed.

(** Distinct strings *)
Inductive Unamb : bbody -> Prop :=
| Un_body bs : Unamb (BBody bs)
| Un_labels e m : NoDup (map (fun kv => label_str (fst kv)) m) -> Forall (fun kv => Unamb (snd kv)) m -> Unamb (BLabels e m).
Lemma Good_unamb b : Good P b -> Unamb b.
Proof.
  induction b as [bs|e m IH] using bbody_ind'; intros H; [constructor|]. inversion H as [|e' m' H1 H2 H3]; subst. constructor.
  - clear H H1 IH. induction m as [|[k x] m IHm]; cbn in *; constructor.
    + inversion H2; subst. inversion H3 as [|? ? (Hk & _) H3']; subst. cbn [fst] in *. intros Hi. apply in_map_iff in Hi as ([k' x'] & E & Hi).
      apply H1. rewrite Forall_forall in H3'. destruct (H3' _ Hi) as (Hk' & _). cbn [fst] in *.
      apply in_map_iff. exists (k', x'). split; [|exact Hi]. cbn. apply label_eqb_keyid, consistent_eqb; assumption.
    + inversion H2; inversion H3; subst. apply IHm; assumption.
  - rewrite Forall_forall in *. intros kv Hkv. apply (IH kv Hkv), (H3 kv Hkv).
Qed.
End Lookup.

Lemma vfind_in q m x : NoDup (map (fun kv => label_str (fst kv)) m) ->
  (vfind q m = Some x <-> exists k, In (k, x) m /\ label_str k = q).
Proof.
  intros Hd. unfold vfind. split.
  - destruct (find (strmatch q) m) as [[k y]|] eqn:Ef; [|discriminate]. intros [= ->]. apply find_some in Ef as [Hin Hs].
    exists k. split; [exact Hin|]. apply str_eqb_eq. exact Hs.
  - intros (k & Hin & Hk). induction m as [|[k' y] m IH]; [destruct Hin|]. cbn [find map fst] in *. inversion Hd as [|? ? Hn Hd']; subst.
    unfold strmatch at 1. cbn [fst]. destruct Hin as [Hin|Hin].
    + injection Hin as -> ->. rewrite str_eqb_refl. reflexivity.
    + destruct (str_eqb (label_str k') (label_str k)) eqn:E; [|apply IH; assumption]. exfalso. apply str_eqb_eq in E. apply Hn.
      rewrite E. apply (in_map (fun kv : label * bbody => label_str (fst kv)) _ _ Hin).
Qed.
Lemma Reorder_bget b : forall b' p, Unamb b -> Reorder b b' ->
  match bget b p with
  | Some n => exists n', bget b' p = Some n' /\ Reorder n n'
  | None => bget b' p = None
  end.
Proof.
  induction b as [bs|e m IH] using bbody_ind'; intros b' p HU HR.
  - inversion HR; subst. destruct p; cbn; [|reflexivity]. eexists. split; [reflexivity|constructor].
  - destruct p as [|q ps]; [cbn; eauto|].
    inversion HR as [|e' m' m1 m2 PM F]; subst. inversion HU as [|e' m' HD HF]; subst.
    assert (HD2 : NoDup (map (fun kv => label_str (fst kv)) m2)).
    { rewrite <- (Forall2_map_fst _ _ F label_str). eapply Permutation_NoDup; [|exact HD]. apply Permutation_map, PM. }
    assert (Hb : forall e m, bget (BLabels e m) (q :: ps) = match vfind q m with Some x => bget x ps | None => None end).
    { intros e0 m0. unfold vfind. cbn. unfold strmatch. destruct (find _ m0) as [[? ?]|]; reflexivity. }
    rewrite !Hb. destruct (vfind q m) as [x|] eqn:E.
    + apply (vfind_in q m x HD) in E as (k & Hin & Hk).
      assert (Hin1 : In (k, x) m1) by (eapply Permutation_in; eassumption).
      assert (Hex : exists y, In (k, y) m2 /\ Reorder x y).
      { clear - F Hin1. induction F as [|[ka a] [kb b] l l' [E R] _ IHF]; [destruct Hin1|]. cbn in *. destruct Hin1 as [Hin|Hin].
        - injection Hin as -> ->. subst. exists b. auto.
        - destruct (IHF Hin) as (y & Hy & Ry). exists y. auto. }
      destruct Hex as (y & Hy & Ry). rewrite (proj2 (vfind_in q m2 y HD2)) by eauto.
      rewrite Forall_forall in IH, HF. apply (IH (k, x) Hin); [apply (HF _ Hin)|exact Ry].
    + destruct (vfind q m2) as [y|] eqn:E2; [|reflexivity]. exfalso. apply (vfind_in q m2 y HD2) in E2 as (k & Hin & Hk).
      assert (Hex : exists x, In (k, x) m1).
      { clear - F Hin. induction F as [|[ka a] [kb b] l l' [E R] _ IHF]; [destruct Hin|]. cbn in *. destruct Hin as [Hin|Hin].
        - injection Hin as -> ->. subst. exists a. auto.
        - destruct (IHF Hin) as (x & Hx). exists x. auto. }
      destruct Hex as (x & Hx). apply (Permutation_in _ (Permutation_sym PM)) in Hx.
      rewrite (proj2 (vfind_in q m x HD)) in E by eauto. discriminate.
Qed.
Lemma Reorder_bodies_at b b' p : Unamb b -> Reorder b b' -> bodies_at b p = bodies_at b' p.
Proof.
  intros HU HR. pose proof (Reorder_bget b b' p HU HR) as H. unfold bodies_at. destruct (bget b p) as [n|].
  - destruct H as (n' & -> & Hn). apply Reorder_empty, Hn.
  - rewrite H. reflexivity.
Qed.
Lemma bodies_at_flat b : forall p, Unamb b ->
  bodies_at b p = map snd (filter (fun pb => path_eqb (fst pb) p) (flat_iter b)).
Proof.
  assert (Hnil : forall bs : list body_t, map snd (filter (fun pb : list str * body_t => path_eqb (fst pb) []) (map (fun body => ([], body)) bs)) = bs).
  { induction bs; cbn; [reflexivity|]. rewrite IHbs. reflexivity. }
  assert (Hcons : forall (bs : list body_t) q ps, filter (fun pb : list str * body_t => path_eqb (fst pb) (q :: ps)) (map (fun body => ([], body)) bs) = []).
  { induction bs; cbn; auto. }
  induction b as [bs|e m IH] using bbody_ind'; intros p HU.
  - cbn [flat_iter]. destruct p as [|q ps]; [rewrite Hnil; reflexivity|rewrite Hcons; reflexivity].
  - cbn [flat_iter]. rewrite filter_app, map_app. destruct p as [|q ps].
    + rewrite Hnil. cbn. rewrite <- app_nil_r at 1. f_equal. clear. induction m as [|[k x] m IHm]; cbn; [reflexivity|].
      rewrite filter_app, map_app, <- IHm, app_nil_r. clear. induction (flat_iter x); cbn; auto.
    + rewrite Hcons. cbn [map app]. rewrite bodies_at_labels. inversion HU as [|e' m' HD HF]; subst. clear HU.
      unfold vfind. induction m as [|[k x] m IHm]; [reflexivity|]. cbn [find flat_map fst snd].
      inversion IH as [|? ? IHx IH']; subst. inversion HF as [|? ? Hx HF']; subst. cbn [map fst] in HD. inversion HD as [|? ? Hn HD']; subst.
      rewrite filter_app, map_app. unfold strmatch at 1. cbn [fst].
      assert (Hf : map snd (filter (fun pb : list str * body_t => path_eqb (fst pb) (q :: ps))
                  (map (fun pb => (label_str k :: fst pb, snd pb)) (flat_iter x)))
              = if str_eqb (label_str k) q then bodies_at x ps else []).
      { cbn [snd] in IHx, Hx. rewrite (IHx ps Hx). clear. induction (flat_iter x) as [|[p b] l IHl]; cbn; [destruct (str_eqb _ _); reflexivity|].
        destruct (str_eqb (label_str k) q) eqn:E; cbn [andb].
        - destruct (path_eqb p ps); cbn; rewrite IHl; reflexivity.
        - exact IHl. }
      rewrite Hf. destruct (str_eqb (label_str k) q) eqn:E.
      * cbn [option_map snd]. rewrite <- app_nil_r at 1. f_equal. apply str_eqb_eq in E. symmetry.
        assert (HN : forall kv, In kv m -> label_str (fst kv) <> q).
        { intros kv Hkv Eq. apply Hn. rewrite E, <- Eq. apply (in_map (fun kv : label * bbody => label_str (fst kv)) _ _ Hkv). }
        clear - HN. induction m as [|[k x] m IHm]; [reflexivity|]. cbn [flat_map fst snd]. rewrite filter_app, map_app.
        rewrite IHm by (intros kv Hkv; apply HN; right; exact Hkv). rewrite app_nil_r.
        assert (Hk : str_eqb (label_str k) q = false) by (apply str_eqb_neq, (HN (k, x)); left; reflexivity).
        induction (flat_iter x) as [|[p b] l IHl]; [reflexivity|]. cbn. rewrite Hk. exact IHl.
      * cbn [app]. apply IHm; assumption.
Qed.

(** ** Sets of numbers *)
Lemma set_insert_in n s x : In x (set_insert n s) <-> x = n \/ In x s.
Proof.
  assert (Hs : forall a : nat, a = x <-> x = a) by (intros a; split; congruence).
  induction s as [|y s IH]; cbn [set_insert In]; [rewrite Hs; tauto|]. destruct (Nat.eqb_spec n y) as [->|Hn]; [cbn [In]; rewrite !Hs; tauto|].
  destruct (Nat.ltb_spec n y) as [Hl|Hl]; cbn [In]; [rewrite !Hs; tauto|]. rewrite IH, !Hs. tauto.
Qed.
Lemma set_collect_in l x : In x (set_collect l) <-> In x l.
Proof.
  unfold set_collect. assert (H : forall s, In x (fold_left (fun s n => set_insert n s) l s) <-> In x l \/ In x s).
  { induction l as [|n l IHl]; intros s; cbn [fold_left In]; [tauto|]. rewrite IHl, set_insert_in. intuition (subst; auto). }
  rewrite H. cbn. tauto.
Qed.
Lemma nonempty_flat (P : label -> Prop) b : Good P b -> NonEmpty b -> flat_iter b <> [].
Proof.
  induction b as [bs|e m IH] using bbody_ind'; intros HG HN; cbn [flat_iter NonEmpty] in *.
  - destruct bs; [congruence|discriminate].
  - inversion HG as [|e' m' H1 H2 H3]; subst. destruct m as [|[k x] m]; [congruence|]. inversion IH as [|? ? IHx _]; subst.
    inversion H3 as [|? ? (_ & Hx & Hg) _]; subst. intros E. apply app_eq_nil in E as [_ E]. cbn [flat_map fst snd] in *.
    apply app_eq_nil in E as [E _]. apply map_eq_nil in E. exact (IHx Hg Hx E).
Qed.
Lemma label_lens_flat (P : label -> Prop) b : Good P b -> NonEmpty b -> forall n,
  In n (label_lens b) <-> exists p body, In (p, body) (flat_iter b) /\ length p = n.
Proof.
  induction b as [bs|e m IH] using bbody_ind'; intros HG HN n.
  - cbn [label_lens flat_iter NonEmpty] in *. rewrite set_collect_in. split.
    + intros [<-|[]]. destruct bs as [|b bs]; [congruence|]. exists [], b. split; [left; reflexivity|reflexivity].
    + intros (p & body & Hin & <-). apply in_map_iff in Hin as (? & [= <- <-] & _). left. reflexivity.
  - inversion HG as [|e' m' H1 H2 H3]; subst.
    assert (Hit : In n (flat_map (fun kv => map S (label_lens (snd kv))) m) <->
                  exists kv p body, In kv m /\ In (p, body) (flat_iter (snd kv)) /\ S (length p) = n).
    { rewrite in_flat_map. rewrite Forall_forall in IH, H3. split.
      - intros (kv & Hkv & Hn). apply in_map_iff in Hn as (n' & <- & Hn'). destruct (H3 _ Hkv) as (_ & Hx & Hg).
        apply (IH _ Hkv Hg Hx) in Hn' as (p & body & Hp & <-). exists kv, p, body. auto.
      - intros (kv & p & body & Hkv & Hp & <-). exists kv. split; [exact Hkv|]. apply in_map. destruct (H3 _ Hkv) as (_ & Hx & Hg).
        apply (IH _ Hkv Hg Hx). eauto. }
    assert (Hfl : (exists p body, In (p, body) (flat_iter (BLabels e m)) /\ length p = n) <->
                  (e <> [] /\ n = 0%nat) \/ exists kv p body, In kv m /\ In (p, body) (flat_iter (snd kv)) /\ S (length p) = n).
    { cbn [flat_iter]. split.
      - intros (p & body & Hin & Hl). apply in_app_iff in Hin as [Hin|Hin].
        + left. apply in_map_iff in Hin as (? & [= <- <-] & Hi). split; [intros ->; destruct Hi|symmetry; exact Hl].
        + right. apply in_flat_map in Hin as (kv & Hkv & Hin). apply in_map_iff in Hin as ([p' b'] & [= <- <-] & Hi).
          exists kv, p', b'. auto.
      - intros [[He ->]|(kv & p & body & Hkv & Hp & Hl)].
        + destruct e as [|b e]; [congruence|]. exists [], b. split; [left; reflexivity|reflexivity].
        + exists (label_str (fst kv) :: p), body. split; [|exact Hl]. apply in_app_iff. right. apply in_flat_map. exists kv.
          split; [exact Hkv|]. apply in_map_iff. exists (p, body). auto. }
    rewrite Hfl, <- Hit. cbn [label_lens]. destruct e as [|b e].
    + rewrite set_collect_in. split; [auto|]. intros [[H _]|H]; [congruence|exact H].
    + rewrite set_collect_in, in_app_iff. cbn [In]. split.
      * intros [H|[H|[]]]; [auto|]. left. split; [discriminate|congruence].
      * intros [[_ H]|H]; [right; left; congruence|auto].
Qed.
Lemma uniform_zero b : forall n, label_lens_uniform b = Some n -> n = 0%nat.
Proof.
  induction b as [bs|e m IH] using bbody_ind'; intros n H; cbn [label_lens_uniform] in H; [congruence|].
  destruct m as [|[k x] m]; [congruence|]. destruct e; [|discriminate]. inversion IH as [|? ? IHx _]; subst. cbn [snd] in IHx.
  destruct (label_lens_uniform x) as [i|]; [|discriminate]. destruct (forallb _ m); [|discriminate]. injection H as <-. apply IHx. reflexivity.
Qed.
Lemma uniform_complete (P : label -> Prop) b : Good P b -> NonEmpty b -> forall n,
  (forall p body, In (p, body) (flat_iter b) -> length p = n) -> label_lens_uniform b = Some 0%nat.
Proof.
  induction b as [bs|e m IH] using bbody_ind'; intros HG HN n Hn; [reflexivity|].
  inversion HG as [|e' m' H1 H2 H3]; subst. destruct m as [|[k x] m]; [congruence|]. cbn [label_lens_uniform].
  assert (Hchild : forall k x, In (k, x) ((k, x) :: m) -> True) by auto. clear Hchild.
  assert (Hc : forall kv, In kv ((k, x) :: m) -> n <> 0%nat /\ label_lens_uniform (snd kv) = Some 0%nat).
  { intros kv Hkv. rewrite Forall_forall in IH, H3. destruct (H3 _ Hkv) as (_ & Hx & Hg).
    assert (Hs : forall p body, In (p, body) (flat_iter (snd kv)) -> S (length p) = n).
    { intros p body Hp. specialize (Hn (label_str (fst kv) :: p) body). cbn [length] in Hn. apply Hn. cbn [flat_iter].
      apply in_app_iff. right. apply in_flat_map. exists kv. split; [exact Hkv|]. apply in_map_iff. exists (p, body). auto. }
    split.
    - destruct (flat_iter (snd kv)) as [|[p b] l] eqn:E; [exfalso; exact (nonempty_flat P _ Hg Hx E)|].
      specialize (Hs p b (or_introl eq_refl)). lia.
    - apply (IH _ Hkv Hg Hx (pred n)). intros p body Hp. specialize (Hs _ _ Hp). lia. }
  destruct e as [|b e].
  - destruct (Hc (k, x) (or_introl eq_refl)) as [_ E]. cbn [snd] in E. rewrite E.
    replace (forallb _ m) with true; [reflexivity|]. symmetry. apply forallb_forall. intros kv Hkv.
    destruct (Hc kv (or_intror Hkv)) as [_ ->]. reflexivity.
  - exfalso. destruct (Hc (k, x) (or_introl eq_refl)) as [Hz _]. apply Hz. symmetry. apply (Hn [] b). left. reflexivity.
Qed.
