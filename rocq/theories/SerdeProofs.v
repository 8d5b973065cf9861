(** * SerdeProofs: the deserialisation model *)
From Coq Require Import Permutation.
From Verif Require Import Base Ast NomFacts Blocks BlockSpec BlockProofs PropBlocks NumConv Parser Serde SerdeSpec.
Local Open Scope nat_scope.

Lemma list_max_in n l : In n l -> n <= list_max l.
Proof. intros H. pose proof (proj1 (list_max_le l (list_max l)) (le_n _)) as F. rewrite Forall_forall in F. exact (F _ H). Qed.
Lemma list_max_map_in {A} (f : A -> nat) x l : In x l -> f x <= list_max (map f l).
Proof. intros H. apply list_max_in, in_map, H. Qed.

(** ** What [Blocks::new] holds: for each type, the last run of blocks of this type *)
Definition run_of (r : list block_t) : list (list label * body_t) := map (fun b => (b_labels b, b_body b)) r.
Lemma in_hm_insert {V} (m : list (cow * V)) k v k' v' : In (k', v') (hm_insert m k v) ->
  (cow_str k' = cow_str k /\ v' = v) \/ (In (k', v') m /\ ~ (cow_str k' = cow_str k)) \/ (In (k', v') m).
Proof.
  induction m as [|[k0 v0] m IH]; cbn; [intros [[= <- <-]|[]]; auto|].
  destruct (cow_eqb k0 k) eqn:E.
  - intros [[= <- <-]|H]; [left; split; [apply cow_eqb_eq, E|reflexivity]|]. right. right. right. exact H.
  - intros [[= <- <-]|H]; [right; right; left; reflexivity|]. destruct (IH H) as [?|[[? ?]|?]]; auto.
Qed.
Lemma hm_insert_keys {V} (m : list (cow * V)) k v x :
  In x (map (fun kv => cow_str (fst kv)) (hm_insert m k v)) <-> In x (map (fun kv => cow_str (fst kv)) m) \/ x = cow_str k.
Proof.
  induction m as [|[k0 v0] m IH]; cbn; [intuition congruence|]. destruct (cow_eqb k0 k) eqn:E; cbn.
  - apply cow_eqb_eq in E. rewrite E. intuition.
  - rewrite IH. tauto.
Qed.
Lemma hm_insert_nodup {V} (m : list (cow * V)) k v :
  NoDup (map (fun kv => cow_str (fst kv)) m) -> NoDup (map (fun kv => cow_str (fst kv)) (hm_insert m k v)).
Proof.
  induction m as [|[k0 v0] m IH]; cbn; intros H; [constructor; [intros []|constructor]|].
  inversion H as [|? ? Hn Hd]; subst. destruct (cow_eqb k0 k) eqn:E; cbn; [constructor; assumption|].
  constructor; [|apply IH, Hd]. intros Hi. apply hm_insert_keys in Hi as [Hi|Hi]; [contradiction|].
  apply cow_eqb_eq in Hi. congruence.
Qed.
Lemma hm_insert_value {V} (m : list (cow * V)) k v k' v' : NoDup (map (fun kv => cow_str (fst kv)) m) ->
  In (k', v') (hm_insert m k v) -> (cow_str k' = cow_str k /\ v' = v) \/ (cow_str k' <> cow_str k /\ In (k', v') m).
Proof.
  induction m as [|[k0 v0] m IH]; cbn; intros HD; [intros [[= <- <-]|[]]; auto|].
  inversion HD as [|? ? Hn Hd]; subst. destruct (cow_eqb k0 k) eqn:E.
  - apply cow_eqb_eq in E. intros [[= <- <-]|H]; [auto|]. right. split; [|right; exact H].
    intros Ek. apply Hn. rewrite E, <- Ek. apply (in_map (fun kv : cow * V => cow_str (fst kv)) _ _ H).
  - assert (E' : cow_str k0 <> cow_str k) by (intros H; apply cow_eqb_eq in H; congruence).
    intros [[= <- <-]|H]; [right; auto|]. destruct (IH Hd H) as [?|[? ?]]; auto.
Qed.

(* [new_fold m l]: [m] are the entries so far, [l] the blocks to come *)
Definition new_fold (l : list block_t) (m : blocks_t) : blocks_t :=
  fold_left (fun m kg => hm_insert m (fst kg) (extend bdefault (snd kg))) (group_by_type l) m.
Lemma new_fold_nodup n : forall l m, length l <= n -> NoDup (map (fun kv : cow * bbody => cow_str (fst kv)) m) ->
  NoDup (map (fun kv => cow_str (fst kv)) (new_fold l m)).
Proof.
  unfold new_fold. intros l m _. revert m. induction (group_by_type l) as [|kg gs IH]; intros m H; [exact H|].
  cbn [fold_left]. apply IH. apply (hm_insert_nodup m), H.
Qed.
Lemma LastRun_cons t b ts rest r :
  (forall c, In c ts -> cow_str (b_type c) = cow_str (b_type b)) ->
  (match rest with [] => True | c :: _ => cow_str (b_type c) <> cow_str (b_type b) end) ->
  LastRun t rest r -> LastRun t ((b :: ts) ++ rest) r.
Proof.
  intros Hts Hrest [l1 l2 -> Hr Hall H2 H1]. apply (LR _ _ _ ((b :: ts) ++ l1) l2); auto.
  - rewrite <- app_assoc. reflexivity.
  - intros l0 c E. destruct l1 as [|d l1] using rev_ind.
    + rewrite app_nil_r in E. assert (Hc : In c (b :: ts)) by (rewrite E; apply in_app_iff; right; left; reflexivity).
      assert (Ec : cow_str (b_type c) = cow_str (b_type b)) by (destruct Hc as [<-|Hc]; [reflexivity|apply Hts, Hc]).
      destruct r as [|r0 r]; [congruence|]. cbn in Hrest. rewrite (Hall r0 (or_introl eq_refl)) in Hrest. congruence.
    + clear IHl1. rewrite app_assoc in E. apply app_inj_tail in E as [_ ->]. apply (H1 l1 c eq_refl).
Qed.
Lemma new_fold_in n : forall l m, length l <= n -> NoDup (map (fun kv : cow * bbody => cow_str (fst kv)) m) ->
  forall k b, In (k, b) (new_fold l m) ->
  (exists r, LastRun (cow_str k) l r /\ b = extend bdefault (run_of r)) \/
  (In (k, b) m /\ forall c, In c l -> cow_str (b_type c) <> cow_str k).
Proof.
  induction n as [|n IH]; intros l m Hn HD k x Hin; [destruct l; [|cbn in Hn; lia]; right; split; [exact Hin|intros ? []]|].
  destruct l as [|b l]; [right; split; [exact Hin|intros ? []]|].
  destruct (group_split l b) as (ts & rest & -> & Hts & Hr & Hg). unfold new_fold in Hin. rewrite Hg in Hin. cbn [fold_left fst snd] in Hin.
  fold (new_fold rest (hm_insert m (b_type b) (extend bdefault (map (fun c => (b_labels c, b_body c)) (b :: ts))))) in Hin.
  apply IH in Hin; [|cbn in Hn; rewrite app_length in Hn; lia|apply (hm_insert_nodup m), HD].
  destruct Hin as [(r & HL & ->)|[Hin Hno]].
  - left. exists r. split; [|reflexivity]. change (b :: ts ++ rest) with ((b :: ts) ++ rest). apply LastRun_cons; assumption.
  - apply (hm_insert_value m) in Hin; [|exact HD]. destruct Hin as [[Hk ->]|[Hk Hin]].
    + left. exists (b :: ts). split; [|reflexivity]. apply (LR _ _ _ [] rest).
      * reflexivity.
      * discriminate.
      * intros c [<-|Hc]; [congruence|]. rewrite Hk. apply Hts, Hc.
      * exact Hno.
      * intros [|? ?] ? E; discriminate.
    + right. split; [exact Hin|]. intros c Hc. change (b :: ts ++ rest) with ((b :: ts) ++ rest) in Hc.
      apply in_app_iff in Hc as [[<-|Hc]|Hc]; [congruence|rewrite (Hts c Hc); congruence|apply Hno, Hc].
Qed.
Lemma new_fold_keys n : forall l m, length l <= n -> forall x,
  In x (map (fun kv => cow_str (fst kv)) (new_fold l m)) <->
  In x (map (fun kv : cow * bbody => cow_str (fst kv)) m) \/ exists b, In b l /\ cow_str (b_type b) = x.
Proof.
  induction n as [|n IH]; intros l m Hn x; [destruct l; [|cbn in Hn; lia]; cbn; firstorder|].
  destruct l as [|b l]; [cbn; firstorder|].
  destruct (group_split l b) as (ts & rest & -> & Hts & Hr & Hg). unfold new_fold. rewrite Hg. cbn [fold_left fst snd].
  fold (new_fold rest (hm_insert m (b_type b) (extend bdefault (map (fun c => (b_labels c, b_body c)) (b :: ts))))).
  rewrite IH by (cbn in Hn; rewrite app_length in Hn; lia). rewrite (hm_insert_keys m). split.
  - intros [[H| ->]|(c & Hc & Ec)]; [auto| |].
    + right. exists b. split; [left; reflexivity|reflexivity].
    + right. exists c. split; [|exact Ec]. right. apply in_app_iff. auto.
  - intros [H|(c & [<-|Hc] & Ec)]; [auto|auto|]. apply in_app_iff in Hc as [Hc|Hc]; [|eauto].
    left. right. rewrite <- Ec. apply Hts, Hc.
Qed.
Lemma blocks_new_nodup l : NoDup (map (fun kv => cow_str (fst kv)) (blocks_new l)).
Proof. apply (new_fold_nodup (length l) l []); [lia|constructor]. Qed.
Lemma blocks_new_in l k b : In (k, b) (blocks_new l) -> exists r, LastRun (cow_str k) l r /\ b = extend bdefault (run_of r).
Proof.
  intros H. destruct (new_fold_in (length l) l [] (le_n _) (NoDup_nil _) k b H) as [?|[[] _]]; assumption.
Qed.
Lemma blocks_new_keys l x : In x (map (fun kv => cow_str (fst kv)) (blocks_new l)) <-> exists b, In b l /\ cow_str (b_type b) = x.
Proof. rewrite (new_fold_keys (length l) l []) by lia. cbn. tauto. Qed.
Lemma LastRun_in t l r b : LastRun t l r -> In b r -> In b l.
Proof. intros [l1 l2 -> _ _ _ _] H. apply in_app_iff. right. apply in_app_iff. auto. Qed.

Lemma app_split {A} (a : list A) : forall b c d, a ++ b = c ++ d -> exists m, (a = c ++ m /\ d = m ++ b) \/ (c = a ++ m /\ b = m ++ d).
Proof.
  induction a as [|x a IH]; intros b c d H; [exists c; right; auto|]. destruct c as [|y c]; [exists (x :: a); left; auto|].
  injection H as <- H. destruct (IH _ _ _ H) as (m & [[-> ->]|[-> ->]]); exists m; auto.
Qed.
Lemma LastRun_unique t l r r' : LastRun t l r -> LastRun t l r' -> r = r'.
Proof.
  assert (Hhalf : forall a r a' r' : list block_t, a ++ r = a' ++ r' ->
    (forall b, In b r -> cow_str (b_type b) = t) -> (forall l0 b, a' = l0 ++ [b] -> cow_str (b_type b) <> t) ->
    exists m, r' = m ++ r).
  { intros a x a' x' E Hx Ha. destruct (app_split a x a' x' E) as (m & [[-> ->]|[-> ->]]); [eauto|].
    destruct m as [|c m] using rev_ind; [exists []; reflexivity|]. exfalso. clear IHm. apply (Ha (a ++ m) c).
    - rewrite app_assoc. reflexivity.
    - apply Hx. rewrite <- app_assoc. apply in_app_iff. right. left. reflexivity. }
  intros [l1 l2 -> Hr Ha H2 H1] [l1' l2' E Hr' Ha' H2' H1'].
  assert (El : l1 ++ r = l1' ++ r' /\ l2 = l2').
  { rewrite !app_assoc in E. destruct (app_split _ _ _ _ E) as (m & [[E1 E2]|[E1 E2]]).
    - destruct m as [|c m] using rev_ind; [rewrite app_nil_r in E1; auto|]. exfalso. clear IHm. rewrite app_assoc in E1.
      destruct r as [|c' r _] using rev_ind; [congruence|]. rewrite app_assoc in E1. apply app_inj_tail in E1 as [_ <-].
      apply (H2' c'); [rewrite E2; apply in_app_iff; left; apply in_app_iff; right; left; reflexivity|].
      apply Ha. apply in_app_iff. right. left. reflexivity.
    - destruct m as [|c m] using rev_ind; [rewrite app_nil_r in E1; auto|]. exfalso. clear IHm. rewrite app_assoc in E1.
      destruct r' as [|c' r' _] using rev_ind; [congruence|]. rewrite app_assoc in E1. apply app_inj_tail in E1 as [_ <-].
      apply (H2 c'); [rewrite E2; apply in_app_iff; left; apply in_app_iff; right; left; reflexivity|].
      apply Ha'. apply in_app_iff. right. left. reflexivity. }
  destruct El as [El _].
  destruct (Hhalf _ _ _ _ El Ha H1') as (m & E1). destruct (Hhalf _ _ _ _ (eq_sym El) Ha' H1) as (m' & E2).
  assert (Hl : length m = 0) by (apply (f_equal (@length _)) in E1, E2; rewrite app_length in E1, E2; lia).
  destruct m; [symmetry; exact E1|discriminate].
Qed.

Lemma extend_bodies r : forall b0 p body, In (p, body) (flat_iter (extend b0 (run_of r))) ->
  In (p, body) (flat_iter b0) \/ exists b, In b r /\ b_body b = body.
Proof.
  induction r as [|b r IH]; intros b0 p body H; [auto|]. cbn in H. apply IH in H as [H|(c & ? & ?)].
  - apply (Permutation_in _ (flat_iter_append b0 (b_labels b) (b_body b))) in H. destruct H as [[= _ <-]|H]; [|auto].
    right. exists b. split; [left; reflexivity|reflexivity].
  - right. exists c. split; [right; assumption|assumption].
Qed.
Lemma blocks_new_bodies l k b p body : In (k, b) (blocks_new l) -> In (p, body) (flat_iter b) ->
  exists c, In c l /\ cow_str (b_type c) = cow_str k /\ b_body c = body.
Proof.
  intros H Hb. destruct (blocks_new_in l k b H) as (r & HL & ->). apply extend_bodies in Hb as [[]|(c & Hc & <-)].
  exists c. split; [eapply LastRun_in; eassumption|]. split; [|reflexivity]. destruct HL as [? ? _ _ Ha _ _]. apply Ha, Hc.
Qed.
Lemma blocks_of_in b c : In c (blocks_of b) <-> In (Blk (b_type c) (b_labels c) (b_body c)) b.
Proof.
  destruct c as [t ls bd]. cbn. induction b as [|[n e|t' ls' bd'] b IH]; cbn; [tauto| |].
  - rewrite IH. split; [auto|]. intros [H|H]; [discriminate|exact H].
  - rewrite IH. split; intros [H|H]; auto; left; congruence.
Qed.
Lemma attributes_of_in b n e : In (n, e) (attributes_of b) <-> In (Attr n e) b.
Proof.
  induction b as [|[n' e'|t' ls' bd'] b IH]; cbn; [tauto| |].
  - rewrite IH. split; intros [H|H]; auto; left; congruence.
  - rewrite IH. split; [auto|]. intros [H|H]; [discriminate|exact H].
Qed.

(** ** Fuel *)
Definition Order (ord : blocks_t -> blocks_t) : Prop := forall m, Permutation m (ord m).

Section Fuel.
  Variable ord : blocks_t -> blocks_t.
  Hypothesis Hord : Order ord.

  Lemma object_steps_in l : forall seen k s, In (MEntry k s) (object_steps seen l) ->
    exists e, s = SExpr e /\ In (KIdent k, e) l.
  Proof.
    induction l as [|[[k'|k'] e] l IH]; intros seen k s; cbn; [tauto| |intros [H|[]]; discriminate].
    destruct (seen_mem _ _); [intros [H|[]]; discriminate|]. intros [[= -> <-]|H]; [eauto|].
    destruct (IH _ _ _ H) as (e' & -> & ?). eauto.
  Qed.
  Lemma body_steps_in l : forall seen k s, In (MEntry k s) (body_steps seen l) ->
    (exists e, s = SExpr e /\ In (k, BVExpr e) l) \/ (exists b, s = SBlock b /\ In (k, BVBlock b) l).
  Proof.
    induction l as [|[k' [e|b]] l IH]; intros seen k s; cbn; [tauto| |];
      (destruct (seen_mem _ _); [intros [H|[]]; discriminate|]);
      (intros [[= -> <-]|H]; [eauto|]; destruct (IH _ _ _ H) as [(e' & -> & ?)|(b' & -> & ?)]; eauto).
  Qed.
  Lemma body_any_in b k s : In (MEntry k s) (body_steps [] (build_map_access_iter ord b)) -> src_depth s < body_depth b.
  Proof.
    intros H. unfold body_depth. apply body_steps_in in H as [(e & -> & H)|(x & -> & H)]; apply in_app_iff in H as [H|H];
      apply in_map_iff in H as ([n v] & E & H); cbn [fst snd] in E; try discriminate E; injection E as E1 E2; subst n v; rename x into v || idtac.
    - cbn [src_depth fst snd] in *. apply attributes_of_in in H. pose proof (list_max_map_in elem_depth _ _ H) as Hm. cbn in Hm. lia.
    - cbn [src_depth fst snd] in *. apply (Permutation_in _ (Permutation_sym (Hord _))) in H.
      apply Nat.lt_succ_r. 
      assert (Hb : forall pb, In pb (flat_iter v) -> S (S (body_depth (snd pb))) <= list_max (map elem_depth b)).
      { intros [p body] Hpb. destruct (blocks_new_bodies _ _ _ _ _ H Hpb) as (c & Hc & _ & <-). apply blocks_of_in in Hc.
        pose proof (list_max_map_in elem_depth _ _ Hc) as Hm. cbn [elem_depth] in Hm. exact Hm. }
      destruct (blocks_new_in _ _ _ H) as (r & HL & _).
      assert (H1 : 1 <= list_max (map elem_depth b)).
      { destruct HL as [l1 l2 El Hr _ _ _]. destruct r as [|c r]; [congruence|].
        assert (Hc : In c (blocks_of b)) by (rewrite El; apply in_app_iff; right; left; reflexivity). apply blocks_of_in in Hc.
        pose proof (list_max_map_in elem_depth _ _ Hc) as Hm. cbn [elem_depth] in Hm. lia. }
      destruct (list_max (map elem_depth b)) as [|d]; [lia|]. apply le_n_S. apply list_max_le. rewrite Forall_forall.
      intros x0 Hx. apply in_map_iff in Hx as (pb & <- & Hpb). specialize (Hb pb Hpb). lia.
  Qed.

  (* the sources an event hands out *)
  Definition ev_ok (s : src) (ev : event) : Prop :=
    match ev with
    | VSome s' | VNewtype s' => s' = s
    | VSeq l => forall s', In s' l -> src_depth s' < src_depth s
    | VMap l => forall k s', In (MEntry k s') l -> src_depth s' < src_depth s
    | _ => True
    end.
  Lemma expr_depth_tuple e l : In e l -> expr_depth e < expr_depth (ETuple l).
  Proof. intros H. cbn. apply Nat.lt_succ_r. apply list_max_map_in, H. Qed.
  Lemma expr_depth_object k e l : In (k, e) l -> expr_depth e < expr_depth (EObject l).
  Proof. intros H. cbn. apply Nat.lt_succ_r. apply (list_max_map_in (fun ke => expr_depth (snd ke)) _ _ H). Qed.
  Lemma expr_any_ok e : ev_ok (SExpr e) (expr_any e).
  Proof.
    destruct e as [|n|b|[s|s]|l|l]; cbn -[expr_depth]; try exact I.
    - unfold number_event. destruct (is_float n); [destruct (as_f64 n); exact I|]. destruct (is_signed n);
        [destruct (as_int I64 n)|destruct (as_int U64 n)]; exact I.
    - intros s' Hs. apply in_map_iff in Hs as (e & <- & He). apply expr_depth_tuple, He.
    - intros k s' Hs. apply object_steps_in in Hs as (e & -> & He). eapply expr_depth_object, He.
  Qed.
  Lemma one_or_seq_ok b bodies : (forall body, In body bodies -> exists p, In (p, body) (flat_iter b)) ->
    ev_ok (SBlock b) (one_or_seq ord bodies).
  Proof.
    intros H.
    assert (Hd : forall body, In body bodies -> body_depth body < src_depth (SBlock b)).
    { intros body Hb. destruct (H _ Hb) as [p Hp]. cbn. apply Nat.lt_succ_r.
      apply (list_max_map_in (fun pb => body_depth (snd pb)) _ _ Hp). }
    unfold one_or_seq. destruct bodies as [|b1 [|b2 bodies]].
    - intros ? [].
    - cbn. intros k s' Hs. apply body_any_in in Hs. specialize (Hd b1 (or_introl eq_refl)). cbn in Hd. lia.
    - intros s' Hs. apply in_map_iff in Hs as (body & <- & Hb). apply (Hd _ Hb).
  Qed.
  Lemma call_ok s m : ev_ok s (call ord s m).
  Proof.
    destruct s as [e|b|b]; cbn [call].
    - destruct m; cbn [expr_call]; try apply expr_any_ok.
      + destruct e; cbn; auto.
      + reflexivity.
      + destruct e; try apply expr_any_ok. destruct (_ =? _)%nat; [|exact I].
        intros s' Hs. apply in_map_iff in Hs as (e & <- & He). apply expr_depth_tuple, He.
    - intros k s' Hs. apply (body_any_in _ k), Hs.
    - assert (Hb : forall bodies, b = BBody bodies -> forall body, In body bodies -> exists p, In (p, body) (flat_iter b)).
      { intros bodies -> body Hi. exists []. cbn. apply in_map_iff. eauto. }
      assert (He : forall e m, b = BLabels e m -> forall body, In body e -> exists p, In (p, body) (flat_iter b)).
      { intros e m' -> body Hi. exists []. cbn. apply in_app_iff. left. apply in_map_iff. eauto. }
      assert (Hany : ev_ok (SBlock b) (match b with BBody bodies => one_or_seq ord bodies | BLabels e [] => one_or_seq ord e | BLabels e (_ :: _) => VPanic end)).
      { destruct b as [bodies|e [|x m']]; [apply one_or_seq_ok; eauto|apply one_or_seq_ok; eauto|exact I]. }
      destruct m; cbn [block_call]; try exact Hany.
      + destruct (_ =? _)%nat; cbn; auto.
      + destruct b as [bodies|e [|x m']]; [|exact Hany|exact I]. intros s' Hs. apply in_map_iff in Hs as (body & <- & Hi).
        destruct (Hb _ eq_refl _ Hi) as [p Hp]. cbn [src_depth]. apply Nat.lt_succ_r.
        apply (list_max_map_in (fun pb => body_depth (snd pb)) _ _ Hp).
  Qed.

  Lemma ty_depth_pos t : 1 <= ty_depth t.
  Proof. destruct t; cbn; lia. Qed.

  (* [visit] only deserialises components of smaller measure *)
  Lemma seq_all_ext rec rec' t l : (forall s, In s l -> rec t s = rec' t s) -> seq_all rec t l = seq_all rec' t l.
  Proof.
    induction l as [|s l IH]; intros H; cbn; [reflexivity|]. rewrite (H s (or_introl eq_refl)), IH; [reflexivity|].
    intros s' Hs. apply H. right. exact Hs.
  Qed.
  Lemma seq_types_ext rec rec' ts : forall l, (forall t s, In t ts -> In s l -> rec t s = rec' t s) ->
    seq_types rec ts l = seq_types rec' ts l.
  Proof.
    induction ts as [|t ts IH]; intros [|s l] H; cbn; try reflexivity. rewrite (H t s (or_introl eq_refl) (or_introl eq_refl)), IH; [reflexivity|].
    intros t' s' Ht Hs. apply H; right; assumption.
  Qed.
  Lemma map_all_ext rec rec' k t l : (forall c s, In (MEntry c s) l -> rec t s = rec' t s) -> map_all rec k t l = map_all rec' k t l.
  Proof.
    induction l as [|[c s| |] l IH]; intros H; cbn; try reflexivity. rewrite (H c s (or_introl eq_refl)), IH; [reflexivity|].
    intros c' s' Hs. apply (H c'). right. exact Hs.
  Qed.
  Lemma ignore_seq_ext rec rec' l : (forall s, In s l -> rec TIgnored s = rec' TIgnored s) -> ignore_seq rec l = ignore_seq rec' l.
  Proof.
    induction l as [|s l IH]; intros H; cbn; [reflexivity|]. rewrite (H s (or_introl eq_refl)), IH; [reflexivity|].
    intros s' Hs. apply H. right. exact Hs.
  Qed.
  Lemma ignore_map_ext rec rec' l : (forall c s, In (MEntry c s) l -> rec TIgnored s = rec' TIgnored s) -> ignore_map rec l = ignore_map rec' l.
  Proof.
    induction l as [|[c s| |] l IH]; intros H; cbn; try reflexivity. rewrite (H c s (or_introl eq_refl)), IH; [reflexivity|].
    intros c' s' Hs. apply (H c'). right. exact Hs.
  Qed.
  Lemma field_get_in {A} k (l : list (str * A)) x : field_get k l = Some x -> In (k, x) l.
  Proof.
    unfold field_get. destruct (find _ l) as [[k' y]|] eqn:E; [|discriminate]. intros [= <-]. apply find_some in E as [H E].
    apply str_eqb_eq in E. cbn in *. subst. exact H.
  Qed.
  Lemma struct_map_ext rec rec' fs l : forall acc,
    (forall t c s, (t = TIgnored \/ In t (map snd fs)) -> In (MEntry c s) l -> rec t s = rec' t s) ->
    struct_map rec fs acc l = struct_map rec' fs acc l.
  Proof.
    induction l as [|[c s| |] l IH]; intros acc H; cbn; try reflexivity.
    assert (H' : forall t c s, (t = TIgnored \/ In t (map snd fs)) -> In (MEntry c s) l -> rec t s = rec' t s).
    { intros t' c' s' Ht Hs. apply (H t' c'); [exact Ht|right; exact Hs]. }
    destruct (field_get (cow_str c) fs) as [t|] eqn:E.
    - apply field_get_in in E. rewrite (H t c s); [|right; apply (in_map snd) in E; exact E|left; reflexivity].
      destruct (field_get (cow_str c) acc); [reflexivity|]. destruct (rec' t s); cbn; try reflexivity. apply IH, H'.
    - rewrite (H TIgnored c s); [|left; reflexivity|left; reflexivity]. destruct (rec' TIgnored s); cbn; try reflexivity. apply IH, H'.
  Qed.
  Lemma visit_ext rec rec' t s ev :
    ev_ok s ev -> (forall t' s', ty_depth t' + src_depth s' < ty_depth t + src_depth s -> rec t' s' = rec' t' s') ->
    visit rec t ev = visit rec' t ev.
  Proof.
    intros Hev H. pose proof (ty_depth_pos t) as Hpos.
    destruct ev as [| | | | | | |s0|s0|l|l| |]; try (destruct t; reflexivity).
    - cbn in Hev. subst s0. destruct t; try reflexivity. cbn. rewrite H by (cbn; lia). reflexivity.
    - cbn in Hev. subst s0. destruct t; try reflexivity. cbn. apply H. cbn. lia.
    - cbn in Hev.
      assert (Hs : forall t' s', ty_depth t' <= ty_depth t -> In s' l -> rec t' s' = rec' t' s').
      { intros t' s' Ht Hin. apply H. specialize (Hev s' Hin). lia. }
      destruct t; try reflexivity; cbn [visit].
      + destruct l as [|s1 l1]; [reflexivity|]. apply Hs; [cbn; lia|left; reflexivity].
      + rewrite (seq_all_ext rec rec'); [reflexivity|]. intros s' Hi. apply Hs; [cbn; lia|exact Hi].
      + rewrite (seq_types_ext rec rec'); [reflexivity|]. intros t' s' Ht Hi. apply Hs; [|exact Hi].
        cbn. pose proof (list_max_map_in ty_depth _ _ Ht). lia.
      + rewrite (seq_types_ext rec rec'); [reflexivity|]. intros t' s' Ht Hi. apply Hs; [|exact Hi].
        apply in_map_iff in Ht as (ft & <- & Hft). cbn. pose proof (list_max_map_in (fun ft => ty_depth (snd ft)) _ _ Hft). cbn in *. lia.
      + rewrite (seq_all_ext rec rec'); [reflexivity|]. intros s' Hi. apply Hs; [cbn; lia|exact Hi].
      + rewrite (ignore_seq_ext rec rec'); [reflexivity|]. intros s' Hi. apply Hs; [cbn; lia|exact Hi].
      + rewrite (seq_all_ext rec rec'); [reflexivity|]. intros s' Hi. apply Hs; [cbn; lia|exact Hi].
    - cbn in Hev.
      assert (Hs : forall t' c s', ty_depth t' <= ty_depth t -> In (MEntry c s') l -> rec t' s' = rec' t' s').
      { intros t' c s' Ht Hin. apply H. specialize (Hev c s' Hin). lia. }
      destruct t; try reflexivity; cbn [visit].
      + rewrite (map_all_ext rec rec'); [reflexivity|]. intros c s' Hi. apply (Hs _ c); [cbn; lia|exact Hi].
      + rewrite (struct_map_ext rec rec'); [reflexivity|]. intros t' c s' Ht Hi. apply (Hs _ c); [|exact Hi].
        destruct Ht as [->|Ht]; [exact Hpos|].
        apply in_map_iff in Ht as (ft & <- & Hft). cbn. pose proof (list_max_map_in (fun ft => ty_depth (snd ft)) _ _ Hft). cbn in *. lia.
      + rewrite (ignore_map_ext rec rec'); [reflexivity|]. intros c s' Hi. apply (Hs _ c); [cbn; lia|exact Hi].
      + rewrite (map_all_ext rec rec'); [reflexivity|]. intros c s' Hi. apply (Hs _ c); [cbn; lia|exact Hi].
  Qed.

  Lemma de_fuel n : forall f f' t s, ty_depth t + src_depth s <= n -> ty_depth t + src_depth s <= f -> ty_depth t + src_depth s <= f' ->
    de ord f t s = de ord f' t s.
  Proof.
    induction n as [|n IH]; intros f f' t s Hn Hf Hf'; pose proof (ty_depth_pos t) as Hp; [lia|].
    destruct f as [|f]; [lia|]. destruct f' as [|f']; [lia|]. cbn [de]. apply (visit_ext _ _ t s); [apply call_ok|].
    intros t' s' Hlt. apply IH; lia.
  Qed.
  (** The defining equation, without fuel. *)
  Theorem deserialize_eq t s : deserialize ord t s = visit (deserialize ord) t (call ord s (method_of t)).
  Proof.
    unfold deserialize at 1. pose proof (ty_depth_pos t) as Hp. destruct (ty_depth t + src_depth s) as [|f] eqn:E; [lia|].
    cbn [de]. apply (visit_ext _ _ t s); [apply call_ok|]. intros t' s' Hlt. unfold deserialize. apply (de_fuel f); lia.
  Qed.

  (* no [DeFuel] *)
  Lemma visit_no_fuel rec t s ev : ev_ok s ev ->
    (forall t' s', ty_depth t' + src_depth s' < ty_depth t + src_depth s -> rec t' s' <> DeFuel) -> visit rec t ev <> DeFuel.
  Proof.
    set (fix_ := fun (t : ty) (s : src) => match rec t s with DeFuel => DePanic | r => r end).
    intros Hev H. rewrite (visit_ext rec fix_ t s ev Hev).
    2:{ intros t' s' Hlt. unfold fix_. specialize (H t' s' Hlt). destruct (rec t' s'); congruence. }
    assert (Hf : forall t s, fix_ t s <> DeFuel) by (intros t0 s0; unfold fix_; destruct (rec t0 s0); discriminate).
    clearbody fix_. clear H.
    assert (Hall : forall t l, seq_all fix_ t l <> DeFuel).
    { intros t0 l. induction l as [|s0 l IH]; cbn; [discriminate|]. specialize (Hf t0 s0). destruct (fix_ t0 s0); cbn; try discriminate; try congruence.
      destruct (seq_all fix_ t0 l); cbn; congruence. }
    assert (Hty : forall ts l, seq_types fix_ ts l <> DeFuel).
    { intros ts. induction ts as [|t0 ts IH]; intros [|s0 l]; cbn; try discriminate. specialize (Hf t0 s0). specialize (IH l).
      destruct (fix_ t0 s0); cbn; try discriminate; try congruence. destruct (seq_types fix_ ts l); cbn; congruence. }
    assert (Hmap : forall k t l, map_all fix_ k t l <> DeFuel).
    { intros k t0 l. induction l as [|[c s0| |] l IH]; cbn; try discriminate. destruct (key_ok k c); [|discriminate]. specialize (Hf t0 s0).
      destruct (fix_ t0 s0); cbn; try discriminate; try congruence. destruct (map_all fix_ k t0 l); cbn; congruence. }
    assert (His : forall l, ignore_seq fix_ l <> DeFuel).
    { intros l. induction l as [|s0 l IH]; cbn; [discriminate|]. specialize (Hf TIgnored s0). destruct (fix_ TIgnored s0); cbn; congruence. }
    assert (Him : forall l, ignore_map fix_ l <> DeFuel).
    { intros l. induction l as [|[c s0| |] l IH]; cbn; try discriminate. specialize (Hf TIgnored s0). destruct (fix_ TIgnored s0); cbn; congruence. }
    assert (Hst : forall fs l acc, struct_map fix_ fs acc l <> DeFuel).
    { intros fs l. induction l as [|[c s0| |] l IH]; intros acc; cbn; try discriminate. destruct (field_get _ fs) as [t0|].
      - destruct (field_get _ acc); [discriminate|]. specialize (Hf t0 s0). destruct (fix_ t0 s0); cbn; first [congruence|discriminate|apply IH].
      - specialize (Hf TIgnored s0). destruct (fix_ TIgnored s0); cbn; first [congruence|discriminate|apply IH]. }
    assert (Hfin : forall fs acc, struct_finish fs acc <> DeFuel).
    { intros fs acc. induction fs as [|[f t0] fs IH]; cbn; [discriminate|]. destruct (field_get f acc).
      - destruct (struct_finish fs acc); cbn; congruence.
      - destruct t0; try discriminate. destruct (struct_finish fs acc); cbn; congruence. }
    destruct ev as [| | |f|s1|s1| |s1|s1|l|l| |]; destruct t; cbn; try discriminate; try apply Hf.
    - destruct (checked _ _); discriminate.
    - destruct s1 as [|? [|? ?]]; discriminate.
    - destruct s1 as [|? [|? ?]]; discriminate.
    - specialize (Hf t s1). destruct (fix_ t s1); cbn; congruence.
    - destruct l; [discriminate|apply Hf].
    - specialize (Hall t l). destruct (seq_all _ _ _); cbn; congruence.
    - specialize (Hty l0 l). destruct (seq_types _ _ _); cbn; congruence.
    - specialize (Hty (map snd fields) l). destruct (seq_types _ _ _); cbn; congruence.
    - specialize (Hall (TInt U8) l). destruct (seq_all _ _ _); cbn; congruence.
    - specialize (His l). destruct (ignore_seq _ _); cbn; congruence.
    - specialize (Hall TAny l). destruct (seq_all _ _ _); cbn; congruence.
    - specialize (Hmap k t l). destruct (map_all _ _ _ _); cbn; congruence.
    - specialize (Hst fields l []). destruct (struct_map _ _ _ _) as [acc| | |]; cbn; try congruence.
      specialize (Hfin fields acc). destruct (struct_finish _ _); cbn; congruence.
    - specialize (Him l). destruct (ignore_map _ _); cbn; congruence.
    - specialize (Hmap KTString TAny l). destruct (map_all _ _ _ _); cbn; congruence.
  Qed.
  Theorem deserialize_total t s : deserialize ord t s <> DeFuel.
  Proof.
    remember (ty_depth t + src_depth s) as n eqn:E. revert t s E. induction n as [n IH] using lt_wf_ind. intros t s E.
    rewrite deserialize_eq. apply (visit_no_fuel _ t s); [apply call_ok|]. intros t' s' Hlt. apply (IH (ty_depth t' + src_depth s')); lia.
  Qed.
End Fuel.
