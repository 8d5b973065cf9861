(** * Property theorems: deserialisation (C38-C45, C63-C67) *)
From Coq Require Import Permutation SpecFloat.
From Verif Require Import Base Ast NomFacts Grammar Blocks BlockSpec BlockProofs PropBlocks NumConv NumSpec NumProofs PropNum
  Parser PropSyntax PropLex Serde SerdeSpec SerdeProofs.
Local Open Scope nat_scope.

(** ** Helpers *)
Lemma dbind_ok {A B} (r : dres A) (f : A -> dres B) y : dbind r f = DeOk y <-> exists x, r = DeOk x /\ f x = DeOk y.
Proof. destruct r; cbn; split; try discriminate; try (intros (? & ? & ?); discriminate); eauto. intros (x & [= <-] & H). exact H. Qed.
Lemma dmap_ok {A B} (f : A -> B) (r : dres A) y : dmap f r = DeOk y <-> exists x, r = DeOk x /\ y = f x.
Proof. unfold dmap. rewrite dbind_ok. split; intros (x & ? & H); exists x; split; auto; congruence. Qed.
Lemma dbind_panic {A B} (r : dres A) (f : A -> dres B) : r <> DePanic -> (forall x, r = DeOk x -> f x <> DePanic) -> dbind r f <> DePanic.
Proof. destruct r; cbn; intros H1 H2; try discriminate; auto. Qed.
Lemma dmap_panic {A B} (f : A -> B) (r : dres A) : dmap f r <> DePanic <-> r <> DePanic.
Proof. destruct r; cbn; split; intros; congruence. Qed.

Lemma seq_all_ok rec t l ds : seq_all rec t l = DeOk ds <-> Forall2 (fun s d => rec t s = DeOk d) l ds.
Proof.
  revert ds. induction l as [|s l IH]; intros ds; cbn.
  - split; [intros [= <-]; constructor|intros H; inversion H; reflexivity].
  - rewrite dbind_ok. split.
    + intros (d & Hd & H). apply dmap_ok in H as (ds' & H & ->). constructor; [exact Hd|apply IH, H].
    + intros H. inversion H as [|? d ? ds' Hd Hds]; subst. exists d. split; [exact Hd|]. apply dmap_ok. exists ds'.
      split; [apply IH, Hds|reflexivity].
Qed.
Lemma map_all_ok {A} rec t (f : A -> cow) (g : A -> src) l es :
  map_all rec KTString t (map (fun x => MEntry (f x) (g x)) l) = DeOk es <->
  Forall2 (fun x e => fst e = cow_str (f x) /\ rec t (g x) = DeOk (snd e)) l es.
Proof.
  revert es. induction l as [|x l IH]; intros es; cbn.
  - split; [intros [= <-]; constructor|intros H; inversion H; reflexivity].
  - rewrite dbind_ok. split.
    + intros (d & Hd & H). apply dmap_ok in H as (ds' & H & ->). constructor; [auto|apply IH, H].
    + intros H. inversion H as [|? [k d] ? ds' [Hk Hd] Hds]; subst. cbn in *. exists d. split; [exact Hd|]. apply dmap_ok. exists ds'.
      split; [apply IH, Hds|congruence].
Qed.
Lemma map_all_bad rec k t l st l' es : (exists e, st = MDuplicate e) \/ st = MPanic -> map_all rec k t (l ++ st :: l') <> DeOk es.
Proof.
  intros Hst. revert es. induction l as [|[c s| |] l IH]; intros es; cbn; try discriminate.
  - destruct Hst as [[? ->] | ->]; discriminate.
  - destruct (key_ok k c); [|discriminate]. rewrite dbind_ok. intros (d & _ & H). apply dmap_ok in H as (ds & H & _). exact (IH _ H).
Qed.
Lemma struct_map_bad rec fs l st l' : (exists e, st = MDuplicate e) \/ st = MPanic -> forall acc es, struct_map rec fs acc (l ++ st :: l') <> DeOk es.
Proof.
  intros Hst. induction l as [|[c s| |] l IH]; intros acc es; cbn; try discriminate.
  - destruct Hst as [[? ->] | ->]; discriminate.
  - destruct (field_get _ fs).
    + destruct (field_get _ acc); [discriminate|]. rewrite dbind_ok. intros (d & _ & H). exact (IH _ _ H).
    + rewrite dbind_ok. intros (d & _ & H). exact (IH _ _ H).
Qed.
Lemma ignore_map_bad rec l st l' u : (exists e, st = MDuplicate e) \/ st = MPanic -> ignore_map rec (l ++ st :: l') <> DeOk u.
Proof.
  intros Hst. induction l as [|[c s| |] l IH]; cbn; try discriminate.
  - destruct Hst as [[? ->] | ->]; discriminate.
  - rewrite dbind_ok. intros (d & _ & H). exact (IH H).
Qed.
(* a map access that ends badly is never accepted, by any target *)
Lemma visit_map_bad rec t l st l' d : (exists e, st = MDuplicate e) \/ st = MPanic -> visit rec t (VMap (l ++ st :: l')) <> DeOk d.
Proof.
  intros Hst. destruct t; cbn; try discriminate; rewrite dmap_ok; intros (x & H & _).
  - exact (map_all_bad _ _ _ _ _ _ _ Hst H).
  - apply dbind_ok in H as (acc & H & _). exact (struct_map_bad _ _ _ _ _ Hst _ _ H).
  - exact (ignore_map_bad _ _ _ _ _ Hst H).
  - exact (map_all_bad _ _ _ _ _ _ _ Hst H).
Qed.

Lemma seen_mem_in k l : seen_mem k l = true <-> In k l.
Proof.
  unfold seen_mem. rewrite existsb_exists. split.
  - intros (x & H & E). apply str_eqb_eq in E. subst. exact H.
  - intros H. exists k. split; [exact H|apply str_eqb_refl].
Qed.
Lemma seen_mem_out k l : seen_mem k l = false <-> ~ In k l.
Proof. rewrite <- seen_mem_in. destruct (seen_mem k l); split; intros; congruence. Qed.

Definition val_src (v : body_value) : src := match v with BVExpr e => SExpr e | BVBlock b => SBlock b end.
Definition keys_of (l : list (cow * body_value)) : list str := map (fun kv => cow_str (fst kv)) l.
Lemma body_steps_fresh l : forall seen, NoDup (keys_of l) -> (forall k, In k (keys_of l) -> ~ In k seen) ->
  body_steps seen l = map (fun kv => MEntry (fst kv) (val_src (snd kv))) l.
Proof.
  induction l as [|[k v] l IH]; intros seen HD Hs; [reflexivity|]. cbn in HD. inversion HD as [|? ? Hn HD']; subst. cbn [body_steps map fst snd].
  assert (E : seen_mem (cow_str k) seen = false) by (apply seen_mem_out, Hs; left; reflexivity).
  rewrite E, IH; [destruct v; reflexivity|exact HD'|]. intros k' Hk [<-|Hi]; [contradiction|]. apply (Hs k'); [right; exact Hk|exact Hi].
Qed.
Lemma body_steps_stale l : forall seen, ~ (NoDup (keys_of l) /\ (forall k, In k (keys_of l) -> ~ In k seen)) ->
  exists l1 kv l2, l = l1 ++ kv :: l2 /\ NoDup (keys_of l1) /\ (forall k, In k (keys_of l1) -> ~ In k seen) /\
    (In (cow_str (fst kv)) seen \/ In (cow_str (fst kv)) (keys_of l1)) /\
    body_steps seen l = map (fun kv => MEntry (fst kv) (val_src (snd kv))) l1 ++ [match snd kv with BVExpr _ => MDuplicate (EBodyDuplicateKey (cow_str (fst kv))) | BVBlock _ => MPanic end].
Proof.
  induction l as [|[k v] l IH]; intros seen H.
  - exfalso. apply H. split; [constructor|intros ? []].
  - cbn [body_steps]. destruct (seen_mem (cow_str k) seen) eqn:E.
    + exists [], (k, v), l. apply seen_mem_in in E. repeat split; auto; [constructor|]. destruct v; reflexivity.
    + apply seen_mem_out in E. destruct (IH (cow_str k :: seen)) as (l1 & kv & l2 & -> & HD & Hs & Hin & Es).
      * intros [HD Hs]. apply H. split.
        -- cbn. constructor; [|exact HD]. intros Hi. apply (Hs _ Hi). left. reflexivity.
        -- intros k' [<-|Hi]; [exact E|]. intros Hx. apply (Hs _ Hi). right. exact Hx.
      * exists ((k, v) :: l1), kv, l2. split; [reflexivity|]. split; [|split; [|split]].
        -- cbn. constructor; [|exact HD]. intros Hi. apply (Hs _ Hi). left. reflexivity.
        -- intros k' [<-|Hi]; [exact E|]. intros Hx. apply (Hs _ Hi). right. exact Hx.
        -- cbn. destruct Hin as [[<-|Hin]|Hin]; auto.
        -- cbn [map app fst snd]. rewrite <- Es. destruct v; reflexivity.
Qed.
Lemma attributes_list b : map (fun ne => (cow_str (fst ne), snd ne)) (attributes_of b) = attr_list b.
Proof. induction b as [|[n e|t ls bd] b IH]; cbn; [reflexivity| |exact IH]. f_equal. exact IH. Qed.
Lemma blocks_list b : blocks_of b = block_list b.
Proof. induction b as [|[n e|t ls bd] b IH]; cbn; [reflexivity|exact IH|]. f_equal. exact IH. Qed.
Lemma attr_list_in b n e : In (n, e) (attr_list b) <-> exists c, cow_str c = n /\ In (Attr c e) b.
Proof.
  rewrite <- attributes_list. rewrite in_map_iff. split.
  - intros ([c e'] & [= <- <-] & H). exists c. split; [reflexivity|]. apply attributes_of_in, H.
  - intros (c & <- & H). exists (c, e). split; [reflexivity|]. apply attributes_of_in, H.
Qed.
Lemma keys_build ord b : keys_of (build_map_access_iter ord b) =
  map fst (attr_list b) ++ map (fun kv => cow_str (fst kv)) (ord (blocks_new (block_list b))).
Proof.
  unfold build_map_access_iter, keys_of. rewrite <- attributes_list, <- blocks_list, map_app, !map_map. reflexivity.
Qed.
Lemma ord_keys ord l x : Order ord -> In x (map (fun kv => cow_str (fst kv)) (ord (blocks_new l))) <-> exists b, In b l /\ cow_str (b_type b) = x.
Proof.
  intros Ho. rewrite <- blocks_new_keys. split; apply Permutation_in, Permutation_map; [symmetry|]; apply Ho.
Qed.
Lemma ord_nodup ord l : Order ord -> NoDup (map (fun kv => cow_str (fst kv)) (ord (blocks_new l))).
Proof. intros Ho. eapply Permutation_NoDup; [apply Permutation_map, Ho|apply blocks_new_nodup]. Qed.
Lemma NoDup_app {A} (l l' : list A) : NoDup (l ++ l') <-> NoDup l /\ NoDup l' /\ (forall x, In x l -> ~ In x l').
Proof.
  induction l as [|x l IH]; cbn.
  - split; [intros H; split; [constructor|]; split; [exact H|intros ? []]|intros (_ & H & _); exact H].
  - rewrite !NoDup_cons_iff, IH, in_app_iff. split.
    + intros (H1 & H2 & H3 & H4). repeat split; auto. intros y [<-|Hy] Hy'; [tauto|exact (H4 y Hy Hy')].
    + intros ((H1 & H2) & H3 & H4). repeat split; auto. intros [H|H]; [tauto|]. exact (H4 x (or_introl eq_refl) H).
Qed.
Lemma block_list_in b c : In c (block_list b) <-> In (Blk (b_type c) (b_labels c) (b_body c)) b.
Proof. rewrite <- blocks_list. apply blocks_of_in. Qed.
(** The names of a body are distinct: no repeated attribute, no attribute named
    like a block type. *)
Definition DistinctNames (b : body_t) : Prop :=
  NoDup (map fst (attr_list b)) /\
  forall n e t ls bd, In (Attr n e) b -> In (Blk t ls bd) b -> cow_str n <> cow_str t.
Lemma distinct_keys ord b : Order ord -> DistinctNames b <-> NoDup (keys_of (build_map_access_iter ord b)).
Proof.
  intros Ho. rewrite keys_build, NoDup_app. unfold DistinctNames. split.
  - intros [H1 H2]. split; [exact H1|]. split; [apply ord_nodup, Ho|]. intros x Hx Hx'. apply (ord_keys ord _ x Ho) in Hx' as (c & Hc & Ec).
    apply in_map_iff in Hx as ([n e] & <- & Hx). apply attr_list_in in Hx as (n' & <- & Hx). apply block_list_in in Hc. cbn in Ec.
    apply (H2 _ _ _ _ _ Hx Hc). congruence.
  - intros (H1 & _ & H3). split; [exact H1|]. intros n e t ls bd Ha Hb E. apply (H3 (cow_str n)).
    + apply in_map_iff. exists (cow_str n, e). split; [reflexivity|]. apply attr_list_in. eauto.
    + apply (ord_keys ord _ _ Ho). exists (mk_block t ls bd). split; [apply block_list_in; exact Hb|]. cbn. congruence.
Qed.

(** ** C38: integers *)
Lemma i64_text n t z : NumLit n t -> (as_int I64 n = Some z <-> IntegerText t z /\ InRange I64 z).
Proof. intros H. rewrite (C14_integer_exact n t I64 z H). pose proof signed_I64. tauto. Qed.
Lemma checked_range t z z' : checked t z = Some z' <-> z' = z /\ InRange t z.
Proof.
  rewrite checked_spec, InRange_spec. split; intros [<- H]; auto.
Qed.
Lemma int_visit ord n it : Order ord -> deserialize ord (TInt it) (SExpr (ENumber n)) =
  if is_float n then match as_f64 n with Some _ => DeErr (ECustom CInvalidType) | None => DeErr EParseFloat end
  else match as_int I64 n with None => DeErr EParseInt | Some z => match checked it z with Some z => DeOk (DInt z) | None => DeErr (ECustom CInvalidValue) end end.
Proof.
  intros Ho. rewrite deserialize_eq by exact Ho. cbn [call method_of expr_call expr_any]. unfold number_event, is_float.
  destruct (is_signed n); cbn [negb].
  - destruct (as_int I64 n); reflexivity.
  - destruct (as_f64 n); reflexivity.
Qed.
(** Exactly the value or an error; accepted iff the value fits the target and [i64]. *)
Theorem C38_integer_exact : forall ord, Order ord -> forall n t it, NumLit n t ->
  (forall d, deserialize ord (TInt it) (SExpr (ENumber n)) = DeOk d <->
     exists z, d = DInt z /\ IntegerText t z /\ InRange it z /\ InRange I64 z) /\
  ((exists err, deserialize ord (TInt it) (SExpr (ENumber n)) = DeErr err) <->
     ~ exists z, IntegerText t z /\ InRange it z /\ InRange I64 z).
Proof.
  intros ord Ho n t it H. rewrite int_visit by exact Ho.
  assert (Hok : forall d, (if is_float n then match as_f64 n with Some _ => DeErr (ECustom CInvalidType) | None => DeErr EParseFloat end else match as_int I64 n with None => DeErr EParseInt | Some z => match checked it z with Some z => DeOk (DInt z) | None => DeErr (ECustom CInvalidValue) end end) = DeOk d <->
     exists z, d = DInt z /\ IntegerText t z /\ InRange it z /\ InRange I64 z).
  { intros d. destruct (is_float n) eqn:Ef.
    - split; [destruct (as_f64 n); discriminate|]. intros (z & _ & Hz & _). exfalso.
      assert (Es : is_signed n = false) by (unfold is_float in Ef; destruct (is_signed n); [discriminate|reflexivity]).
      exact (NumLit_float_not_integer n t z H Es Hz).
    - destruct (as_int I64 n) as [z|] eqn:E.
      + apply (i64_text n t z H) in E as [Ht Hr]. destruct (checked it z) as [z'|] eqn:Ec.
        * apply checked_range in Ec as [-> Hi]. split; [intros [= <-]; eauto|]. intros (z' & -> & Hz' & _).
          rewrite (C14_value_unique t z z' Ht Hz'). reflexivity.
        * split; [discriminate|]. intros (z' & -> & Hz' & Hi & _). rewrite <- (C14_value_unique t z z' Ht Hz') in Hi.
          assert (Ec' : checked it z = Some z) by (apply checked_range; auto). congruence.
      + split; [discriminate|]. intros (z & _ & Hz & _ & Hi). assert (E' : as_int I64 n = Some z) by (apply (i64_text n t z H); auto). congruence. }
  split; [exact Hok|]. split.
  - intros [err E] (z & Hz). assert (Hd : (if is_float n then match as_f64 n with Some _ => DeErr (ECustom CInvalidType) | None => DeErr EParseFloat end else match as_int I64 n with None => DeErr EParseInt | Some z => match checked it z with Some z => DeOk (DInt z) | None => DeErr (ECustom CInvalidValue) end end) = DeOk (DInt z)).
    { apply Hok. exists z. split; [reflexivity|exact Hz]. }
    congruence.
  - intros Hn. destruct (is_float n); [destruct (as_f64 n); eauto|]. destruct (as_int I64 n) as [z|]; [|eauto].
    destruct (checked it z) as [z'|]; [|eauto]. exfalso. apply Hn. destruct (proj1 (Hok (DInt z')) eq_refl) as (z0 & _ & Hz). eauto.
Qed.
(** REFUTED: literals representable in the target are rejected: [u64] values above
    [i64::MAX], 128-bit values, and integers written with an exponent or fraction. *)
Theorem C38_accepts_refuted : forall ord, Order ord ->
  (exists n, parsed "9223372036854775808" n /\ InRange U64 9223372036854775808 /\
     deserialize ord (TInt U64) (SExpr (ENumber n)) = DeErr EParseInt) /\
  (exists n, parsed "9223372036854775808" n /\ InRange I128 9223372036854775808 /\
     deserialize ord (TInt I128) (SExpr (ENumber n)) = DeErr EParseInt) /\
  (exists n, parsed "1e3" n /\ deserialize ord (TInt U64) (SExpr (ENumber n)) = DeErr (ECustom CInvalidType)).
Proof.
  intros ord Ho. split; [|split]; eexists; (split; [vm_compute; reflexivity|]); rewrite int_visit by exact Ho.
  - split; [cbn; lia|reflexivity].
  - split; [cbn; lia|reflexivity].
  - reflexivity.
Qed.
(** What holds: targets of at most 32 bits and [i64] accept every representable
    integer literal. *)
Theorem C38_accepts_partial : forall ord, Order ord -> forall n t it z, NumLit n t -> IntegerText t z -> InRange it z ->
  it <> U64 -> it <> U128 -> it <> I128 ->
  deserialize ord (TInt it) (SExpr (ENumber n)) = DeOk (DInt z).
Proof.
  intros ord Ho n t it z H Hz Hr H1 H2 H3. apply (proj1 (C38_integer_exact ord Ho n t it H)). exists z. split; [reflexivity|]. split; [exact Hz|]. split; [exact Hr|].
  destruct it; cbn in *; try congruence; lia.
Qed.
Print Assumptions C38_integer_exact.
Print Assumptions C38_accepts_refuted.
Print Assumptions C38_accepts_partial.
Definition id_ord (m : blocks_t) := m.
Lemma id_Order : Order id_ord.
Proof. intros m. apply Permutation_refl. Qed.
Example C38_nonvacuous : Order id_ord /\ exists n, parsed "-12" n /\ deserialize id_ord (TInt I8) (SExpr (ENumber n)) = DeOk (DInt (-12)) /\
  deserialize id_ord (TInt U8) (SExpr (ENumber n)) = DeErr (ECustom CInvalidValue).
Proof. split; [exact id_Order|]. eexists. split; [vm_compute; reflexivity|]. repeat split; vm_compute; reflexivity. Qed.

(** ** C39: bodies as maps *)
Definition entry_src (l : list (cow * body_value)) : list (str * src) := map (fun kv => (cow_str (fst kv), val_src (snd kv))) l.
Lemma body_map_ok ord b t d : Order ord -> deserialize ord (TMap KTString t) (SBody b) = DeOk d <->
  DistinctNames b /\ exists es, d = DMap es /\
   Forall2 (fun kv e => fst e = cow_str (fst kv) /\ deserialize ord t (val_src (snd kv)) = DeOk (snd e)) (build_map_access_iter ord b) es.
Proof.
  intros Ho. rewrite deserialize_eq by exact Ho. cbn [call method_of body_any]. unfold body_any.
  destruct (ListDec.NoDup_dec (list_eq_dec N.eq_dec) (keys_of (build_map_access_iter ord b))) as [HD|HD].
  - rewrite body_steps_fresh; [|exact HD|intros ? ? []]. cbn [visit]. rewrite dmap_ok. split.
    + intros (es & H & ->). split; [apply (distinct_keys ord b Ho), HD|]. exists es. split; [reflexivity|]. apply map_all_ok in H. exact H.
    + intros (_ & es & -> & H). exists es. split; [|reflexivity]. apply map_all_ok. exact H.
  - destruct (body_steps_stale (build_map_access_iter ord b) []) as (l1 & kv & l2 & _ & _ & _ & _ & ->); [tauto|]. split.
    + intros H. exfalso. revert H. apply visit_map_bad. destruct (snd kv); eauto.
    + intros [H _]. apply (distinct_keys ord b Ho) in H. contradiction.
Qed.
Lemma Forall2_app_l {A B} (R : A -> B -> Prop) l1 l2 es : Forall2 R (l1 ++ l2) es <->
  exists es1 es2, es = es1 ++ es2 /\ Forall2 R l1 es1 /\ Forall2 R l2 es2.
Proof.
  split.
  - intros H. apply Forall2_app_inv_l in H as (es1 & es2 & H1 & H2 & ->). eauto.
  - intros (es1 & es2 & -> & H1 & H2). apply Forall2_app; assumption.
Qed.
Lemma Forall2_map_l {A B C} (R : B -> C -> Prop) (f : A -> B) l es : Forall2 R (map f l) es <-> Forall2 (fun x e => R (f x) e) l es.
Proof.
  revert es. induction l as [|x l IH]; intros es; cbn; split; intros H; inversion H; subst; constructor; auto; apply IH; assumption.
Qed.
Lemma Forall2_keys {A B} (f : A -> str) (g : B -> str) (R : A -> B -> Prop) l es :
  Forall2 R l es -> (forall x e, R x e -> g e = f x) -> map g es = map f l.
Proof. intros H HR. induction H; cbn; [reflexivity|]. f_equal; auto. Qed.
(** The result: attributes in source order with their values, then one entry per
    block type, in some order, with (the last run of) its blocks. *)
Theorem C39_map_entries : forall ord, Order ord -> forall b t d, deserialize ord (TMap KTString t) (SBody b) = DeOk d ->
  exists es1 es2, d = DMap (es1 ++ es2) /\
    Forall2 (fun a e => fst e = fst a /\ deserialize ord t (SExpr (snd a)) = DeOk (snd e)) (attr_list b) es1 /\
    NoDup (map fst (es1 ++ es2)) /\
    (forall x, In x (map fst es2) <-> exists blk, In blk (block_list b) /\ cow_str (b_type blk) = x) /\
    Forall (fun e => exists r, LastRun (fst e) (block_list b) r /\
              deserialize ord t (SBlock (extend bdefault (map (fun c => (b_labels c, b_body c)) r))) = DeOk (snd e)) es2.
Proof.
  intros ord Ho b t d H. apply (body_map_ok ord b t d Ho) in H as (HD & es & -> & H).
  assert (Hk : map fst es = keys_of (build_map_access_iter ord b)).
  { eapply Forall2_keys; [exact H|]. intros x e [E _]. exact E. }
  unfold build_map_access_iter in H. apply Forall2_app_l in H as (es1 & es2 & -> & H1 & H2). exists es1, es2. split; [reflexivity|]. split; [|split; [|split]].
  - rewrite <- attributes_list. apply Forall2_map_l. apply Forall2_map_l in H1. exact H1.
  - rewrite Hk. apply (distinct_keys ord b Ho), HD.
  - intros x. rewrite <- (ord_keys ord _ x Ho). rewrite <- blocks_list.
    replace (map fst es2) with (map (fun kv => cow_str (fst kv)) (ord (blocks_new (blocks_of b)))); [reflexivity|].
    symmetry. apply Forall2_map_l in H2. eapply Forall2_keys; [exact H2|]. intros x0 e [E _]. exact E.
  - apply Forall2_map_l in H2. rewrite Forall_forall. intros e He. rewrite <- blocks_list.
    assert (Hx : exists x, In x (ord (blocks_new (blocks_of b))) /\ fst e = cow_str (fst x) /\ deserialize ord t (SBlock (snd x)) = DeOk (snd e)).
    { clear - H2 He. induction H2 as [|x e0 l es [E1 E2] _ IH]; [destruct He|]. destruct He as [<-|He].
      - exists x. cbn in *. split; [left; reflexivity|]. auto.
      - destruct (IH He) as (x' & ? & ?). exists x'. split; [right; assumption|assumption]. }
    destruct Hx as ([k x] & Hx & E1 & E2). apply (Permutation_in _ (Permutation_sym (Ho _))) in Hx.
    destruct (blocks_new_in _ _ _ Hx) as (r & HL & ->). exists r. cbn in *. rewrite E1. split; [exact HL|exact E2].
Qed.
(** It succeeds exactly when the names are distinct and each value is accepted. *)
Theorem C39_map_succeeds : forall ord, Order ord -> forall b t,
  (exists d, deserialize ord (TMap KTString t) (SBody b) = DeOk d) <->
  DistinctNames b /\
  (forall n e, In (Attr n e) b -> exists d, deserialize ord t (SExpr e) = DeOk d) /\
  (forall x r, LastRun x (block_list b) r -> exists d, deserialize ord t (SBlock (extend bdefault (map (fun c => (b_labels c, b_body c)) r))) = DeOk d).
Proof.
  intros ord Ho b t. split.
  - intros (d & H). pose proof (proj1 (proj1 (body_map_ok ord b t d Ho) H)) as HD. split; [exact HD|].
    destruct (C39_map_entries ord Ho b t d H) as (es1 & es2 & -> & H1 & H2 & H3 & H4). split.
    + intros n e Hin. assert (Ha : In (cow_str n, e) (attr_list b)) by (apply attr_list_in; eauto). clear - H1 Ha.
      induction H1 as [|a x l es [_ E] _ IH]; [destruct Ha|]. destruct Ha as [->|Ha]; [eauto|auto].
    + intros x r HL. assert (Hx : In x (map fst es2)).
      { apply H3. destruct HL as [l1 l2 E Hr Ha _ _]. destruct r as [|c r]; [congruence|]. exists c. split; [|apply Ha; left; reflexivity].
        rewrite E. apply in_app_iff. right. left. reflexivity. }
      apply in_map_iff in Hx as (e & <- & He). rewrite Forall_forall in H4. destruct (H4 _ He) as (r' & HL' & E).
      assert (Er : r = r') by (eapply LastRun_unique; eassumption). subst r'. eauto.
  - intros (HD & HA & HB).
    assert (Hall : forall kv, In kv (build_map_access_iter ord b) -> exists d, deserialize ord t (val_src (snd kv)) = DeOk d).
    { intros kv Hkv. apply in_app_iff in Hkv as [Hkv|Hkv]; apply in_map_iff in Hkv as ([k x] & <- & Hx); cbn.
      - apply attributes_of_in in Hx. eapply HA, Hx.
      - apply (Permutation_in _ (Permutation_sym (Ho _))) in Hx. destruct (blocks_new_in _ _ _ Hx) as (r & HL & ->).
        rewrite blocks_list in HL. eapply HB, HL. }
    assert (He : exists es, Forall2 (fun kv (e : str * data) => fst e = cow_str (fst kv) /\ deserialize ord t (val_src (snd kv)) = DeOk (snd e)) (build_map_access_iter ord b) es).
    { induction (build_map_access_iter ord b) as [|kv l IH]; [exists []; constructor|].
      destruct IH as (es & Hes); [intros x Hx; apply Hall; right; exact Hx|]. destruct (Hall kv (or_introl eq_refl)) as (d & Hd).
      exists ((cow_str (fst kv), d) :: es). constructor; auto. }
    destruct He as (es & Hes). exists (DMap es). apply (body_map_ok ord b t _ Ho). eauto.
Qed.

(** ** No panics on clean documents (C65) *)
Section NoPanic.
  Variable rec : ty -> src -> dres data.
  Lemma seq_all_np t l : (forall s, In s l -> rec t s <> DePanic) -> seq_all rec t l <> DePanic.
  Proof.
    induction l as [|s l IH]; intros H; cbn; [discriminate|]. apply dbind_panic; [apply H; left; reflexivity|].
    intros d _. apply dmap_panic, IH. intros s' Hs. apply H. right. exact Hs.
  Qed.
  Lemma seq_types_np ts : forall l, (forall t s, In s l -> rec t s <> DePanic) -> seq_types rec ts l <> DePanic.
  Proof.
    induction ts as [|t ts IH]; intros [|s l] H; cbn; try discriminate. apply dbind_panic; [apply H; left; reflexivity|].
    intros d _. apply dmap_panic, IH. intros t' s' Hs. apply H. right. exact Hs.
  Qed.
  Lemma map_all_np k t l : ~ In MPanic l -> (forall c s, In (MEntry c s) l -> rec t s <> DePanic) -> map_all rec k t l <> DePanic.
  Proof.
    induction l as [|[c s| |] l IH]; intros Hp H; cbn; try discriminate; [|exfalso; apply Hp; left; reflexivity].
    destruct (key_ok k c); [|discriminate]. apply dbind_panic; [apply (H c); left; reflexivity|].
    intros d _. apply dmap_panic, IH; [intros Hi; apply Hp; right; exact Hi|]. intros c' s' Hs. apply (H c'). right. exact Hs.
  Qed.
  Lemma ignore_seq_np l : (forall s, In s l -> rec TIgnored s <> DePanic) -> ignore_seq rec l <> DePanic.
  Proof.
    induction l as [|s l IH]; intros H; cbn; [discriminate|]. apply dbind_panic; [apply H; left; reflexivity|].
    intros d _. apply IH. intros s' Hs. apply H. right. exact Hs.
  Qed.
  Lemma ignore_map_np l : ~ In MPanic l -> (forall c s, In (MEntry c s) l -> rec TIgnored s <> DePanic) -> ignore_map rec l <> DePanic.
  Proof.
    induction l as [|[c s| |] l IH]; intros Hp H; cbn; try discriminate; [|exfalso; apply Hp; left; reflexivity].
    apply dbind_panic; [apply (H c); left; reflexivity|].
    intros d _. apply IH; [intros Hi; apply Hp; right; exact Hi|]. intros c' s' Hs. apply (H c'). right. exact Hs.
  Qed.
  Lemma struct_map_np fs l : ~ In MPanic l -> (forall t c s, In (MEntry c s) l -> rec t s <> DePanic) ->
    forall acc, struct_map rec fs acc l <> DePanic.
  Proof.
    induction l as [|[c s| |] l IH]; intros Hp H acc; cbn; try discriminate; [|exfalso; apply Hp; left; reflexivity].
    assert (IH' : forall acc, struct_map rec fs acc l <> DePanic).
    { apply IH; [intros Hi; apply Hp; right; exact Hi|]. intros t' c' s' Hs. apply (H t' c'). right. exact Hs. }
    destruct (field_get _ fs) as [t|].
    - destruct (field_get _ acc); [discriminate|]. apply dbind_panic; [apply (H t c); left; reflexivity|]. intros d _. apply IH'.
    - apply dbind_panic; [apply (H TIgnored c); left; reflexivity|]. intros d _. apply IH'.
  Qed.
  Lemma struct_finish_np fs acc : struct_finish fs acc <> DePanic.
  Proof.
    induction fs as [|[f t] fs IH]; cbn; [discriminate|]. destruct (field_get f acc); [apply dmap_panic, IH|].
    destruct t; try discriminate. apply dmap_panic, IH.
  Qed.
  Lemma visit_np t ev : ev <> VPanic -> (forall l, ev = VMap l -> ~ In MPanic l) ->
    (forall t' s' l, ev = VSeq l -> In s' l -> rec t' s' <> DePanic) ->
    (forall t' c s' l, ev = VMap l -> In (MEntry c s') l -> rec t' s' <> DePanic) ->
    (forall t' s', ev = VSome s' -> t = TOption t' -> rec t' s' <> DePanic) ->
    (forall t' s', ev = VNewtype s' -> t = TNewtype t' -> rec t' s' <> DePanic) ->
    visit rec t ev <> DePanic.
  Proof.
    intros Hp Hm Hseq Hmap Hsome Hnew.
    destruct ev as [| | |f|s1|s1| |s1|s1|l|l| |]; destruct t; cbn; try discriminate; try congruence.
    - destruct (checked _ _); discriminate.
    - destruct s1 as [|? [|? ?]]; discriminate.
    - destruct s1 as [|? [|? ?]]; discriminate.
    - apply dmap_panic. apply Hsome; reflexivity.
    - apply Hnew; reflexivity.
    - destruct l; [discriminate|]. eapply Hseq; [reflexivity|left; reflexivity].
    - apply dmap_panic, seq_all_np. intros s Hs. eapply Hseq; [reflexivity|exact Hs].
    - apply dmap_panic, seq_types_np. intros t s Hs. eapply Hseq; [reflexivity|exact Hs].
    - apply dmap_panic, seq_types_np. intros t s Hs. eapply Hseq; [reflexivity|exact Hs].
    - apply dmap_panic, seq_all_np. intros s Hs. eapply Hseq; [reflexivity|exact Hs].
    - apply dmap_panic, ignore_seq_np. intros s Hs. eapply Hseq; [reflexivity|exact Hs].
    - apply dmap_panic, seq_all_np. intros s Hs. eapply Hseq; [reflexivity|exact Hs].
    - apply dmap_panic, map_all_np; [eapply Hm; reflexivity|]. intros c s Hs. eapply Hmap; [reflexivity|exact Hs].
    - apply dmap_panic, dbind_panic; [|intros acc _; apply struct_finish_np].
      apply struct_map_np; [eapply Hm; reflexivity|]. intros t c s Hs. eapply Hmap; [reflexivity|exact Hs].
    - apply dmap_panic, ignore_map_np; [eapply Hm; reflexivity|]. intros c s Hs. eapply Hmap; [reflexivity|exact Hs].
    - apply dmap_panic, map_all_np; [eapply Hm; reflexivity|]. intros c s Hs. eapply Hmap; [reflexivity|exact Hs].
  Qed.
End NoPanic.

Inductive CleanSrc : src -> Prop :=
| CS_expr e : CleanExpr e -> CleanSrc (SExpr e)
| CS_body b : CleanBody b -> CleanSrc (SBody b)
| CS_block bs : Forall CleanBody bs -> CleanSrc (SBlock (BBody bs)).
Definition clean_event (ev : event) : Prop :=
  match ev with
  | VPanic => False
  | VSome s | VNewtype s => CleanSrc s
  | VSeq l => Forall CleanSrc l
  | VMap l => forall st, In st l -> match st with MEntry _ s => CleanSrc s | MDuplicate _ => True | MPanic => False end
  | _ => True
  end.
Lemma object_steps_clean l : Forall (fun ke => (exists i, fst ke = KIdent i) /\ CleanExpr (snd ke)) l ->
  forall seen st, In st (object_steps seen l) -> match st with MEntry _ s => CleanSrc s | MDuplicate _ => True | MPanic => False end.
Proof.
  induction 1 as [|[k e] l [[i Hi] He] _ IH]; intros seen st; cbn in *; [tauto|]. subst k. cbn.
  destruct (seen_mem _ _); intros [<-|H]; [exact I|destruct H|constructor; exact He|exact (IH _ _ H)].
Qed.
Lemma expr_any_clean e : CleanExpr e -> clean_event (expr_any e).
Proof.
  intros []; cbn -[number_event]; try exact I.
  - unfold number_event. destruct (is_float n); [destruct (as_f64 n); exact I|]. destruct (is_signed n);
        [destruct (as_int I64 n)|destruct (as_int U64 n)]; exact I.
  - destruct s; exact I.
  - rewrite Forall_map. eapply Forall_impl; [|eassumption]. intros x Hx. constructor. exact Hx.
  - apply object_steps_clean. assumption.
Qed.
Lemma extend_unlabelled r : forall bs, (forall c, In c r -> b_labels c = []) ->
  extend (BBody bs) (run_of r) = BBody (bs ++ map b_body r).
Proof.
  induction r as [|c r IH]; intros bs H; [cbn; rewrite app_nil_r; reflexivity|].
  change (extend (BBody bs) (run_of (c :: r))) with (extend (append (BBody bs) (b_labels c) (b_body c)) (run_of r)).
  rewrite (H c (or_introl eq_refl)). cbn [append map].
  rewrite IH by (intros c' Hc; apply H; right; exact Hc). rewrite <- app_assoc. reflexivity.
Qed.
Lemma body_any_clean ord b : Order ord -> CleanBody b -> clean_event (body_any ord b).
Proof.
  intros Ho [b' HA HB HN]. clear b. rename b' into b. cbn.
  assert (Hval : forall kv, In kv (build_map_access_iter ord b) -> CleanSrc (val_src (snd kv))).
  { intros kv Hkv. apply in_app_iff in Hkv as [Hkv|Hkv]; apply in_map_iff in Hkv as ([k x] & <- & Hx); cbn.
    - constructor. apply attributes_of_in in Hx. eapply HA, Hx.
    - apply (Permutation_in _ (Permutation_sym (Ho _))) in Hx. destruct (blocks_new_in _ _ _ Hx) as (r & HL & ->).
      assert (Hr : forall c, In c r -> b_labels c = [] /\ CleanBody (b_body c)).
      { intros c Hc. apply (HB (b_type c)), blocks_of_in. eapply LastRun_in; eassumption. }
      unfold bdefault. rewrite extend_unlabelled by (intros c Hc; apply Hr, Hc). constructor. cbn.
      apply Forall_forall. intros bd Hbd. apply in_map_iff in Hbd as (c & <- & Hc). apply Hr, Hc. }
  destruct (ListDec.NoDup_dec (list_eq_dec N.eq_dec) (keys_of (build_map_access_iter ord b))) as [HD|HD].
  - rewrite body_steps_fresh; [|exact HD|intros ? ? []]. intros st Hst. apply in_map_iff in Hst as (kv & <- & Hkv). apply Hval, Hkv.
  - destruct (body_steps_stale (build_map_access_iter ord b) []) as (l1 & kv & l2 & E & HD1 & _ & Hin & ->); [tauto|].
    intros st Hst. apply in_app_iff in Hst as [Hst|[<-|[]]].
    + apply in_map_iff in Hst as (kv' & <- & Hkv). apply Hval. rewrite E. apply in_app_iff. auto.
    + destruct Hin as [[]|Hin]. destruct kv as [k [e|x]]; cbn in *; [exact I|].
      (* a block type already seen: neither an attribute nor another block type *)
      assert (Hk : In (k, BVBlock x) (build_map_access_iter ord b)) by (rewrite E; apply in_app_iff; right; left; reflexivity).
      apply in_app_iff in Hk as [Hk|Hk]; [apply in_map_iff in Hk as ([? ?] & ? & _); discriminate|].
      apply in_map_iff in Hk as ([k' x'] & [= -> ->] & Hk).
      apply in_map_iff in Hin as ([k1 v1] & Ek & Hin). cbn in Ek.
      assert (Hin' : In (k1, v1) (build_map_access_iter ord b)) by (rewrite E; apply in_app_iff; auto).
      apply in_app_iff in Hin' as [Hi|Hi]; apply in_map_iff in Hi as ([n e] & [= -> <-] & Hi); cbn in *.
      * apply attributes_of_in in Hi. apply (Permutation_in _ (Permutation_sym (Ho _))) in Hk.
        destruct (blocks_new_in _ _ _ Hk) as (r & HL & _). pose proof HL as [l1' l2' El Hr Ha _ _]. destruct r as [|c r]; [congruence|].
        assert (Hc : In c (blocks_of b)) by (eapply LastRun_in; [exact HL|left; reflexivity]). apply blocks_of_in in Hc.
        apply (HN _ _ _ _ _ Hi Hc). rewrite Ek. symmetry. apply Ha. left. reflexivity.
      * (* two entries of one table with the same key *)
        unfold build_map_access_iter in E. symmetry in E. apply app_split in E as (m & [[E1 E2]|[E1 E2]]).
        -- assert (Hno : NoDup (map (fun kv => cow_str (fst kv)) (map (fun tb : cow * bbody => (fst tb, BVBlock (snd tb))) (ord (blocks_new (blocks_of b)))))).
           { rewrite map_map. apply (ord_nodup ord _ Ho). }
           rewrite E2, map_app in Hno. apply NoDup_app in Hno as (_ & _ & Hno). apply (Hno (cow_str k1)).
           ++ rewrite E1 in Hin. apply in_app_iff in Hin as [Hin|Hin].
              ** apply in_map_iff in Hin as ([? ?] & ? & _). discriminate.
              ** apply in_map_iff. exists (k1, BVBlock e). split; [reflexivity|exact Hin].
           ++ rewrite Ek. left. reflexivity.
        -- assert (Hin2 : In (k1, BVBlock e) (map (fun ne : cow * expr => (fst ne, BVExpr (snd ne))) (attributes_of b))).
           { rewrite E1. apply in_app_iff. auto. }
           apply in_map_iff in Hin2 as ([? ?] & ? & _). discriminate.
Qed.
Lemma call_clean ord s m : Order ord -> CleanSrc s -> clean_event (call ord s m).
Proof.
  intros Ho [e He|b Hb|bs Hbs]; cbn [call].
  - destruct m; cbn [expr_call]; try (apply expr_any_clean, He).
    + destruct e; cbn; try exact I; constructor; exact He.
    + cbn. constructor. exact He.
    + destruct e; try (apply expr_any_clean, He). destruct (_ =? _); [|exact I]. apply (expr_any_clean (ETuple l)), He.
  - apply body_any_clean; assumption.
  - assert (Hseq : clean_event (VSeq (map SBody bs))).
    { cbn. rewrite Forall_map. eapply Forall_impl; [|exact Hbs]. intros b Hb. constructor. exact Hb. }
    assert (Hany : clean_event (one_or_seq ord bs)).
    { unfold one_or_seq. destruct bs as [|b [|b2 bs]]; [exact Hseq| |exact Hseq]. inversion Hbs; subst. apply body_any_clean; assumption. }
    destruct m; cbn [block_call]; try exact Hany; [|exact Hseq]. destruct (_ =? _); [exact I|]. cbn. constructor. exact Hbs.
Qed.
Lemma clean_no_panic ord n : Order ord -> forall s, src_depth s <= n -> CleanSrc s -> forall t, deserialize ord t s <> DePanic.
Proof.
  intros Ho. induction n as [n IH] using lt_wf_ind. intros s Hn Hs t. induction t; rewrite deserialize_eq by exact Ho;
    match goal with |- visit _ ?T (call _ _ ?M) <> _ => pose proof (call_clean ord s M Ho Hs) as HC; pose proof (call_ok ord Ho s M) as HK end;
    apply visit_np;
    try (intros E; rewrite E in HC; exact HC);
    try (intros l0 E Hi; rewrite E in HC; exact (HC _ Hi));
    try (intros t' s' l0 E Hi; rewrite E in HC, HK; cbn in HC, HK; rewrite Forall_forall in HC; eapply IH; [| |apply HC, Hi]; [|reflexivity]; specialize (HK _ Hi); lia);
    try (intros t' c s' l0 E Hi; rewrite E in HC, HK; cbn in HC, HK; eapply IH; [| |exact (HC _ Hi)]; [|reflexivity]; specialize (HK _ _ Hi); lia);
    try (intros t' s' E [= <-]; rewrite E in HK; cbn in HK; subst s'; assumption);
    try (intros t' s' E ET; discriminate ET).
Qed.

(** ** C39: duplicates *)
Lemma Forall_app_split {A} (P : A -> bool) l1 x l2 : (forall y, In y l1 -> P y = true) -> P x = true ->
  forall a b, l1 ++ x :: l2 = a ++ b -> (forall y, In y b -> P y = false) -> exists m, a = l1 ++ x :: m.
Proof.
  intros H1 Hx. induction l1 as [|y l1 IH]; intros [|z a] b E Hb; cbn in E.
  - subst b. rewrite (Hb x (or_introl eq_refl)) in Hx. discriminate.
  - injection E as <- E. exists a. reflexivity.
  - subst b. specialize (H1 y (or_introl eq_refl)). rewrite (Hb y (or_introl eq_refl)) in H1. discriminate.
  - injection E as <- E. destruct (IH (fun w Hw => H1 w (or_intror Hw)) a b E Hb) as (m & ->). exists m. reflexivity.
Qed.
Theorem C39_duplicate_attribute : forall ord, Order ord -> forall b, ~ NoDup (map fst (attr_list b)) ->
  (forall t d, deserialize ord t (SBody b) <> DeOk d) /\
  ((forall n e, In (Attr n e) b -> CleanExpr e) -> forall t, exists err, deserialize ord t (SBody b) = DeErr err).
Proof.
  intros ord Ho b Hdup.
  assert (HD : ~ NoDup (keys_of (build_map_access_iter ord b))).
  { intros H. apply (distinct_keys ord b Ho) in H as [H _]. contradiction. }
  destruct (body_steps_stale (build_map_access_iter ord b) []) as (l1 & kv & l2 & E & HD1 & _ & Hin & Es); [tauto|].
  assert (Hok : forall t d, deserialize ord t (SBody b) <> DeOk d).
  { intros t d. rewrite deserialize_eq by exact Ho. cbn [call]. unfold body_any. rewrite Es. apply visit_map_bad. destruct (snd kv); eauto. }
  split; [exact Hok|]. intros Hc t.
  (* the bad step is inside the attributes *)
  assert (Hatt : exists m, map (fun ne : cow * expr => (fst ne, BVExpr (snd ne))) (attributes_of b) = l1 ++ kv :: m).
  { unfold build_map_access_iter in E. symmetry in E. apply app_split in E as (m & [[E1 E2]|[E1 E2]]).
    - exfalso. apply Hdup. rewrite E1 in HD1. unfold keys_of in HD1. rewrite map_app in HD1. apply NoDup_app in HD1 as (HD1 & _ & _).
      rewrite map_map in HD1. rewrite <- attributes_list, map_map. exact HD1.
    - destruct m as [|kv' m]; cbn in E2.
      + exfalso. apply Hdup. rewrite app_nil_r in E1. rewrite <- E1 in HD1. unfold keys_of in HD1. rewrite map_map in HD1.
        rewrite <- attributes_list, map_map. exact HD1.
      + injection E2 as <- _. exists m. exact E1. }
  destruct Hatt as (m & Hatt).
  assert (Hall : forall x, In x (l1 ++ kv :: m) -> exists e, snd x = BVExpr e /\ CleanExpr e).
  { intros x Hx. rewrite <- Hatt in Hx. apply in_map_iff in Hx as ([n e] & <- & Hx). exists e. split; [reflexivity|].
    apply attributes_of_in in Hx. eapply Hc, Hx. }
  assert (Hnp : deserialize ord t (SBody b) <> DePanic).
  { rewrite deserialize_eq by exact Ho. cbn [call]. unfold body_any. rewrite Es.
    assert (Hst : forall st, In st (map (fun kv => MEntry (fst kv) (val_src (snd kv))) l1 ++ [match snd kv with BVExpr _ => MDuplicate (EBodyDuplicateKey (cow_str (fst kv))) | BVBlock _ => MPanic end]) ->
      match st with MEntry _ s => CleanSrc s | MDuplicate _ => True | MPanic => False end).
    { intros st Hst. apply in_app_iff in Hst as [Hst|[<-|[]]].
      - apply in_map_iff in Hst as (x & <- & Hx). destruct (Hall x) as (e & Ee & He); [apply in_app_iff; auto|]. rewrite Ee. constructor. exact He.
      - destruct (Hall kv) as (e & -> & He); [apply in_app_iff; right; left; reflexivity|]. exact I. }
    apply visit_np; try discriminate.
    - intros l [= <-] Hi. exact (Hst _ Hi).
    - intros t' c s' l [= <-] Hi. eapply (clean_no_panic ord); [exact Ho|reflexivity|exact (Hst _ Hi)]. }
  pose proof (deserialize_total ord Ho t (SBody b)) as Ht. specialize (Hok t).
  destruct (deserialize ord t (SBody b)) as [d|err| |]; [exfalso; eapply Hok; reflexivity|eauto|congruence|congruence].
Qed.
Print Assumptions C39_map_entries.
Print Assumptions C39_map_succeeds.
Print Assumptions C39_duplicate_attribute.
Definition doc (s : string) : str := lit s.
Definition nl : string := String (Ascii.ascii_of_nat 10) EmptyString.
Example C39_nonvacuous :
  from_str ascii_ucd id_ord (TMap KTString TAny) (lit ("b = 1" ++ nl ++ "x {" ++ nl ++ "c = 2" ++ nl ++ "}" ++ nl ++ "a = [true, null]" ++ nl)) =
    DeOk (DMap [(lit "b", DInt 1); (lit "a", DSeq [DBool true; DUnit]); (lit "x", DMap [(lit "c", DInt 2)])]) /\
  from_str ascii_ucd id_ord (TMap KTString TAny) (lit ("b = 1" ++ nl ++ "b = 1" ++ nl)) = DeErr (EBodyDuplicateKey (lit "b")).
Proof. split; vm_compute; reflexivity. Qed.

(** ** C40: an attribute and a block of the same name *)
Lemma ord_one ord (x : cow * bbody) : Order ord -> ord [x] = [x].
Proof. intros Ho. apply Permutation_length_1_inv, Ho. Qed.
Lemma ord_nil ord : Order ord -> ord [] = [].
Proof. intros Ho. apply Permutation_nil, Ho. Qed.
(** REFUTED: it panics, whatever the order of the table. *)
Theorem C40_error_refuted : forall ord, Order ord ->
  from_str ascii_ucd ord TAny (lit ("a = 1" ++ nl ++ "a {" ++ nl ++ "}" ++ nl)) = DePanic /\
  from_str ascii_ucd ord (TStruct [(lit "a", TInt I64)]) (lit ("a = 1" ++ nl ++ "a {" ++ nl ++ "}" ++ nl)) = DePanic.
Proof.
  intros ord Ho. unfold from_str.
  match goal with |- context [parse_str ?U ?s] => let r := eval vm_compute in (parse_str U s) in change (parse_str U s) with r end.
  split; rewrite deserialize_eq by exact Ho; cbn [call method_of]; unfold body_any, build_map_access_iter;
    match goal with |- context [ord ?m] => let m' := eval vm_compute in m in change m with m'; rewrite (ord_one ord _ Ho) end;
    cbn -[deserialize]; rewrite deserialize_eq by exact Ho; reflexivity.
Qed.
(** What holds: it is never accepted, whatever the target. *)
Theorem C40_never_accepted_partial : forall ord, Order ord -> forall b n e t ls bd,
  In (Attr n e) b -> In (Blk t ls bd) b -> cow_str n = cow_str t ->
  forall ty d, deserialize ord ty (SBody b) <> DeOk d.
Proof.
  intros ord Ho b n e t ls bd Ha Hb E ty d.
  assert (HD : ~ NoDup (keys_of (build_map_access_iter ord b))).
  { intros H. apply (distinct_keys ord b Ho) in H as [_ H]. exact (H _ _ _ _ _ Ha Hb E). }
  destruct (body_steps_stale (build_map_access_iter ord b) []) as (l1 & kv & l2 & _ & _ & _ & _ & Es); [tauto|].
  rewrite deserialize_eq by exact Ho. cbn [call]. unfold body_any. rewrite Es. apply visit_map_bad. destruct (snd kv); eauto.
Qed.
Print Assumptions C40_error_refuted.
Print Assumptions C40_never_accepted_partial.
Example C40_nonvacuous : from_str ascii_ucd id_ord (TStruct [(lit "a", TInt I64)]) (lit ("a = 1" ++ nl ++ "b {" ++ nl ++ "}" ++ nl)) =
  DeOk (DStruct [(lit "a", DInt 1)]).
Proof. vm_compute. reflexivity. Qed.

(** ** C41: objects *)
Definition okey_str (k : okey) : str := match k with KIdent i => cow_str i | KExpr _ => [] end.
Lemma object_steps_fresh l : forall seen, (forall ke, In ke l -> exists i, fst ke = KIdent i) ->
  NoDup (map (fun ke => okey_str (fst ke)) l) -> (forall k, In k (map (fun ke => okey_str (fst ke)) l) -> ~ In k seen) ->
  object_steps seen l = map (fun ke => MEntry (match fst ke with KIdent i => i | KExpr t => t end) (SExpr (snd ke))) l.
Proof.
  induction l as [|[k e] l IH]; intros seen Hk HD Hs; [reflexivity|].
  destruct (Hk _ (or_introl eq_refl)) as (i & Hi). cbn in Hi. subst k. cbn in HD. inversion HD as [|? ? Hn HD']; subst. cbn [object_steps map fst snd].
  assert (E : seen_mem (cow_str i) seen = false) by (apply seen_mem_out, Hs; left; reflexivity).
  rewrite E, IH; [reflexivity|intros ke Hke; apply Hk; right; exact Hke|exact HD'|].
  intros k' Hk' [<-|Hi]; [contradiction|]. apply (Hs k'); [right; exact Hk'|exact Hi].
Qed.
Lemma object_steps_bad l : forall seen,
  ~ ((forall ke, In ke l -> exists i, fst ke = KIdent i) /\ NoDup (map (fun ke => okey_str (fst ke)) l) /\
     (forall k, In k (map (fun ke => okey_str (fst ke)) l) -> ~ In k seen)) ->
  exists l1 st, object_steps seen l = l1 ++ [st] /\ ((exists e, st = MDuplicate e) \/ st = MPanic).
Proof.
  induction l as [|[[i|x] e] l IH]; intros seen H; cbn.
  - exfalso. apply H. split; [intros ? []|]. split; [constructor|intros ? []].
  - destruct (seen_mem (cow_str i) seen) eqn:E; [exists [], (MDuplicate (EObjectDuplicateKey (cow_str i))); eauto|]. apply seen_mem_out in E.
    destruct (IH (cow_str i :: seen)) as (l1 & st & -> & Hst).
    + intros (H1 & H2 & H3). apply H. split; [|split].
      * intros ke [<-|Hke]; [exists i; reflexivity|auto].
      * cbn. constructor; [|exact H2]. intros Hi. apply (H3 _ Hi). left. reflexivity.
      * intros k [<-|Hk]; [exact E|]. intros Hx. apply (H3 _ Hk). right. exact Hx.
    + exists (MEntry i (SExpr e) :: l1), st. auto.
  - exists [], MPanic. auto.
Qed.
Lemma ident_key_dec (ke : okey * expr) : {exists i, fst ke = KIdent i} + {~ exists i, fst ke = KIdent i}.
Proof. destruct ke as [[i|x] e]; [left; exists i; reflexivity|right; intros (i & H); discriminate]. Qed.
(** REFUTED: a quoted or computed key makes every target that looks at it panic. *)
Theorem C41_no_panic_refuted : forall ord, Order ord ->
  exists e, expression_parse ascii_ucd (lit "{""a"" = 1}") = OkR e /\
    deserialize ord TAny (SExpr e) = DePanic /\ deserialize ord TIgnored (SExpr e) = DePanic /\
    forall k t, deserialize ord (TMap k t) (SExpr e) = DePanic.
Proof.
  intros ord Ho. eexists. split; [vm_compute; reflexivity|].
  split; [|split]; intros; rewrite deserialize_eq by exact Ho; reflexivity.
Qed.
(** What holds: the elements under their keys, in order; accepted exactly when the
    keys are distinct identifiers and the values are accepted. *)
Theorem C41_object_partial : forall ord, Order ord -> forall l t d,
  deserialize ord (TMap KTString t) (SExpr (EObject l)) = DeOk d <->
  exists es, d = DMap es /\ NoDup (map fst es) /\
    Forall2 (fun ke kd => (exists i, fst ke = KIdent i /\ cow_str i = fst kd) /\ deserialize ord t (SExpr (snd ke)) = DeOk (snd kd)) l es.
Proof.
  intros ord Ho l t d. rewrite deserialize_eq by exact Ho. cbn [call method_of expr_call expr_any].
  destruct (ListDec.NoDup_dec (list_eq_dec N.eq_dec) (map (fun ke => okey_str (fst ke)) l)) as [HD|HD].
  1: destruct (Forall_dec _ ident_key_dec l) as [HK|HK].
  - rewrite Forall_forall in HK. rewrite object_steps_fresh; [|exact HK|exact HD|intros ? ? []]. cbn [visit]. rewrite dmap_ok.
    assert (Heq : forall es, Forall2 (fun x (e : str * data) => fst e = cow_str (match fst x with KIdent i => i | KExpr t => t end) /\ deserialize ord t (SExpr (snd x)) = DeOk (snd e)) l es <->
       Forall2 (fun ke (kd : str * data) => (exists i, fst ke = KIdent i /\ cow_str i = fst kd) /\ deserialize ord t (SExpr (snd ke)) = DeOk (snd kd)) l es).
    { clear - HK. induction l as [|ke l IH]; intros es; split; intros H; inversion H; subst; constructor.
      - destruct (HK ke (or_introl eq_refl)) as (i & Hi). rewrite Hi in *. destruct H2 as [E1 E2]. split; [exists i; auto|exact E2].
      - apply IH; [intros x Hx; apply HK; right; exact Hx|assumption].
      - destruct H2 as [(i & -> & Ei) E2]. auto.
      - apply IH; [intros x Hx; apply HK; right; exact Hx|assumption]. }
    split.
    + intros (es & H & ->). apply map_all_ok in H. exists es. split; [reflexivity|]. split; [|apply Heq, H].
      replace (map fst es) with (map (fun ke => okey_str (fst ke)) l); [exact HD|]. apply Heq in H. clear - H.
      induction H as [|ke kd l es [(i & Hi & E) _] _ IH]; cbn; [reflexivity|]. rewrite Hi. cbn. congruence.
    + intros (es & -> & _ & H). exists es. split; [|reflexivity]. apply map_all_ok, Heq, H.
  - destruct (object_steps_bad l []) as (l1 & st & -> & Hst); [intros (H1 & _ & _); apply HK, Forall_forall, H1|]. split.
    + intros H. exfalso. revert H. apply visit_map_bad, Hst.
    + intros (es & _ & _ & H). exfalso. apply HK. clear - H. induction H as [|? ? ? ? [(i & Hi & _) _] _ IH]; constructor; eauto.
  - destruct (object_steps_bad l []) as (l1 & st & -> & Hst); [intros (_ & H2 & _); contradiction|]. split.
    + intros H. exfalso. revert H. apply visit_map_bad, Hst.
    + intros (es & _ & HD' & H). exfalso. apply HD.
      replace (map (fun ke => okey_str (fst ke)) l) with (map fst es); [exact HD'|].
      clear - H. induction H as [|ke kd l es [(i & Hi & E) _] _ IH]; cbn; [reflexivity|]. rewrite Hi. cbn. congruence.
Qed.
Print Assumptions C41_no_panic_refuted.
Print Assumptions C41_object_partial.
Example C41_nonvacuous : exists e, expression_parse ascii_ucd (lit "{b = 1, a = ""x""}") = OkR e /\
  deserialize id_ord (TMap KTString TAny) (SExpr e) = DeOk (DMap [(lit "b", DInt 1); (lit "a", DStr (lit "x"))]).
Proof. eexists. split; [vm_compute; reflexivity|]. vm_compute; reflexivity. Qed.

(** ** C42: options and unit *)
Theorem C42_option : forall ord, Order ord -> forall t,
  deserialize ord (TOption t) (SExpr ENull) = DeOk DNone /\
  (forall e, e <> ENull -> deserialize ord (TOption t) (SExpr e) = dmap DSome (deserialize ord t (SExpr e))) /\
  (forall e d, deserialize ord (TOption t) (SExpr e) = DeOk d <->
     (e = ENull /\ d = DNone) \/ (e <> ENull /\ exists d', d = DSome d' /\ deserialize ord t (SExpr e) = DeOk d')).
Proof.
  intros ord Ho t.
  assert (H1 : deserialize ord (TOption t) (SExpr ENull) = DeOk DNone) by (rewrite deserialize_eq by exact Ho; reflexivity).
  assert (H2 : forall e, e <> ENull -> deserialize ord (TOption t) (SExpr e) = dmap DSome (deserialize ord t (SExpr e))).
  { intros e He. rewrite deserialize_eq by exact Ho. destruct e; try congruence; reflexivity. }
  split; [exact H1|]. split; [exact H2|]. intros e d.
  assert (He : e = ENull \/ e <> ENull) by (destruct e; auto; right; discriminate). destruct He as [->|He].
  - rewrite H1. split; [intros [= <-]; auto|]. intros [[_ ->]|[Hn _]]; [reflexivity|congruence].
  - rewrite (H2 e He), dmap_ok. split.
    + intros (d' & H & ->). right. eauto.
    + intros [[E _]|[_ (d' & -> & H)]]; [contradiction|eauto].
Qed.
Theorem C42_unit : forall ord, Order ord -> forall e,
  (e = ENull -> deserialize ord TUnit (SExpr e) = DeOk DUnit) /\
  (e <> ENull -> exists err, deserialize ord TUnit (SExpr e) = DeErr err).
Proof.
  intros ord Ho e. rewrite deserialize_eq by exact Ho. split; [intros ->; reflexivity|]. intros He.
  destruct e as [|n|b|[s|s]|l|l]; try congruence; cbn -[number_event]; try (eexists; reflexivity).
  unfold number_event. destruct (is_float n); [destruct (as_f64 n)|destruct (is_signed n); [destruct (as_int I64 n)|destruct (as_int U64 n)]]; eexists; reflexivity.
Qed.
Print Assumptions C42_option.
Print Assumptions C42_unit.
Example C42_nonvacuous :
  from_str ascii_ucd id_ord (TStruct [(lit "a", TOption (TInt U8)); (lit "b", TOption TBool); (lit "c", TOption TBool)])
    (lit ("a = 7" ++ nl ++ "b = null" ++ nl)) = DeOk (DStruct [(lit "a", DSome (DInt 7)); (lit "b", DNone); (lit "c", DNone)]).
Proof. vm_compute. reflexivity. Qed.

(** ** C43: tuples *)
Theorem C43_sequence : forall ord, Order ord -> forall t l d,
  deserialize ord (TSeq t) (SExpr (ETuple l)) = DeOk d <->
  exists ds, d = DSeq ds /\ Forall2 (fun e x => deserialize ord t (SExpr e) = DeOk x) l ds.
Proof.
  intros ord Ho t l d. rewrite deserialize_eq by exact Ho. cbn [call method_of expr_call expr_any visit]. rewrite dmap_ok. split.
  - intros (ds & H & ->). exists ds. split; [reflexivity|]. apply seq_all_ok in H. apply Forall2_map_l in H. exact H.
  - intros (ds & -> & H). exists ds. split; [|reflexivity]. apply seq_all_ok, Forall2_map_l. exact H.
Qed.
Lemma seq_types_ok rec ts : forall l ds, length l = length ts ->
  seq_types rec ts l = DeOk ds <-> Forall3 (fun t s d => rec t s = DeOk d) ts l ds.
Proof.
  induction ts as [|t ts IH]; intros [|s l] ds Hl; cbn in Hl; try discriminate; cbn.
  - split; [intros [= <-]; constructor|intros H; inversion H; reflexivity].
  - rewrite dbind_ok. split.
    + intros (d & Hd & H). apply dmap_ok in H as (ds' & H & ->). constructor; [exact Hd|apply IH; [lia|exact H]].
    + intros H. inversion H as [|? ? d ? ? ds' Hd Hds]; subst. exists d. split; [exact Hd|]. apply dmap_ok. exists ds'.
      split; [apply IH; [lia|exact Hds]|reflexivity].
Qed.
Lemma Forall3_map {A A' B C} (f : A' -> B) (R : A -> B -> C -> Prop) ts : forall l ds,
  Forall3 R ts (map f l) ds <-> Forall3 (fun t e d => R t (f e) d) ts l ds.
Proof.
  induction ts as [|t ts IH]; intros l ds; split; intros H.
  - inversion H as [E1 E2 E3|]; subst. destruct l; [constructor|discriminate].
  - inversion H; subst. constructor.
  - destruct l as [|x l]; inversion H; subst. constructor; [assumption|]. apply IH. assumption.
  - inversion H; subst. cbn. constructor; [assumption|]. apply IH. assumption.
Qed.
Theorem C43_fixed_size : forall ord, Order ord -> forall ts l,
  (length l <> length ts -> deserialize ord (TTuple ts) (SExpr (ETuple l)) = DeErr (ETupleLength (length ts) (length l))) /\
  (forall d, deserialize ord (TTuple ts) (SExpr (ETuple l)) = DeOk d <->
     exists ds, d = DSeq ds /\ Forall3 (fun t e x => deserialize ord t (SExpr e) = DeOk x) ts l ds).
Proof.
  intros ord Ho ts l. rewrite deserialize_eq by exact Ho. cbn [call method_of expr_call].
  destruct (length l =? length ts) eqn:E.
  - apply Nat.eqb_eq in E. split; [contradiction|]. intros d. cbn [visit]. rewrite dmap_ok.
    assert (E' : length (map SExpr l) = length ts) by (rewrite map_length; exact E). split.
    + intros (ds & H & ->). exists ds. split; [reflexivity|]. apply (seq_types_ok _ _ _ _ E') in H. apply Forall3_map in H. exact H.
    + intros (ds & -> & H). exists ds. split; [|reflexivity]. apply (seq_types_ok _ _ _ _ E'), Forall3_map. exact H.
  - apply Nat.eqb_neq in E. split; [reflexivity|]. intros d. split; [discriminate|]. intros (ds & _ & H). exfalso. apply E.
    clear - H. induction H; cbn; congruence.
Qed.
(** Nothing but a tuple is a sequence. *)
Theorem C43_only_tuples : forall ord, Order ord -> forall e, (forall l, e <> ETuple l) ->
  forall d, (forall t, deserialize ord (TSeq t) (SExpr e) <> DeOk d) /\ (forall ts, deserialize ord (TTuple ts) (SExpr e) <> DeOk d).
Proof.
  intros ord Ho e He d.
  assert (H : forall t, (exists t', t = TSeq t') \/ (exists ts, t = TTuple ts) -> deserialize ord t (SExpr e) <> DeOk d).
  { intros t Ht. rewrite deserialize_eq by exact Ho.
    assert (Ec : call ord (SExpr e) (method_of t) = expr_any e).
    { destruct Ht as [[t' ->]|[ts ->]]; [reflexivity|]. destruct e; try reflexivity. exfalso. eapply He. reflexivity. }
    rewrite Ec. assert (Hev : forall l, expr_any e <> VSeq l /\ (forall s, expr_any e <> VSome s) /\ (forall s, expr_any e <> VNewtype s) /\ expr_any e <> VNone).
    { intros l. destruct e as [|n|b|[s|s]|l0|l0]; cbn; repeat split; try discriminate; try (exfalso; eapply He; reflexivity);
       unfold number_event; destruct (is_float n); [destruct (as_f64 n)|destruct (is_signed n); [destruct (as_int I64 n)|destruct (as_int U64 n)]| | | | | |]; try discriminate;
       try (destruct (as_f64 n); discriminate); try (destruct (is_signed n); [destruct (as_int I64 n)|destruct (as_int U64 n)]; discriminate). }
    destruct (Hev []) as (_ & H2 & H3 & H4). assert (H1 : forall l, expr_any e <> VSeq l) by (intros l; apply Hev).
    destruct (expr_any e); destruct Ht as [[t' ->]|[ts ->]]; cbn; try discriminate; exfalso; eapply H1; reflexivity. }
  split; intros; apply H; eauto.
Qed.
Print Assumptions C43_sequence.
Print Assumptions C43_fixed_size.
Print Assumptions C43_only_tuples.
Example C43_nonvacuous : exists e, expression_parse ascii_ucd (lit "[1, true]") = OkR e /\
  deserialize id_ord (TTuple [TInt U8; TBool]) (SExpr e) = DeOk (DSeq [DInt 1; DBool true]) /\
  deserialize id_ord (TTuple [TInt U8]) (SExpr e) = DeErr (ETupleLength 1 2) /\
  deserialize id_ord (TSeq TAny) (SExpr e) = DeOk (DSeq [DInt 1; DBool true]).
Proof. eexists. split; [vm_compute; reflexivity|]. repeat split; vm_compute; reflexivity. Qed.

(** ** C44: strings *)
(** REFUTED: no quoted string can be deserialised into [&str]. *)
Theorem C44_borrowed_refuted : forall ord, Order ord -> forall U s e,
  expression_parse U (lit """" ++ s) = OkR e -> deserialize ord TStr (SExpr e) = DeErr (ECustom CInvalidType).
Proof.
  intros ord Ho U s e H. apply C10_quoted_exact in H as (v & -> & _). rewrite deserialize_eq by exact Ho. reflexivity.
Qed.
(** What holds: [String] gets the content of every string; [&str] exactly of those
    the parser borrows from the document (heredocs that are not unindented);
    [char] of strings of one character. *)
Theorem C44_strings_partial : forall ord, Order ord -> forall s,
  deserialize ord TString (SExpr (EString s)) = DeOk (DStr (cow_str s)) /\
  deserialize ord TStr (SExpr (EString s)) = (match s with Borrowed t => DeOk (DStr t) | Owned _ => DeErr (ECustom CInvalidType) end) /\
  (forall c, deserialize ord TChar (SExpr (EString s)) = DeOk (DChar c) <-> cow_str s = [c]).
Proof.
  intros ord Ho s. rewrite !deserialize_eq by exact Ho. split; [destruct s; reflexivity|]. split; [destruct s; reflexivity|].
  intros c. assert (E : visit (deserialize ord) TChar (call ord (SExpr (EString s)) (method_of TChar)) =
    match cow_str s with [c] => DeOk (DChar c) | _ => DeErr (ECustom CInvalidValue) end) by (destruct s; reflexivity).
  rewrite E. destruct (cow_str s) as [|x [|y l]]; split; intros H; try discriminate; congruence.
Qed.
(** Only strings are accepted by [String]. *)
Theorem C44_only_strings : forall ord, Order ord -> forall e d, deserialize ord TString (SExpr e) = DeOk d ->
  exists s, e = EString s /\ d = DStr (cow_str s).
Proof.
  intros ord Ho e d. rewrite deserialize_eq by exact Ho. destruct e as [|n|b|[s|s]|l|l]; cbn; try discriminate.
  - unfold number_event. destruct (is_float n); [destruct (as_f64 n)|destruct (is_signed n); [destruct (as_int I64 n)|destruct (as_int U64 n)]]; discriminate.
  - intros [= <-]. exists (Borrowed s). auto.
  - intros [= <-]. exists (Owned s). auto.
Qed.
Print Assumptions C44_borrowed_refuted.
Print Assumptions C44_strings_partial.
Print Assumptions C44_only_strings.
Example C44_nonvacuous :
  from_str ascii_ucd id_ord (TMap KTString TStr) (lit ("a = <<E" ++ nl ++ "x" ++ nl ++ "E" ++ nl)) = DeOk (DMap [(lit "a", DStr (lit "x"))]) /\
  from_str ascii_ucd id_ord (TMap KTString TString) (lit ("a = ""x""" ++ nl)) = DeOk (DMap [(lit "a", DStr (lit "x"))]) /\
  from_str ascii_ucd id_ord (TMap KTString TStr) (lit ("a = ""x""" ++ nl)) = DeErr (ECustom CInvalidType).
Proof. repeat split; vm_compute; reflexivity. Qed.

(** ** C45: blocks *)
(** REFUTED: every target panics on blocks with labels. *)
Theorem C45_labels_refuted : forall ord, Order ord -> forall h b, Built h b -> (exists ls body, In (ls, body) h /\ ls <> []) ->
  forall t, deserialize ord t (SBlock b) = DePanic.
Proof.
  intros ord Ho h b HB Hl.
  assert (Hb : exists e kv m, b = BLabels e (kv :: m)).
  { assert (Hb' : exists e m, b = BLabels e m).
    { clear - HB Hl. induction HB as [|h b ls body b' HB IH HR]; [destruct Hl as (? & ? & [] & _)|].
      destruct Hl as (ls' & body' & Hin & Hne). apply in_app_iff in Hin as [Hin|[[= -> ->]|[]]].
      - destruct IH as (e & m & ->); [eauto|]. cbn in HR. destruct ls; inversion HR; subst; eauto.
      - destruct ls' as [|l ls]; [congruence|]. destruct b as [bs|e m]; cbn in HR; inversion HR; subst; eauto. }
    destruct Hb' as (e & m & ->). destruct m as [|kv m]; [|eauto]. exfalso.
    destruct (C37_no_empty_labels h _ HB _ (NO_self _)) as [H _]. apply (H [] eq_refl). reflexivity. }
  assert (Hne : len_blocks b <> 0).
  { assert (Hh : h <> []) by (destruct Hl as (? & ? & Hin & _); intros ->; destruct Hin). destruct (Built_good _ _ HB) as [HG HN].
    rewrite len_blocks_flat. pose proof (nonempty_flat _ b HG (HN Hh)) as H. destruct (flat_iter b); [congruence|discriminate]. }
  destruct Hb as (e & kv & m & ->). intros t. induction t; rewrite deserialize_eq by exact Ho; cbn [call method_of block_call]; try reflexivity.
  apply Nat.eqb_neq in Hne. rewrite Hne. cbn [visit]. rewrite IHt. reflexivity.
Qed.
(** So does every whole document with a labelled block, if what comes before it is
    accepted; e.g.: *)
Theorem C45_document_refuted : forall ord, Order ord ->
  from_str ascii_ucd ord TAny (lit ("r ""x"" {" ++ nl ++ "}" ++ nl)) = DePanic /\
  from_str ascii_ucd ord TIgnored (lit ("r ""x"" {" ++ nl ++ "}" ++ nl)) = DePanic.
Proof.
  intros ord Ho. unfold from_str.
  match goal with |- context [parse_str ?U ?s] => let r := eval vm_compute in (parse_str U s) in change (parse_str U s) with r end.
  split; rewrite deserialize_eq by exact Ho; cbn [call method_of]; unfold body_any, build_map_access_iter;
    match goal with |- context [ord ?m] => let m' := eval vm_compute in m in change m with m'; rewrite (ord_one ord _ Ho) end;
    cbn -[deserialize]; rewrite deserialize_eq by exact Ho; reflexivity.
Qed.
(** What holds: blocks without labels. A sequence target gets all bodies in order; a
    single body is what any other target gets; an optional target gets [Some]. *)
Theorem C45_unlabelled_partial : forall ord, Order ord -> forall bs,
  (forall t d, deserialize ord (TSeq t) (SBlock (BBody bs)) = DeOk d <->
     exists ds, d = DSeq ds /\ Forall2 (fun b x => deserialize ord t (SBody b) = DeOk x) bs ds) /\
  (forall t, bs <> [] -> deserialize ord (TOption t) (SBlock (BBody bs)) = dmap DSome (deserialize ord t (SBlock (BBody bs)))) /\
  (forall t b, bs = [b] -> (forall t', t <> TSeq t') -> (forall t', t <> TOption t') ->
     deserialize ord t (SBlock (BBody bs)) = deserialize ord t (SBody b)) /\
  (forall b1 b2 bs', bs = b1 :: b2 :: bs' -> forall d,
     deserialize ord TAny (SBlock (BBody bs)) = DeOk d <->
     exists ds, d = DSeq ds /\ Forall2 (fun b x => deserialize ord TAny (SBody b) = DeOk x) bs ds).
Proof.
  intros ord Ho bs.
  assert (Hseq : forall t d, dmap DSeq (seq_all (deserialize ord) t (map SBody bs)) = DeOk d <->
     exists ds, d = DSeq ds /\ Forall2 (fun b x => deserialize ord t (SBody b) = DeOk x) bs ds).
  { intros t d. rewrite dmap_ok. split.
    - intros (ds & H & ->). exists ds. split; [reflexivity|]. apply seq_all_ok in H. apply Forall2_map_l in H. exact H.
    - intros (ds & -> & H). exists ds. split; [|reflexivity]. apply seq_all_ok, Forall2_map_l. exact H. }
  split; [|split; [|split]].
  - intros t d. rewrite deserialize_eq by exact Ho. apply Hseq.
  - intros t Hne. rewrite deserialize_eq by exact Ho. destruct bs as [|b bs]; [congruence|]. reflexivity.
  - intros t b -> H1 H2. rewrite !(deserialize_eq ord Ho t). destruct t; try reflexivity; exfalso; [eapply H2|eapply H1]; reflexivity.
  - intros b1 b2 bs' Hbs d. rewrite deserialize_eq by exact Ho. rewrite Hbs at 1. cbn [call method_of block_call one_or_seq visit]. rewrite <- Hbs. apply Hseq.
Qed.
Print Assumptions C45_labels_refuted.
Print Assumptions C45_document_refuted.
Print Assumptions C45_unlabelled_partial.
Example C45_nonvacuous :
  from_str ascii_ucd id_ord (TStruct [(lit "r", TSeq (TStruct [(lit "a", TInt U8)]))])
    (lit ("r {" ++ nl ++ "a = 1" ++ nl ++ "}" ++ nl ++ "r {" ++ nl ++ "a = 2" ++ nl ++ "}" ++ nl)) =
  DeOk (DStruct [(lit "r", DSeq [DStruct [(lit "a", DInt 1)]; DStruct [(lit "a", DInt 2)]])]) /\
  Built [([X], bd1)] (append bdefault [X] bd1).
Proof. split; [vm_compute; reflexivity|apply Built_one]. Qed.

(** ** C63: every block reaches the target *)
(** REFUTED: of the blocks of one type that are not adjacent, all but the last run
    are dropped silently. *)
Theorem C63_all_blocks_refuted : exists t d, Order id_ord /\
  from_str ascii_ucd id_ord (TMap KTString (TSeq t))
    (lit ("r {" ++ nl ++ "a = 1" ++ nl ++ "}" ++ nl ++ "s {" ++ nl ++ "}" ++ nl ++ "r {" ++ nl ++ "a = 2" ++ nl ++ "}" ++ nl)) = DeOk d /\
  d = DMap [(lit "r", DSeq [DMap [(lit "a", DInt 2)]]); (lit "s", DSeq [DMap []])].
Proof. exists TAny. eexists. split; [exact id_Order|]. split; vm_compute; reflexivity. Qed.
Lemma of_type_run x l r : LastRun x l r -> Adjacent l -> of_type x l = map (fun c => (b_labels c, b_body c)) r.
Proof.
  intros [l1 l2 -> Hr Ha H2 H1] HA. unfold of_type. rewrite !filter_app.
  assert (E2 : filter (fun b => str_eqb (cow_str (b_type b)) x) l2 = []).
  { clear - H2. induction l2 as [|c l IH]; [reflexivity|]. cbn.
    rewrite (proj2 (str_eqb_neq _ _) (H2 c (or_introl eq_refl))). apply IH. intros b Hb. apply H2. right. exact Hb. }
  assert (Er : filter (fun b => str_eqb (cow_str (b_type b)) x) r = r).
  { clear - Ha. induction r as [|c l IH]; [reflexivity|]. cbn. rewrite (Ha c (or_introl eq_refl)), str_eqb_refl. f_equal.
    apply IH. intros b Hb. apply Ha. right. exact Hb. }
  assert (E1 : filter (fun b => str_eqb (cow_str (b_type b)) x) l1 = []).
  { destruct (filter (fun b => str_eqb (cow_str (b_type b)) x) l1) as [|c l0] eqn:E; [reflexivity|exfalso].
    assert (Hc : In c (filter (fun b => str_eqb (cow_str (b_type b)) x) l1)) by (rewrite E; left; reflexivity).
    apply filter_In in Hc as [Hc Hx]. apply str_eqb_eq in Hx. destruct r as [|r0 r]; [congruence|].
    assert (Hl : exists la z, l1 = la ++ [z]).
    { destruct l1 as [|z la] using rev_ind; [destruct Hc|eauto]. }
    destruct Hl as (la & z & ->). specialize (H1 la z eq_refl). apply in_app_iff in Hc as [Hc|[<-|[]]]; [|contradiction].
    apply in_split in Hc as (a1 & a2 & ->). apply H1. rewrite <- Hx.
    apply (HA a1 c (a2 ++ [z]) r0 (r ++ l2)).
    - cbn. rewrite <- !app_assoc. cbn. rewrite <- ?app_assoc. reflexivity.
    - rewrite Hx. symmetry. apply Ha. left. reflexivity.
    - apply in_app_iff. right. left. reflexivity. }
  rewrite E1, E2, Er, app_nil_r. reflexivity.
Qed.
(** What holds: if the blocks of each type are adjacent and unlabelled, a sequence
    target holds all of them, in order. *)
Theorem C63_adjacent_partial : forall ord, Order ord -> forall b t es,
  Adjacent (block_list b) -> (forall blk, In blk (block_list b) -> b_labels blk = []) ->
  deserialize ord (TMap KTString (TSeq t)) (SBody b) = DeOk (DMap es) ->
  forall blk, In blk (block_list b) -> exists ds, In (cow_str (b_type blk), DSeq ds) es /\
    Forall2 (fun lb x => deserialize ord t (SBody (snd lb)) = DeOk x) (of_type (cow_str (b_type blk)) (block_list b)) ds.
Proof.
  intros ord Ho b t es HA HL H blk Hblk. destruct (C39_map_entries ord Ho b (TSeq t) _ H) as (es1 & es2 & [= ->] & _ & _ & Hk & Hes).
  assert (Hin : In (cow_str (b_type blk)) (map fst es2)) by (apply Hk; eauto).
  apply in_map_iff in Hin as ([x d] & Ex & Hin). cbn in Ex. subst x. rewrite Forall_forall in Hes. destruct (Hes _ Hin) as (r & HR & Hd). cbn in HR, Hd.
  assert (Hlab : forall c, In c r -> b_labels c = []) by (intros c Hc; apply HL; eapply LastRun_in; eassumption).
  change (map (fun c => (b_labels c, b_body c)) r) with (run_of r) in Hd. unfold bdefault in Hd. rewrite extend_unlabelled in Hd by exact Hlab. cbn [app] in Hd.
  destruct (C45_unlabelled_partial ord Ho (map b_body r)) as [Hs _]. apply Hs in Hd as (ds & -> & Hds).
  exists ds. split; [apply in_app_iff; auto|]. rewrite (of_type_run _ _ _ HR HA). apply Forall2_map_l. apply Forall2_map_l in Hds. exact Hds.
Qed.
(** What holds always: a sequence target holds, under every type, the last run of consecutive
    blocks of that type, all of it and in order; nothing else of the blocks. *)
Theorem C63_last_run_partial : forall ord, Order ord -> forall b t es,
  (forall blk, In blk (block_list b) -> b_labels blk = []) ->
  deserialize ord (TMap KTString (TSeq t)) (SBody b) = DeOk (DMap es) ->
  forall x, (exists blk, In blk (block_list b) /\ cow_str (b_type blk) = x) ->
    exists r ds, LastRun x (block_list b) r /\ In (x, DSeq ds) es /\ Forall2 (fun c d => deserialize ord t (SBody (b_body c)) = DeOk d) r ds.
Proof.
  intros ord Ho b t es HL H x Hx. destruct (C39_map_entries ord Ho b (TSeq t) _ H) as (es1 & es2 & [= ->] & _ & _ & Hk & Hes).
  apply Hk in Hx. apply in_map_iff in Hx as ([x' d] & Ex & Hin). cbn in Ex. subst x'. rewrite Forall_forall in Hes. destruct (Hes _ Hin) as (r & HR & Hd). cbn in HR, Hd.
  assert (Hlab : forall c, In c r -> b_labels c = []) by (intros c Hc; apply HL; eapply LastRun_in; eassumption).
  change (map (fun c => (b_labels c, b_body c)) r) with (run_of r) in Hd. unfold bdefault in Hd. rewrite extend_unlabelled in Hd by exact Hlab. cbn [app] in Hd.
  destruct (C45_unlabelled_partial ord Ho (map b_body r)) as [Hs _]. apply Hs in Hd as (ds & -> & Hds). apply Forall2_map_l in Hds.
  exists r, ds. split; [exact HR|]. split; [apply in_app_iff; auto|exact Hds].
Qed.
Print Assumptions C63_last_run_partial.
Print Assumptions C63_all_blocks_refuted.
Print Assumptions C63_adjacent_partial.
Example C63_nonvacuous : Adjacent [bk "t" [] bd1; bk "t" [] bd2; bk "u" [] bd2].
Proof.
  intros l1 b1 l2 b2 l3 E Ht b Hb.
  destruct l1 as [|? [|? [|? [|? ?]]]]; cbn in E; try discriminate E; injection E; clear E; intros; subst;
    destruct l2 as [|? [|? [|? ?]]]; cbn in *; try discriminate; try (injection H; clear H; intros; subst); cbn in *; try tauto;
    try discriminate; try congruence; destruct l2; discriminate.
Qed.

(** ** C64: structs *)
(** The named sources of a body: its attributes, and the blocks per type. *)
Definition sources (ord : blocks_t -> blocks_t) (b : body_t) : list (str * src) :=
  map (fun a => (fst a, SExpr (snd a))) (attr_list b) ++
  map (fun kb => (cow_str (fst kb), SBlock (snd kb))) (ord (blocks_new (block_list b))).
Lemma sources_entries ord b : sources ord b = map (fun kv => (cow_str (fst kv), val_src (snd kv))) (build_map_access_iter ord b).
Proof.
  unfold sources, build_map_access_iter. rewrite map_app, <- attributes_list, <- blocks_list, !map_map. reflexivity.
Qed.
Lemma field_get_none {A} k (l : list (str * A)) : field_get k l = None <-> ~ In k (map fst l).
Proof.
  unfold field_get. destruct (find _ l) as [[k' y]|] eqn:E; cbn.
  - split; [discriminate|]. intros H. exfalso. apply H. apply find_some in E as [Hin Ek]. apply str_eqb_eq in Ek. cbn in Ek. subst.
    apply (in_map fst) in Hin. exact Hin.
  - split; [|reflexivity]. intros _ H. apply in_map_iff in H as ([k' y] & <- & Hin). apply (find_none _ _ E) in Hin. cbn in Hin.
    rewrite str_eqb_refl in Hin. discriminate.
Qed.
Lemma field_get_some {A} k (l : list (str * A)) x : NoDup (map fst l) -> (field_get k l = Some x <-> In (k, x) l).
Proof.
  intros HD. split; [apply field_get_in|]. intros Hin. destruct (field_get k l) as [y|] eqn:E.
  - apply field_get_in in E. f_equal. clear - HD Hin E. induction l as [|[k' z] l IH]; [destruct Hin|]. cbn in HD. inversion HD as [|? ? Hn HD']; subst.
    destruct Hin as [Hin|Hin]; destruct E as [E|E]; [congruence| | |auto].
    + injection Hin as -> ->. exfalso. apply Hn. apply (in_map fst) in E. exact E.
    + injection E as -> ->. exfalso. apply Hn. apply (in_map fst) in Hin. exact Hin.
  - apply field_get_none in E. exfalso. apply E. apply (in_map fst) in Hin. exact Hin.
Qed.
Section StructMap.
  Variable rec : ty -> src -> dres data.
  Variable fs : list (str * ty).
  Context {A : Type} (kf : A -> cow) (vf : A -> src).
  Definition step_of (kv : A) : mstep := MEntry (kf kv) (vf kv).
  (* what has been read: one value per known entry *)
  Definition Found (l : list A) (acc acc' : list (str * data)) : Prop :=
    (forall kv, In kv l -> ~ In (cow_str (kf kv)) (map fst fs) -> exists d, rec TIgnored (vf kv) = DeOk d) /\
    (forall k d, In (k, d) acc' <-> In (k, d) acc \/
       exists kv t, In kv l /\ cow_str (kf kv) = k /\ field_get k fs = Some t /\ rec t (vf kv) = DeOk d) /\
    (forall kv t, In kv l -> field_get (cow_str (kf kv)) fs = Some t -> exists d, rec t (vf kv) = DeOk d).
  Lemma struct_map_ok l : forall acc, NoDup (map (fun kv => cow_str (kf kv)) l) -> NoDup (map fst acc) ->
    (forall kv, In kv l -> ~ In (cow_str (kf kv)) (map fst acc)) ->
    (forall acc', struct_map rec fs acc (map step_of l) = DeOk acc' -> NoDup (map fst acc') /\ Found l acc acc') /\
    ((forall kv, In kv l -> ~ In (cow_str (kf kv)) (map fst fs) -> exists d, rec TIgnored (vf kv) = DeOk d) ->
     (forall kv t, In kv l -> field_get (cow_str (kf kv)) fs = Some t -> exists d, rec t (vf kv) = DeOk d) ->
     exists acc', struct_map rec fs acc (map step_of l) = DeOk acc').
  Proof.
    induction l as [|kv l IH]; intros acc HD Hacc Hdis; cbn [map struct_map step_of].
    - split.
      + intros acc' [= <-]. split; [exact Hacc|]. split; [intros ? []|]. split; [|intros ? ? []]. intros k d. split; [auto|].
        intros [H|(? & ? & [] & _)]. exact H.
      + intros _ _. eauto.
    - cbn [map] in HD. inversion HD as [|? ? Hn HD']; subst.
      destruct (field_get (cow_str (kf kv)) fs) as [t|] eqn:E.
      + assert (Ea : field_get (cow_str (kf kv)) acc = None) by (apply field_get_none, Hdis; left; reflexivity). rewrite Ea.
        assert (IH' : forall d, _) by (intros d; exact (IH ((cow_str (kf kv), d) :: acc) HD'
          (NoDup_cons _ (Hdis kv (or_introl eq_refl)) Hacc)
          (fun kv' Hkv' H => match H with
             | or_introl Heq => Hn (eq_ind_r (fun k => In k _) (in_map (fun kv => cow_str (kf kv)) _ _ Hkv') Heq)
             | or_intror Hi => Hdis kv' (or_intror Hkv') Hi end))).
        split.
        * intros acc' H. apply dbind_ok in H as (d & Hd & H). destruct (proj1 (IH' d) acc' H) as (HN & F1 & F2 & F3). split; [exact HN|].
          split; [|split].
          -- intros kv' [<-|Hi] Hno; [|apply F1; assumption]. exfalso. apply Hno. apply field_get_in in E. apply (in_map fst) in E. exact E.
          -- intros k d'. rewrite F2. cbn [In]. split.
             ++ intros [[[= <- <-]|H']|(kv' & t' & Hi & R)]; [right; exists kv, t; auto|auto|right; exists kv', t'; auto].
             ++ intros [H'|(kv' & t' & [<-|Hi] & Hk & Ht & Hr)]; [auto| |right; exists kv', t'; auto].
                left. left. subst k. rewrite E in Ht. injection Ht as <-. rewrite Hd in Hr. injection Hr as <-. reflexivity.
          -- intros kv' t' [<-|Hi] Ht; [|eapply F3; eassumption]. rewrite E in Ht. injection Ht as <-. eauto.
        * intros G1 G2. destruct (G2 kv t (or_introl eq_refl) E) as (d & Hd). destruct (proj2 (IH' d)) as (acc' & H').
          -- intros kv' Hi. apply G1. right. exact Hi.
          -- intros kv' t' Hi. apply G2. right. exact Hi.
          -- exists acc'. apply dbind_ok. eauto.
      + assert (IH' := IH acc HD' Hacc (fun kv' Hkv' => Hdis kv' (or_intror Hkv'))).
        split.
        * intros acc' H. apply dbind_ok in H as (d & Hd & H). destruct (proj1 IH' acc' H) as (HN & F1 & F2 & F3). split; [exact HN|].
          split; [|split].
          -- intros kv' [<-|Hi] Hno; [eauto|apply F1; assumption].
          -- intros k d'. rewrite F2. split.
             ++ intros [H'|(kv' & t' & Hi & R)]; [auto|right; exists kv', t'; split; [right; exact Hi|exact R]].
             ++ intros [H'|(kv' & t' & [<-|Hi] & Hk & Ht & Hr)]; [auto| |right; exists kv', t'; auto]. congruence.
          -- intros kv' t' [<-|Hi] Ht; [congruence|eapply F3; eassumption].
        * intros G1 G2. apply field_get_none in E. destruct (G1 kv (or_introl eq_refl) E) as (d & Hd). destruct (proj2 IH') as (acc' & H').
          -- intros kv' Hi. apply G1. right. exact Hi.
          -- intros kv' t' Hi. apply G2. right. exact Hi.
          -- exists acc'. apply dbind_ok. eauto.
  Qed.
End StructMap.
Lemma struct_finish_ok fs acc vs : struct_finish fs acc = DeOk vs <->
  Forall2 (fun ft v => fst v = fst ft /\ (field_get (fst ft) acc = Some (snd v) \/
     (field_get (fst ft) acc = None /\ (exists t', snd ft = TOption t') /\ snd v = DNone))) fs vs.
Proof.
  revert vs. induction fs as [|[f t] fs IH]; intros vs; cbn.
  - split; [intros [= <-]; constructor|intros H; inversion H; reflexivity].
  - destruct (field_get f acc) as [d|] eqn:E.
    + rewrite dmap_ok. split.
      * intros (vs' & H & ->). constructor; [cbn; rewrite E; auto|apply IH, H].
      * intros H. inversion H as [|? [f' d'] ? vs' [Ef Hd] Hvs]; subst. cbn in *. exists vs'. split; [apply IH, Hvs|]. rewrite E in Hd.
        destruct Hd as [[= ->]|[Hd _]]; [congruence|discriminate].
    + split.
      * intros H. assert (Ht : (exists t', t = TOption t') /\ exists vs', struct_finish fs acc = DeOk vs' /\ vs = (f, DNone) :: vs').
        { destruct t; try discriminate. apply dmap_ok in H. eauto. }
        destruct Ht as (Ht & vs' & Hvs & ->). constructor; [|apply IH, Hvs]. cbn. rewrite E. split; [reflexivity|]. right. auto.
      * intros H. inversion H as [|? [f' d'] ? vs' [Ef Hd] Hvs]; subst. cbn in *. rewrite E in Hd.
        destruct Hd as [Hd|(_ & (t' & ->) & ->)]; [discriminate|]. apply dmap_ok. exists vs'. split; [apply IH, Hvs|congruence].
Qed.
Lemma Forall2_in_weaken {A B} (R Q : A -> B -> Prop) l l' : (forall a b, In a l -> R a b -> Q a b) -> Forall2 R l l' -> Forall2 Q l l'.
Proof.
  intros H HF. induction HF as [|a b l l' Hab _ IH]; constructor; [apply H; [left; reflexivity|exact Hab]|].
  apply IH. intros x y Hx. apply H. right. exact Hx.
Qed.
(** Each field gets the value of its own name, wherever it stands; a missing field is
    [None] for an option and an error otherwise; anything else is read and ignored. *)
Theorem C64_struct : forall ord, Order ord -> forall fs b d, NoDup (map fst fs) ->
  deserialize ord (TStruct fs) (SBody b) = DeOk d <->
  DistinctNames b /\
  (forall n s, In (n, s) (sources ord b) -> ~ In n (map fst fs) -> exists x, deserialize ord TIgnored s = DeOk x) /\
  exists vs, d = DStruct vs /\
    Forall2 (fun ft v => fst v = fst ft /\
      ((exists s, In (fst ft, s) (sources ord b) /\ deserialize ord (snd ft) s = DeOk (snd v)) \/
       (~ In (fst ft) (map fst (sources ord b)) /\ (exists t', snd ft = TOption t') /\ snd v = DNone))) fs vs.
Proof.
  intros ord Ho fs b d Hfs. rewrite deserialize_eq by exact Ho. cbn [call method_of]. unfold body_any.
  destruct (ListDec.NoDup_dec (list_eq_dec N.eq_dec) (keys_of (build_map_access_iter ord b))) as [HD|HD].
  2:{ destruct (body_steps_stale (build_map_access_iter ord b) []) as (l1 & kv & l2 & _ & _ & _ & _ & ->); [tauto|]. split.
      - intros H. exfalso. revert H. apply visit_map_bad. destruct (snd kv); eauto.
      - intros [H _]. apply (distinct_keys ord b Ho) in H. contradiction. }
  rewrite body_steps_fresh; [|exact HD|intros ? ? []]. cbn [visit]. rewrite dmap_ok.
  set (E := build_map_access_iter ord b) in *.
  assert (Hsrc : forall n s, In (n, s) (sources ord b) <-> exists kv, In kv E /\ cow_str (fst kv) = n /\ val_src (snd kv) = s).
  { intros n s. rewrite sources_entries, in_map_iff. fold E. split.
    - intros (kv & [= <- <-] & H). eauto.
    - intros (kv & H & <- & <-). eauto. }
  assert (HDs : NoDup (map fst (sources ord b))) by (rewrite sources_entries, map_map; exact HD).
  destruct (struct_map_ok (deserialize ord) fs fst (fun kv => val_src (snd kv)) E [] HD (NoDup_nil _) (fun _ _ H => H)) as [S1 S2].
  split.
  - intros (vs & H & ->). apply dbind_ok in H as (acc & Hacc & Hfin). destruct (S1 acc Hacc) as (HN & F1 & F2 & F3).
    split; [apply (distinct_keys ord b Ho), HD|]. split.
    + intros n s Hs Hno. apply Hsrc in Hs as (kv & Hkv & <- & <-). apply F1; assumption.
    + exists vs. split; [reflexivity|]. apply struct_finish_ok in Hfin. 
      revert Hfin. apply Forall2_in_weaken. intros [f t] v Hft [Ef Hv]. cbn in *. split; [exact Ef|].
      pose proof (proj2 (field_get_some f fs t Hfs) Hft) as Hg.
      destruct Hv as [Hv|(Hv & Ht & Hd)].
      * left. apply (field_get_some _ _ _ HN) in Hv. apply F2 in Hv as [[]|(kv & t' & Hkv & Hk & Ht' & Hr)]. rewrite Hg in Ht'. injection Ht' as <-.
        exists (val_src (snd kv)). split; [apply Hsrc; eauto|exact Hr].
      * right. split; [|auto]. intros Hi. apply in_map_iff in Hi as ([f' s] & <- & Hs). cbn in *. apply Hsrc in Hs as (kv & Hkv & Hk & <-).
        destruct (F3 kv t Hkv) as (d & Hd'); [rewrite Hk; exact Hg|]. apply field_get_none in Hv. apply Hv.
        apply in_map_iff. exists (f', d). split; [reflexivity|]. apply F2. right. exists kv, t. auto.
  - intros (_ & Hign & vs & -> & Hvs).
    assert (G2 : forall kv t, In kv E -> field_get (cow_str (fst kv)) fs = Some t -> exists d, deserialize ord t (val_src (snd kv)) = DeOk d).
    { intros kv t Hkv Hg. apply field_get_in in Hg. clear - Hvs Hg Hkv Hsrc HDs.
      induction Hvs as [|[f t0] v l l' [Ef Hv] _ IH]; [destruct Hg|]. destruct Hg as [[= -> ->]|Hg]; [|auto]. cbn in *.
      assert (Hs : In (cow_str (fst kv), val_src (snd kv)) (sources ord b)) by (apply Hsrc; eauto).
      destruct Hv as [(s & Hs' & Hd)|(Hno & _)].
      - apply (field_get_some _ _ _ HDs) in Hs, Hs'. rewrite Hs in Hs'. injection Hs' as <-. eauto.
      - exfalso. apply Hno. apply (in_map fst) in Hs. exact Hs. }
    destruct S2 as (acc & Hacc); [|exact G2|].
    { intros kv Hkv Hno. eapply Hign; [apply Hsrc; eauto|exact Hno]. }
    destruct (S1 acc Hacc) as (HN & F1 & F2 & F3).
    exists vs. split; [|reflexivity]. apply dbind_ok. exists acc. split; [exact Hacc|]. apply struct_finish_ok.
    revert Hvs. apply Forall2_in_weaken. intros [f t] v Hft [Ef Hv]. cbn in *. split; [exact Ef|].
    pose proof (proj2 (field_get_some f fs t Hfs) Hft) as Hg. destruct Hv as [(s & Hs & Hd)|(Hno & Ht & Hd)].
    + left. apply (field_get_some _ _ _ HN). apply F2. right. apply Hsrc in Hs as (kv & Hkv & Hk & <-). exists kv, t. auto.
    + right. split; [|auto]. apply field_get_none. intros Hi. apply in_map_iff in Hi as ([f' d'] & <- & Hi). cbn in *.
      apply F2 in Hi as [[]|(kv & t' & Hkv & Hk & _ & _)]. apply Hno. apply in_map_iff. exists (f', val_src (snd kv)). split; [reflexivity|].
      apply Hsrc. eauto.
Qed.
Print Assumptions C64_struct.
Example C64_nonvacuous :
  from_str ascii_ucd id_ord (TStruct [(lit "a", TInt U8); (lit "b", TOption TBool)]) (lit ("z = [1]" ++ nl ++ "a = 3" ++ nl)) =
    DeOk (DStruct [(lit "a", DInt 3); (lit "b", DNone)]) /\
  from_str ascii_ucd id_ord (TStruct [(lit "a", TInt U8); (lit "b", TBool)]) (lit ("z = [1]" ++ nl ++ "a = 3" ++ nl)) = DeErr (ECustom (CMissingField (lit "b"))).
Proof. split; vm_compute; reflexivity. Qed.

(** ** C65: no panics on clean documents *)
Theorem C65_no_panic : forall ord, Order ord -> forall t b, CleanBody b -> deserialize ord t (SBody b) <> DePanic.
Proof. intros ord Ho t b Hb. apply (clean_no_panic ord (src_depth (SBody b)) Ho); [reflexivity|constructor; exact Hb]. Qed.
Theorem C65_expression_no_panic : forall ord, Order ord -> forall t e, CleanExpr e -> deserialize ord t (SExpr e) <> DePanic.
Proof. intros ord Ho t e He. apply (clean_no_panic ord (src_depth (SExpr e)) Ho); [reflexivity|constructor; exact He]. Qed.
(** Every deserialisation ends. *)
Theorem C65_total : forall ord, Order ord -> forall t s, deserialize ord t s <> DeFuel.
Proof. intros ord Ho t s. apply deserialize_total, Ho. Qed.
(** [from_str]: a document that [parse_str] rejects is an error, whatever the target; it
    panics exactly when [parse_str] does, or reading the parsed document does - which takes
    one that is not clean. *)
Theorem C65_from_str : forall U ord, Order ord -> forall t s,
  (forall e, parse_str U s = ErrR e -> from_str U ord t s = DeErr (EParseError e)) /\
  (from_str U ord t s = DePanic <-> parse_str U s = PanicR \/ exists b, parse_str U s = OkR b /\ deserialize ord t (SBody b) = DePanic) /\
  (from_str U ord t s = DePanic -> parse_str U s = PanicR \/ exists b, parse_str U s = OkR b /\ ~ CleanBody b) /\
  (forall d, from_str U ord t s = DeOk d <-> exists b, parse_str U s = OkR b /\ deserialize ord t (SBody b) = DeOk d).
Proof.
  intros U ord Ho t s. unfold from_str. split; [intros e ->; reflexivity|]. destruct (parse_str U s) as [b|e| |] eqn:E.
  - split; [split; [intros H; right; eauto|intros [?|(b' & [= <-] & H)]; [discriminate|exact H]]|]. split.
    + intros H. right. exists b. split; [reflexivity|]. intros HC. exact (C65_no_panic ord Ho t b HC H).
    + intros d. split; [intros H; eauto|intros (b' & [= <-] & H); exact H].
  - split; [split; [discriminate|intros [?|(b' & ? & _)]; discriminate]|]. split; [discriminate|]. intros d. split; [discriminate|intros (b' & ? & _); discriminate].
  - split; [tauto|]. split; [auto|]. intros d. split; [discriminate|intros (b' & ? & _); discriminate].
  - split; [split; [discriminate|intros [?|(b' & ? & _)]; discriminate]|]. split; [discriminate|]. intros d. split; [discriminate|intros (b' & ? & _); discriminate].
Qed.
Print Assumptions C65_from_str.
Print Assumptions C65_no_panic.
Print Assumptions C65_expression_no_panic.
Print Assumptions C65_total.
Example C65_nonvacuous : CleanBody [Attr (Borrowed (lit "a")) (EObject [(KIdent (Borrowed (lit "x")), ETuple [ENull])]); Blk (Borrowed (lit "b")) [] []].
Proof.
  constructor.
  - intros n e [[= <- <-]|[H|[]]]; [|discriminate]. repeat constructor. exists (Borrowed (lit "x")). reflexivity.
  - intros t ls bd [H|[[= <- <- <-]|[]]]; [discriminate|]. split; [reflexivity|]. constructor; intros; exfalso; auto.
  - intros n e t ls bd [[= <- <-]|[H|[]]] [H'|[[= <- <- <-]|[]]]; discriminate.
Qed.

(** ** C66: the self-describing target *)
Theorem C66_any : forall ord, Order ord -> forall e d,
  deserialize ord TAny (SExpr e) = DeOk d <-> Data e d.
Proof.
  intros ord Ho e d. revert d. induction e as [| n | b | s | l IH | l IH] using expr_ind'; intros d; rewrite deserialize_eq by exact Ho.
  - cbn. split; [intros [= <-]; constructor|intros H; inversion H; reflexivity].
  - cbn [call method_of expr_call expr_any]. unfold number_event.
    destruct (is_float n) eqn:Ef.
    + destruct (as_f64 n) as [f|] eqn:E; cbn.
      * split; [intros [= <-]; constructor; assumption|]. intros H. inversion H; subst; [congruence|]. rewrite E in *. congruence.
      * split; [discriminate|]. intros H. inversion H; subst; congruence.
    + assert (Es : is_signed n = true) by (unfold is_float in Ef; destruct (is_signed n); [reflexivity|discriminate]). rewrite Es.
      assert (Hz : forall z, as_int I64 n = Some z <-> IntegerText (cow_str (num_input n)) z /\ InRange I64 z).
      { intros z. unfold as_int. rewrite int_from_str_spec. cbn. tauto. }
      destruct (as_int I64 n) as [z|] eqn:E; cbn.
      * destruct (proj1 (Hz z) eq_refl) as [H1 H2]. split; [intros [= <-]; constructor; assumption|]. intros H. inversion H; subst; [|congruence].
        rewrite (C14_value_unique _ _ _ H1 H4). reflexivity.
      * split; [discriminate|]. intros H. inversion H; subst; [|congruence]. assert (None = Some z) by (apply Hz; auto). discriminate.
  - cbn. split; [intros [= <-]; constructor|intros H; inversion H; reflexivity].
  - destruct s as [s|s]; cbn; (split; [intros [= <-]|intros H; inversion H; reflexivity]).
    + apply (Data_string (Borrowed s)).
    + apply (Data_string (Owned s)).
  - cbn [call method_of expr_call expr_any visit]. rewrite dmap_ok.
    assert (Heq : forall ds, seq_all (deserialize ord) TAny (map SExpr l) = DeOk ds <-> Forall2 Data l ds).
    { intros ds. rewrite seq_all_ok, Forall2_map_l. clear - IH. revert ds. induction IH as [|e l He _ IH]; intros ds; split; intros H; inversion H; subst; constructor; try apply He; auto; apply IH; assumption. }
    split.
    + intros (ds & H & ->). constructor. apply Heq, H.
    + intros H. inversion H; subst. exists ds. split; [apply Heq; assumption|reflexivity].
  - pose proof (C41_object_partial ord Ho l TAny d) as H41. rewrite deserialize_eq in H41 by exact Ho.
    change (visit (deserialize ord) TAny (call ord (SExpr (EObject l)) (method_of TAny))) with
      (visit (deserialize ord) (TMap KTString TAny) (call ord (SExpr (EObject l)) (method_of (TMap KTString TAny)))).
    rewrite H41. clear H41.
    assert (Heq : forall ds, Forall2 (fun ke (kd : str * data) => (exists i, fst ke = KIdent i /\ cow_str i = fst kd) /\ deserialize ord TAny (SExpr (snd ke)) = DeOk (snd kd)) l ds <->
      Forall2 (fun ke kd => (exists i, fst ke = KIdent i /\ cow_str i = fst kd) /\ Data (snd ke) (snd kd)) l ds).
    { clear - IH. induction IH as [|e l He _ IH]; intros ds; split; intros H; inversion H as [|? ? ? ? [H1 H2]]; subst; constructor; try (split; [exact H1|apply He; exact H2]); apply IH; assumption. }
    split.
    + intros (es & -> & HN & H). constructor; [apply Heq, H|exact HN].
    + intros H. inversion H; subst. exists ds. split; [reflexivity|]. split; [assumption|]. apply Heq. assumption.
Qed.
Print Assumptions C66_any.
Example C66_nonvacuous : exists e, expression_parse ascii_ucd (lit "[1, {a = ""x"", b = null}, -2.5]") = OkR e /\
  exists f, deserialize id_ord TAny (SExpr e) = DeOk (DSeq [DInt 1; DMap [(lit "a", DStr (lit "x")); (lit "b", DUnit)]; DFloat f]).
Proof. eexists. split; [vm_compute; reflexivity|]. eexists. vm_compute. reflexivity. Qed.
