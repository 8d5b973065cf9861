(** * PropSerdeExact: C88, the first problem decides the outcome *)
From Coq Require Import Permutation.
From Verif Require Import Base Ast NomFacts Grammar Blocks BlockSpec BlockProofs PropBlocks NumConv
  Parser PropLex Serde SerdeSpec SerdeProofs PropSerde SerdeExactSpec.
Local Open Scope nat_scope.

(** ** Reading a list of entries *)
Definition entry (kv : cow * src) : mstep := MEntry (fst kv) (snd kv).
Definition ekeys (es : list (cow * src)) : list str := map (fun kv => cow_str (fst kv)) es.
Definition no_value (r : dres data) : option (dres data) :=
  match r with DeOk _ => None | r => Some r end.

Section Rec.
Variable rec : ty -> src -> dres data.
Definition reads_ok (reads : str -> ty) (es : list (cow * src)) : Prop :=
  Forall (fun kv => exists d, rec (reads (cow_str (fst kv))) (snd kv) = DeOk d) es.
Lemma map_all_prefix t es rest : reads_ok (fun _ => t) es ->
  exists ds, map_all rec KTString t (map entry es ++ rest) = dmap (app ds) (map_all rec KTString t rest).
Proof.
  intros H. induction H as [|[c s] es [d Hd] _ [ds IH]].
  - exists []. cbn. destruct (map_all rec KTString t rest); reflexivity.
  - exists ((cow_str c, d) :: ds). cbn in *. rewrite Hd. cbn. rewrite IH. destruct (map_all rec KTString t rest); reflexivity.
Qed.
Lemma ignore_map_prefix es rest : reads_ok (fun _ => TIgnored) es -> ignore_map rec (map entry es ++ rest) = ignore_map rec rest.
Proof.
  intros H. induction H as [|[c s] es [d Hd] _ IH]; [reflexivity|]. cbn in *. rewrite Hd. cbn. exact IH.
Qed.
Lemma field_type_some fs k t : field_get k fs = Some t -> field_type fs k = t.
Proof. unfold field_get, field_type. destruct (find _ fs) as [[? ?]|]; [|discriminate]. intros [= <-]. reflexivity. Qed.
Lemma field_type_none fs k : field_get k fs = None -> field_type fs k = TIgnored.
Proof. unfold field_get, field_type. destruct (find _ fs) as [[? ?]|]; [discriminate|]. reflexivity. Qed.
Lemma struct_map_prefix fs es rest : reads_ok (field_type fs) es -> NoDup (ekeys es) ->
  forall acc, (forall k, In k (ekeys es) -> ~ In k (map fst acc)) ->
  exists acc', struct_map rec fs acc (map entry es ++ rest) = struct_map rec fs acc' rest /\
    (forall k, In k (map fst acc') <-> In k (map fst acc) \/ (In k (ekeys es) /\ In k (map fst fs))).
Proof.
  intros H. induction H as [|[c s] es [d Hd] _ IH]; intros HD acc Ha.
  - exists acc. split; [reflexivity|]. cbn. tauto.
  - cbn in HD. inversion HD as [|? ? Hn HD']; subst. cbn [map entry fst snd app struct_map] in *.
    assert (Hc : field_get (cow_str c) acc = None) by (apply field_get_none, Ha; left; reflexivity).
    destruct (field_get (cow_str c) fs) as [t|] eqn:E.
    + rewrite (field_type_some _ _ _ E) in Hd. rewrite Hc, Hd. cbn [dbind].
      destruct (IH HD' ((cow_str c, d) :: acc)) as (acc' & E' & Hk).
      { intros k Hk [<-|Hi]; [contradiction|]. apply (Ha k); [right; exact Hk|exact Hi]. }
      exists acc'. split; [exact E'|]. intros k. rewrite Hk. cbn.
      assert (Hf : In (cow_str c) (map fst fs)) by (apply field_get_in in E; apply (in_map fst) in E; exact E).
      split.
      * intros [[<-|?]|[? ?]]; auto.
      * intros [?|[[<-|?] ?]]; auto.
    + rewrite (field_type_none _ _ E) in Hd. rewrite Hd. cbn [dbind].
      destruct (IH HD' acc) as (acc' & E' & Hk).
      { intros k Hk Hi. apply (Ha k); [right; exact Hk|exact Hi]. }
      exists acc'. split; [exact E'|]. intros k. rewrite Hk. cbn. apply field_get_none in E.
      split; [tauto|]. intros [?|[[<-|?] ?]]; auto. contradiction.
Qed.
(* what the visitor makes of the steps after a good prefix *)
Definition bad_outcome (reads : str -> ty) (st : mstep) (r : dres data) : Prop :=
  match st with
  | MDuplicate e => r = DeErr e
  | MPanic => r = DePanic
  | MEntry c s => no_value (rec (reads (cow_str c)) s) = Some r
  end.
Lemma visit_prefix T reads es st rest r : MapTarget T reads -> reads_ok reads es -> NoDup (ekeys es) ->
  (forall c s, st = MEntry c s -> ~ In (cow_str c) (ekeys es)) -> bad_outcome reads st r ->
  visit rec T (VMap (map entry es ++ st :: rest)) = r.
Proof.
  intros HT Hok HD Hst Hbad. destruct HT as [t| | |fs]; cbn [visit].
  - destruct (map_all_prefix t es (st :: rest) Hok) as (ds & ->). destruct st as [c s|e|]; cbn in *; [|subst; reflexivity|subst; reflexivity].
    destruct (rec t s); cbn in *; try discriminate; injection Hbad as <-; reflexivity.
  - destruct (map_all_prefix TAny es (st :: rest) Hok) as (ds & ->). destruct st as [c s|e|]; cbn in *; [|subst; reflexivity|subst; reflexivity].
    destruct (rec TAny s); cbn in *; try discriminate; injection Hbad as <-; reflexivity.
  - rewrite (ignore_map_prefix es (st :: rest) Hok). destruct st as [c s|e|]; cbn in *; [|subst; reflexivity|subst; reflexivity].
    destruct (rec TIgnored s); cbn in *; try discriminate; injection Hbad as <-; reflexivity.
  - destruct (struct_map_prefix fs es (st :: rest) Hok HD []) as (acc' & -> & Hk); [intros ? _ []|].
    destruct st as [c s|e|]; cbn in *; [|subst; reflexivity|subst; reflexivity].
    destruct (field_get (cow_str c) fs) as [t|] eqn:E.
    + rewrite (field_type_some _ _ _ E) in Hbad.
      assert (Hc : field_get (cow_str c) acc' = None).
      { apply field_get_none. rewrite Hk. intros [[]|[Hi _]]. exact (Hst _ _ eq_refl Hi). }
      rewrite Hc. destruct (rec t s); cbn in *; try discriminate; injection Hbad as <-; reflexivity.
    + rewrite (field_type_none _ _ E) in Hbad. destruct (rec TIgnored s); cbn in *; try discriminate; injection Hbad as <-; reflexivity.
Qed.
End Rec.

(** ** Objects *)
Definition member_entry (ke : okey * expr) : cow * src := (match fst ke with KIdent i => i | KExpr x => x end, SExpr (snd ke)).
Lemma object_steps_app l1 : forall seen l2, Forall (fun ke => exists i, fst ke = KIdent i) l1 ->
  NoDup (ekeys (map member_entry l1)) -> (forall k, In k (ekeys (map member_entry l1)) -> ~ In k seen) ->
  exists seen', object_steps seen (l1 ++ l2) = map entry (map member_entry l1) ++ object_steps seen' l2 /\
    forall k, In k seen' <-> In k seen \/ In k (ekeys (map member_entry l1)).
Proof.
  induction l1 as [|[k e] l1 IH]; intros seen l2 HK HD Hs.
  - exists seen. split; [reflexivity|]. cbn. tauto.
  - inversion HK as [|? ? [i Hi] HK']; subst. cbn in Hi. subst k. cbn in HD. inversion HD as [|? ? Hn HD']; subst.
    assert (E : seen_mem (cow_str i) seen = false) by (apply seen_mem_out, Hs; left; reflexivity).
    destruct (IH (cow_str i :: seen) l2 HK' HD') as (seen' & E' & Hk).
    { intros k Hk [<-|Hi]; [contradiction|]. apply (Hs k); [right; exact Hk|exact Hi]. }
    exists seen'. split; [cbn; rewrite E, E'; reflexivity|]. intros k. rewrite Hk. cbn. tauto.
Qed.
(** The elements before the first problem: identifier keys, all different, and values
    that the target accepts. *)
Definition GoodMembers (ord : blocks_t -> blocks_t) (reads : str -> ty) (l : list (okey * expr)) : Prop :=
  NoDup (map (fun ke => okey_str (fst ke)) l) /\
  Forall (fun ke => exists i d, fst ke = KIdent i /\ deserialize ord (reads (cow_str i)) (SExpr (snd ke)) = DeOk d) l.
Lemma good_members_entries ord reads l : GoodMembers ord reads l ->
  Forall (fun ke => exists i, fst ke = KIdent i) l /\ NoDup (ekeys (map member_entry l)) /\
  reads_ok (deserialize ord) reads (map member_entry l) /\ ekeys (map member_entry l) = map (fun ke => okey_str (fst ke)) l.
Proof.
  intros [HD HF].
  assert (Ek : ekeys (map member_entry l) = map (fun ke => okey_str (fst ke)) l).
  { clear HD. unfold ekeys. rewrite map_map. apply map_ext_in. intros ke Hke. rewrite Forall_forall in HF. destruct (HF ke Hke) as (i & d & Hi & _).
    unfold member_entry. rewrite Hi. reflexivity. }
  split; [|split; [rewrite Ek; exact HD|split; [|exact Ek]]].
  - eapply Forall_impl; [|exact HF]. intros ke (i & d & Hi & _). eauto.
  - unfold reads_ok. apply Forall_map. eapply Forall_impl; [|exact HF]. intros [k e] (i & d & Hi & Hd). cbn in *. subst k. eauto.
Qed.
Theorem C88_object_first_problem : forall ord, Order ord -> forall T reads, MapTarget T reads ->
  forall l1 k e l2, GoodMembers ord reads l1 ->
  let r := deserialize ord T (SExpr (EObject (l1 ++ (k, e) :: l2))) in
  (forall x, k = KExpr x -> r = DePanic) /\
  (forall i, k = KIdent i -> In (cow_str i) (map (fun ke => okey_str (fst ke)) l1) -> r = DeErr (EObjectDuplicateKey (cow_str i))) /\
  (forall i, k = KIdent i -> ~ In (cow_str i) (map (fun ke => okey_str (fst ke)) l1) ->
     (forall err, deserialize ord (reads (cow_str i)) (SExpr e) = DeErr err -> r = DeErr err) /\
     (deserialize ord (reads (cow_str i)) (SExpr e) = DePanic -> r = DePanic)).
Proof.
  intros ord Ho T reads HT l1 k e l2 HG r. destruct (good_members_entries ord reads l1 HG) as (HK & HD & Hok & Ek).
  assert (Hr : forall l, r = deserialize ord T (SExpr (EObject (l1 ++ (k, e) :: l2))) -> visit (deserialize ord) T (VMap (object_steps [] (l1 ++ (k, e) :: l2))) = l -> r = l).
  { intros l -> <-. rewrite deserialize_eq by exact Ho. destruct HT; reflexivity. }
  destruct (object_steps_app l1 [] ((k, e) :: l2) HK HD (fun _ _ H => H)) as (seen & Es & Hs). rewrite Es in Hr.
  split; [|split].
  - intros x ->. apply Hr; [reflexivity|]. cbn [object_steps]. eapply visit_prefix; [exact HT|exact Hok|exact HD|discriminate|reflexivity].
  - intros i -> Hi. apply Hr; [reflexivity|]. cbn [object_steps].
    assert (E : seen_mem (cow_str i) seen = true) by (apply seen_mem_in, Hs; right; rewrite Ek; exact Hi). rewrite E.
    eapply visit_prefix; [exact HT|exact Hok|exact HD|discriminate|reflexivity].
  - intros i -> Hi.
    assert (E : seen_mem (cow_str i) seen = false) by (apply seen_mem_out; rewrite Hs, Ek; intros [[]|H]; contradiction).
    cbn [object_steps] in Hr. rewrite E in Hr. rewrite <- Ek in Hi.
    split; [intros err H|intros H]; (apply Hr; [reflexivity|]); (eapply visit_prefix; [exact HT|exact Hok|exact HD|intros c s [= <- <-]; exact Hi|]); cbn; rewrite H; reflexivity.
Qed.
Lemma deserialize_dec ord t s : Order ord -> (exists d, deserialize ord t s = DeOk d) \/ (exists e, deserialize ord t s = DeErr e) \/ deserialize ord t s = DePanic.
Proof.
  intros Ho. pose proof (deserialize_total ord Ho t s) as H. destruct (deserialize ord t s); eauto. congruence.
Qed.
(** ... and every object either has a first problem or none. *)
Theorem C88_object_cases : forall ord, Order ord -> forall reads l, GoodMembers ord reads l \/
  exists l1 k e l2, l = l1 ++ (k, e) :: l2 /\ GoodMembers ord reads l1 /\
    ((exists x, k = KExpr x) \/
     (exists i, k = KIdent i /\ In (cow_str i) (map (fun ke => okey_str (fst ke)) l1)) \/
     (exists i, k = KIdent i /\ ~ In (cow_str i) (map (fun ke => okey_str (fst ke)) l1) /\
        ((exists err, deserialize ord (reads (cow_str i)) (SExpr e) = DeErr err) \/ deserialize ord (reads (cow_str i)) (SExpr e) = DePanic))).
Proof.
  intros ord Ho reads l. induction l as [|[k e] l IH] using rev_ind; [left; split; constructor|].
  destruct IH as [[HD HF]|(l1 & k' & e' & l2 & -> & HG & R)].
  2:{ right. exists l1, k', e', (l2 ++ [(k, e)]). split; [rewrite <- app_assoc; reflexivity|auto]. }
  assert (Hbad : forall P : Prop, (exists x, k = KExpr x) \/
     (exists i, k = KIdent i /\ In (cow_str i) (map (fun ke => okey_str (fst ke)) l)) \/
     (exists i, k = KIdent i /\ ~ In (cow_str i) (map (fun ke => okey_str (fst ke)) l) /\
        ((exists err, deserialize ord (reads (cow_str i)) (SExpr e) = DeErr err) \/ deserialize ord (reads (cow_str i)) (SExpr e) = DePanic)) ->
     P \/ exists l1 k0 e0 l2, l ++ [(k, e)] = l1 ++ (k0, e0) :: l2 /\ GoodMembers ord reads l1 /\ ((exists x, k0 = KExpr x) \/
     (exists i, k0 = KIdent i /\ In (cow_str i) (map (fun ke => okey_str (fst ke)) l1)) \/
     (exists i, k0 = KIdent i /\ ~ In (cow_str i) (map (fun ke => okey_str (fst ke)) l1) /\
        ((exists err, deserialize ord (reads (cow_str i)) (SExpr e0) = DeErr err) \/ deserialize ord (reads (cow_str i)) (SExpr e0) = DePanic)))).
  { intros P R. right. exists l, k, e, []. split; [reflexivity|]. split; [split; assumption|exact R]. }
  destruct k as [i|x]; [|apply Hbad; eauto].
  destruct (in_dec (list_eq_dec N.eq_dec) (cow_str i) (map (fun ke => okey_str (fst ke)) l)) as [Hi|Hi]; [apply Hbad; eauto|].
  destruct (deserialize_dec ord (reads (cow_str i)) (SExpr e) Ho) as [[d Hd]|R]; [|apply Hbad; right; right; eauto].
  left. split.
  - rewrite map_app. apply NoDup_app. split; [exact HD|]. split; [cbn; constructor; [intros []|constructor]|]. intros k Hk [<-|[]]. exact (Hi Hk).
  - apply Forall_app. split; [exact HF|]. constructor; [|constructor]. exists i, d. auto.
Qed.

(** ** Bodies *)
Definition to_entry (kv : cow * body_value) : cow * src := (fst kv, val_src (snd kv)).
Lemma body_steps_app l1 : forall seen l2, NoDup (keys_of l1) -> (forall k, In k (keys_of l1) -> ~ In k seen) ->
  exists seen', body_steps seen (l1 ++ l2) = map entry (map to_entry l1) ++ body_steps seen' l2 /\
    forall k, In k seen' <-> In k seen \/ In k (keys_of l1).
Proof.
  induction l1 as [|[k v] l1 IH]; intros seen l2 HD Hs.
  - exists seen. split; [reflexivity|]. cbn. tauto.
  - cbn in HD. inversion HD as [|? ? Hn HD']; subst.
    assert (E : seen_mem (cow_str k) seen = false) by (apply seen_mem_out, Hs; left; reflexivity).
    destruct (IH (cow_str k :: seen) l2 HD') as (seen' & E' & Hk).
    { intros k' Hk [<-|Hi]; [contradiction|]. apply (Hs k'); [right; exact Hk|exact Hi]. }
    exists seen'. split; [cbn [app body_steps]; rewrite E, E'; destruct v; reflexivity|]. intros k'. rewrite Hk. cbn. tauto.
Qed.
(** The named sources of a body ([sources]: its attributes in order, then its blocks, per
    type) before the first problem. *)
Definition GoodSources (ord : blocks_t -> blocks_t) (reads : str -> ty) (l : list (str * src)) : Prop :=
  NoDup (map fst l) /\ Forall (fun ns => exists d, deserialize ord (reads (fst ns)) (snd ns) = DeOk d) l.
Theorem C88_body_first_problem : forall ord, Order ord -> forall T reads, MapTarget T reads ->
  forall b l1 n s l2, sources ord b = l1 ++ (n, s) :: l2 -> GoodSources ord reads l1 ->
  let r := deserialize ord T (SBody b) in
  (In n (map fst l1) -> (forall e, s = SExpr e -> r = DeErr (EBodyDuplicateKey n)) /\ (forall bb, s = SBlock bb -> r = DePanic)) /\
  (~ In n (map fst l1) ->
     (forall err, deserialize ord (reads n) s = DeErr err -> r = DeErr err) /\
     (deserialize ord (reads n) s = DePanic -> r = DePanic)).
Proof.
  intros ord Ho T reads HT b l1 n s l2 E [HD HF] r.
  rewrite sources_entries in E. apply map_eq_app in E as (m1 & m2 & Eb & <- & E2). destruct m2 as [|[k v] m2]; [discriminate|].
  injection E2 as <- <- E2.
  assert (Ek : map fst (map (fun kv : cow * body_value => (cow_str (fst kv), val_src (snd kv))) m1) = keys_of m1) by (rewrite map_map; reflexivity).
  rewrite Ek in *.
  assert (HD' : NoDup (ekeys (map to_entry m1))) by (unfold ekeys; rewrite map_map; exact HD).
  assert (Hok : reads_ok (deserialize ord) reads (map to_entry m1)).
  { unfold reads_ok. rewrite Forall_map; rewrite Forall_map in HF. exact HF. }
  assert (Hr : forall x, visit (deserialize ord) T (VMap (body_steps [] (build_map_access_iter ord b))) = x -> r = x).
  { intros x <-. unfold r. rewrite deserialize_eq by exact Ho. reflexivity. }
  rewrite Eb in Hr. destruct (body_steps_app m1 [] ((k, v) :: m2) HD (fun _ _ H => H)) as (seen & Es & Hs). rewrite Es in Hr. clear Es.
  split.
  - intros Hi. assert (Em : seen_mem (cow_str k) seen = true) by (apply seen_mem_in, Hs; auto). cbn [body_steps] in Hr. rewrite Em in Hr.
    split; [intros e Ev|intros bb Ev]; destruct v as [e0|b0]; try discriminate; apply Hr;
      (eapply visit_prefix; [exact HT|exact Hok|exact HD'|discriminate|reflexivity]).
  - intros Hi. assert (Em : seen_mem (cow_str k) seen = false) by (apply seen_mem_out; rewrite Hs; intros [[]|H]; contradiction).
    assert (Hr' : forall x, visit (deserialize ord) T (VMap (map entry (map to_entry m1) ++ MEntry k (val_src v) :: body_steps (cow_str k :: seen) m2)) = x -> r = x).
    { intros x Hx. apply Hr. rewrite <- Hx. cbn [body_steps]. rewrite Em. destruct v; reflexivity. }
    assert (Hi' : ~ In (cow_str k) (ekeys (map to_entry m1))) by (unfold ekeys; rewrite map_map; exact Hi).
    split; [intros err H|intros H]; apply Hr'; (eapply visit_prefix; [exact HT|exact Hok|exact HD'|intros c s0 [= <- <-]; exact Hi'|]); cbn in *; rewrite H; reflexivity.
Qed.
Theorem C88_sources_cases : forall ord, Order ord -> forall reads (l : list (str * src)), GoodSources ord reads l \/
  exists l1 n s l2, l = l1 ++ (n, s) :: l2 /\ GoodSources ord reads l1 /\
    (In n (map fst l1) \/ (~ In n (map fst l1) /\ ((exists err, deserialize ord (reads n) s = DeErr err) \/ deserialize ord (reads n) s = DePanic))).
Proof.
  intros ord Ho reads l. induction l as [|[n s] l IH] using rev_ind; [left; split; constructor|].
  destruct IH as [[HD HF]|(l1 & n' & s' & l2 & -> & HG & R)].
  2:{ right. exists l1, n', s', (l2 ++ [(n, s)]). split; [rewrite <- app_assoc; reflexivity|auto]. }
  destruct (in_dec (list_eq_dec N.eq_dec) n (map fst l)) as [Hi|Hi].
  { right. exists l, n, s, []. split; [reflexivity|]. split; [split; assumption|]. auto. }
  destruct (deserialize_dec ord (reads n) s Ho) as [[d Hd]|R].
  2:{ right. exists l, n, s, []. split; [reflexivity|]. split; [split; assumption|]. auto. }
  left. split.
  - rewrite map_app. apply NoDup_app. split; [exact HD|]. split; [cbn; constructor; [intros []|constructor]|]. intros k Hk [<-|[]]. exact (Hi Hk).
  - apply Forall_app. split; [exact HF|]. constructor; [|constructor]. exists d. exact Hd.
Qed.

(** ** Structs: the first field that is missing *)
Lemma struct_finish_missing fs1 f t fs2 acc : (forall t', t <> TOption t') -> field_get f acc = None ->
  (forall f' t', In (f', t') fs1 -> In f' (map fst acc) \/ exists t'', t' = TOption t'') ->
  struct_finish (fs1 ++ (f, t) :: fs2) acc = DeErr (ECustom (CMissingField f)).
Proof.
  intros Ht Hf. induction fs1 as [|[f' t'] fs1 IH]; intros H; cbn.
  - rewrite Hf. destruct t; try reflexivity. exfalso. eapply Ht. reflexivity.
  - rewrite IH by (intros f0 t0 Hi; apply (H f0 t0); right; exact Hi). destruct (field_get f' acc) eqn:E; [reflexivity|].
    destruct (H f' t' (or_introl eq_refl)) as [Hi|[t'' ->]]; [|reflexivity]. apply field_get_none in E. contradiction.
Qed.
Theorem C88_struct_missing : forall ord, Order ord -> forall fs1 f t fs2 b, let fs := fs1 ++ (f, t) :: fs2 in
  GoodSources ord (field_type fs) (sources ord b) -> (forall t', t <> TOption t') -> ~ In f (map fst (sources ord b)) ->
  (forall f' t', In (f', t') fs1 -> In f' (map fst (sources ord b)) \/ exists t'', t' = TOption t'') ->
  deserialize ord (TStruct fs) (SBody b) = DeErr (ECustom (CMissingField f)).
Proof.
  intros ord Ho fs1 f t fs2 b fs [HD HF] Ht Hf H1. rewrite deserialize_eq by exact Ho. cbn [call]. unfold body_any.
  rewrite sources_entries in *. set (m := build_map_access_iter ord b) in *.
  assert (Ek : map fst (map (fun kv : cow * body_value => (cow_str (fst kv), val_src (snd kv))) m) = keys_of m) by (rewrite map_map; reflexivity).
  rewrite Ek in *.
  destruct (body_steps_app m [] [] HD (fun _ _ H => H)) as (seen & Es & _). rewrite app_nil_r in Es. rewrite Es.
  assert (Hok : reads_ok (deserialize ord) (field_type fs) (map to_entry m)) by (unfold reads_ok; rewrite Forall_map; rewrite Forall_map in HF; exact HF).
  assert (HD' : NoDup (ekeys (map to_entry m))) by (unfold ekeys; rewrite map_map; exact HD).
  cbn [visit]. destruct (struct_map_prefix (deserialize ord) fs (map to_entry m) (body_steps seen []) Hok HD' []) as (acc & -> & Hk); [intros ? _ []|].
  cbn [body_steps struct_map dbind]. unfold fs in *.
  assert (Hk' : forall k, In k (map fst acc) <-> In k (keys_of m) /\ In k (map fst (fs1 ++ (f, t) :: fs2))).
  { intros k. rewrite Hk. unfold ekeys. rewrite map_map. cbn. tauto. }
  rewrite (struct_finish_missing fs1 f t fs2 acc); [reflexivity|exact Ht| |].
  - apply field_get_none. rewrite Hk'. tauto.
  - intros f' t' Hi. destruct (H1 f' t' Hi) as [H|H]; [|auto]. left. apply Hk'. split; [exact H|]. apply in_map_iff. exists (f', t').
    split; [reflexivity|]. apply in_app_iff. auto.
Qed.

(** ** Sequences *)
Theorem C88_sequence_first_problem : forall ord, Order ord -> forall t l1 e l2,
  Forall (fun x => exists d, deserialize ord t (SExpr x) = DeOk d) l1 ->
  let r := deserialize ord (TSeq t) (SExpr (ETuple (l1 ++ e :: l2))) in
  (forall err, deserialize ord t (SExpr e) = DeErr err -> r = DeErr err) /\
  (deserialize ord t (SExpr e) = DePanic -> r = DePanic).
Proof.
  intros ord Ho t l1 e l2 HF r.
  assert (Hr : forall x, dmap DSeq (seq_all (deserialize ord) t (map SExpr (l1 ++ e :: l2))) = x -> r = x).
  { intros x <-. unfold r. rewrite deserialize_eq by exact Ho. reflexivity. }
  assert (Hp : exists ds, seq_all (deserialize ord) t (map SExpr (l1 ++ e :: l2)) = dmap (app ds) (seq_all (deserialize ord) t (map SExpr (e :: l2)))).
  { clear Hr r. generalize (eq_refl (seq_all (deserialize ord) t (map SExpr (e :: l2)))).
    generalize (seq_all (deserialize ord) t (map SExpr (e :: l2))) at 2 3. intros R ER. induction HF as [|x l1 [d Hd] _ [ds IH]].
    - exists []. cbn [app]. rewrite ER. destruct R; reflexivity.
    - exists (d :: ds). cbn [app map seq_all]. rewrite Hd. cbn [dbind]. rewrite IH. destruct R; reflexivity. }
  destruct Hp as (ds & Hp). rewrite Hp in Hr. cbn [map seq_all] in Hr.
  split; [intros err H|intros H]; apply Hr; rewrite H; reflexivity.
Qed.
Print Assumptions C88_object_first_problem.
Print Assumptions C88_object_cases.
Print Assumptions C88_body_first_problem.
Print Assumptions C88_sources_cases.
Print Assumptions C88_struct_missing.
Print Assumptions C88_sequence_first_problem.

(** A body with a good attribute, then a repeated one; the block after it is not reached. *)
Definition body88 : body_t :=
  [Attr (Borrowed (lit "a")) (EBool true); Blk (Borrowed (lit "x")) [LIdent (Borrowed (lit "l"))] []; Attr (Borrowed (lit "a")) ENull].
Example C88_nonvacuous :
  exists l1 s l2, sources id_ord body88 = l1 ++ (lit "a", s) :: l2 /\ GoodSources id_ord (fun _ => TAny) l1 /\ In (lit "a") (map fst l1) /\
    deserialize id_ord TAny (SBody body88) = DeErr (EBodyDuplicateKey (lit "a")).
Proof.
  exists [(lit "a", SExpr (EBool true))], (SExpr ENull), [(lit "x", SBlock (BLabels [] [(LIdent (Borrowed (lit "l")), BBody [[]])]))].
  split; [vm_compute; reflexivity|]. split; [|split; [left; reflexivity|vm_compute; reflexivity]].
  split; [repeat constructor; intros []|]. constructor; [|constructor]. exists (DBool true). vm_compute. reflexivity.
Qed.
