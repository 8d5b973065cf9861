(** * DenProofs: the deserialisers accept exactly what [DenSpec] describes *)
From Coq Require Import Permutation ZArith Reals SpecFloat Lia.
From Verif Require Import Base Ast NomFacts Blocks BlockSpec BlockProofs PropBlocks BlockExactSpec BlockExact PropBlockExact NumConv NumSpec NumProofs PropNum FloatConv IoSpec
  Serde SerdeSpec SerdeProofs PropSerde SerdeErrSpec SerdeErrProofs SerdeExactSpec PropSerdeExact PropWrap
  Grammar FloatSpec FloatProofs PropFloat PropFloatRead PropSerdeScalar DenSpec.
Local Open Scope nat_scope.

Definition src_of (x : node) : src :=
  match x with Expr e => SExpr e | Body b => SBody b | Group bs => SBlock (BBody bs) end.
(* what is handed out for a list of members *)
Definition Hands (es : list (cow * src)) (ms : list (str * node)) : Prop :=
  Forall2 (fun e m => cow_str (fst e) = fst m /\ snd e = src_of (snd m)) es ms.
Lemma Hands_keys es ms : Hands es ms -> map (fun e => cow_str (fst e)) es = map fst ms.
Proof. induction 1 as [|e m es ms [E _] _ IH]; cbn; congruence. Qed.
Lemma Hands_in es ms m : Hands es ms -> In m ms -> exists c, In (c, src_of (snd m)) es /\ cow_str c = fst m.
Proof.
  induction 1 as [|[c s] m' es ms [E E'] _ IH]; intros []; cbn in *.
  - subst. exists c. auto.
  - destruct (IH H) as (c' & ? & ?). exists c'. auto.
Qed.
Lemma Hands_in' es ms c s : Hands es ms -> In (c, s) es -> exists y, In (cow_str c, y) ms /\ s = src_of y.
Proof.
  induction 1 as [|[c' s'] [n y] es ms [E E'] _ IH]; intros []; cbn in *.
  - injection H as -> ->. subst. exists y. auto.
  - destruct (IH H) as (y' & ? & ?). exists y'. auto.
Qed.

Section Rec.
Variable rec : ty -> src -> dres data.
Lemma map_all_hands k t es ms ds : Hands es ms ->
  (map_all rec k t (map entry es) = DeOk ds <->
   KeysFit k (map fst ms) /\ Forall2 (fun m e => fst e = fst m /\ rec t (src_of (snd m)) = DeOk (snd e)) ms ds).
Proof.
  intros H. revert ds. induction H as [|[c s] [n y] es ms [E E'] _ IH]; intros ds; cbn [map map_all entry fst snd].
  - split; [intros [= <-]; split; [destruct k; cbn; constructor|constructor]|intros [_ H]; inversion H; reflexivity].
  - cbn in E, E'. subst n s.
    assert (Hk : key_ok k c = true /\ KeysFit k (map fst ms) <-> KeysFit k (cow_str c :: map fst ms)).
    { destruct k; cbn; [tauto|split; [intros [[=] _]|discriminate]|]. split.
      - intros [Hc HF]. constructor; [|exact HF]. destruct (cow_str c) as [|x [|? ?]]; try discriminate. eauto.
      - intros H. inversion H as [|? ? [x Hx] HF]; subst. rewrite Hx. auto. }
    rewrite <- Hk. destruct (key_ok k c); [|split; [discriminate|intros [[[=] _] _]]]. rewrite dbind_ok. split.
    + intros (d & Hd & H). apply dmap_ok in H as (ds' & H & ->). apply IH in H as [H1 H2]. repeat split; auto.
    + intros [[_ H1] H2]. inversion H2 as [|? [k' d] ? ds' [Hk' Hd] Hds]; subst. cbn in *. exists d. split; [exact Hd|]. apply dmap_ok. exists ds'.
      split; [apply IH; auto|congruence].
Qed.
Lemma ignore_map_hands es ms u : Hands es ms ->
  (ignore_map rec (map entry es) = DeOk u <-> Forall (fun m => exists d, rec TIgnored (src_of (snd m)) = DeOk d) ms).
Proof.
  intros H. destruct u. induction H as [|[c s] [n y] es ms [E E'] _ IH]; cbn [map ignore_map entry fst snd].
  - split; [constructor|reflexivity].
  - cbn in E, E'. subst n s. rewrite dbind_ok. split.
    + intros (d & Hd & H). constructor; [cbn; eauto|apply IH, H].
    + intros H. inversion H as [|? ? [d Hd] HF]; subst. exists d. split; [exact Hd|apply IH, HF].
Qed.
Lemma ignore_seq_ok l u : ignore_seq rec l = DeOk u <-> Forall (fun s => exists d, rec TIgnored s = DeOk d) l.
Proof.
  destruct u. induction l as [|s l IH]; cbn; [split; [constructor|reflexivity]|]. rewrite dbind_ok. split.
  - intros (d & Hd & H). constructor; [eauto|apply IH, H].
  - intros H. inversion H as [|? ? [d Hd] HF]; subst. exists d. split; [exact Hd|apply IH, HF].
Qed.
Lemma seq_types_first ts : forall l ds, seq_types rec ts l = DeOk ds <->
  exists here rest, l = here ++ rest /\ Forall3 (fun t s d => rec t s = DeOk d) ts here ds.
Proof.
  induction ts as [|t ts IH]; intros l ds; cbn [seq_types].
  - split; [intros [= <-]; exists [], l; split; [reflexivity|constructor]|]. intros (here & rest & _ & H). inversion H; reflexivity.
  - destruct l as [|s l]; [split; [discriminate|]|].
    + intros (here & rest & E & H). inversion H; subst. discriminate.
    + rewrite dbind_ok. split.
      * intros (d & Hd & H). apply dmap_ok in H as (ds' & H & ->). apply IH in H as (here & rest & -> & H).
        exists (s :: here), rest. split; [reflexivity|]. constructor; assumption.
      * intros (here & rest & E & H). inversion H as [|? s' d ? here' ds' Hd Hds]; subst. injection E as <- ->.
        exists d. split; [exact Hd|]. apply dmap_ok. exists ds'. split; [apply IH; eauto|reflexivity].
Qed.
Lemma struct_hands fs es ms vs : Hands es ms -> NoDup (map fst ms) -> NoDup (map fst fs) ->
  (dbind (struct_map rec fs [] (map entry es)) (fun acc => struct_finish fs acc) = DeOk vs <->
   (forall n y, In (n, y) ms -> ~ In n (map fst fs) -> exists d, rec TIgnored (src_of y) = DeOk d) /\
   Forall2 (fun ft v => fst v = fst ft /\
      ((exists y, In (fst ft, y) ms /\ rec (snd ft) (src_of y) = DeOk (snd v)) \/
       (~ In (fst ft) (map fst ms) /\ (exists t, snd ft = TOption t) /\ snd v = DNone))) fs vs).
Proof.
  intros HH HD Hfs.
  assert (HDe : NoDup (map (fun e : cow * src => cow_str (fst e)) es)) by (rewrite (Hands_keys _ _ HH); exact HD).
  destruct (struct_map_ok rec fs fst snd es [] HDe (NoDup_nil _) (fun _ _ H => H)) as [S1 S2].
  change (map (step_of fst snd) es) with (map entry es) in *.
  rewrite dbind_ok. split.
  - intros (acc & Hacc & Hfin). destruct (S1 acc Hacc) as (HN & F1 & F2 & F3). split.
    + intros n y Hy Hno. destruct (Hands_in _ _ _ HH Hy) as (c & Hc & Ec). cbn in *. subst n. exact (F1 _ Hc Hno).
    + apply struct_finish_ok in Hfin. revert Hfin. apply Forall2_in_weaken. intros [f t] v Hft [Ef Hv]. cbn in *. split; [exact Ef|].
      pose proof (proj2 (field_get_some f fs t Hfs) Hft) as Hg. destruct Hv as [Hv|(Hv & Ht & Hd)].
      * left. apply (field_get_some _ _ _ HN) in Hv. apply F2 in Hv as [[]|([c s] & t' & Hkv & Hk & Ht' & Hr)]. cbn in *. rewrite Hg in Ht'. injection Ht' as <-.
        destruct (Hands_in' _ _ _ _ HH Hkv) as (y & Hy & ->). exists y. rewrite <- Hk. split; assumption.
      * right. split; [|auto]. intros Hi. apply in_map_iff in Hi as ([f' y] & E & Hy). cbn in E. subst f'. destruct (Hands_in _ _ _ HH Hy) as (c & Hc & Ec). cbn in *.
        destruct (F3 _ t Hc) as (d & Hd'); [cbn; rewrite Ec; exact Hg|]. apply field_get_none in Hv. apply Hv.
        apply in_map_iff. exists (f, d). split; [reflexivity|]. apply F2. right. exists (c, src_of y), t. auto.
  - intros (Hign & Hvs).
    assert (G2 : forall kv t, In kv es -> field_get (cow_str (fst kv)) fs = Some t -> exists d, rec t (snd kv) = DeOk d).
    { intros [c s] t Hkv Hg. cbn in *. destruct (Hands_in' _ _ _ _ HH Hkv) as (y & Hy & ->). apply field_get_in in Hg. clear - Hvs Hg Hy HD.
      induction Hvs as [|[f t0] v l l' [Ef Hv] _ IH]; [destruct Hg|]. destruct Hg as [[= -> ->]|Hg]; [|auto]. cbn in *.
      destruct Hv as [(y' & Hy' & Hd)|(Hno & _)].
      - apply (field_get_some _ _ _ HD) in Hy, Hy'. rewrite Hy in Hy'. injection Hy' as <-. eauto.
      - exfalso. apply Hno. apply (in_map fst) in Hy. exact Hy. }
    destruct S2 as (acc & Hacc); [|exact G2|].
    { intros [c s] Hkv Hno. cbn in *. destruct (Hands_in' _ _ _ _ HH Hkv) as (y & Hy & ->). eapply Hign; eassumption. }
    destruct (S1 acc Hacc) as (HN & F1 & F2 & F3).
    exists acc. split; [exact Hacc|]. apply struct_finish_ok.
    revert Hvs. apply Forall2_in_weaken. intros [f t] v Hft [Ef Hv]. cbn in *. split; [exact Ef|].
    pose proof (proj2 (field_get_some f fs t Hfs) Hft) as Hg. destruct Hv as [(y & Hy & Hd)|(Hno & Ht & Hd)].
    + left. apply (field_get_some _ _ _ HN). apply F2. right. destruct (Hands_in _ _ _ HH Hy) as (c & Hc & Ec). exists (c, src_of y), t. auto.
    + right. split; [|auto]. apply field_get_none. intros Hi. apply in_map_iff in Hi as ([f' d'] & E & Hi). cbn in E. subst f'.
      apply F2 in Hi as [[]|([c s] & t' & Hkv & Hk & _ & _)]. cbn in *. destruct (Hands_in' _ _ _ _ HH Hkv) as (y & Hy & ->).
      apply Hno. rewrite <- Hk. apply (in_map fst) in Hy. exact Hy.
Qed.
(* a map access read with success handed out entries only, each of them read *)
Lemma visit_map_ok t l d : visit rec t (VMap l) = DeOk d -> exists es, l = map entry es /\ forall c s, In (c, s) es -> exists t' d', rec t' s = DeOk d'.
Proof.
  assert (HM : forall k t l ds, map_all rec k t l = DeOk ds -> exists es, l = map entry es /\ forall c s, In (c, s) es -> exists t' d', rec t' s = DeOk d').
  { clear. intros k t l. induction l as [|[c s|e|] l IH]; cbn; intros ds H; try discriminate.
    - exists []. split; [reflexivity|intros ? ? []].
    - destruct (key_ok k c); [|discriminate]. apply dbind_ok in H as (d & Hd & H). apply dmap_ok in H as (ds' & H & _).
      destruct (IH _ H) as (es & -> & He). exists ((c, s) :: es). split; [reflexivity|]. intros c' s' [[= <- <-]|Hi]; eauto. }
  assert (HS : forall fs l acc acc', struct_map rec fs acc l = DeOk acc' -> exists es, l = map entry es /\ forall c s, In (c, s) es -> exists t' d', rec t' s = DeOk d').
  { clear. intros fs l. induction l as [|[c s|e|] l IH]; cbn; intros acc acc' H; try discriminate.
    - exists []. split; [reflexivity|intros ? ? []].
    - destruct (field_get (cow_str c) fs) as [t|].
      + destruct (field_get (cow_str c) acc); [discriminate|]. apply dbind_ok in H as (d & Hd & H).
        destruct (IH _ _ H) as (es & -> & He). exists ((c, s) :: es). split; [reflexivity|]. intros c' s' [[= <- <-]|Hi]; eauto.
      + apply dbind_ok in H as (d & Hd & H).
        destruct (IH _ _ H) as (es & -> & He). exists ((c, s) :: es). split; [reflexivity|]. intros c' s' [[= <- <-]|Hi]; eauto. }
  assert (HI : forall l u, ignore_map rec l = DeOk u -> exists es, l = map entry es /\ forall c s, In (c, s) es -> exists t' d', rec t' s = DeOk d').
  { clear. intros l. induction l as [|[c s|e|] l IH]; cbn; intros u H; try discriminate.
    - exists []. split; [reflexivity|intros ? ? []].
    - apply dbind_ok in H as (d & Hd & H).
      destruct (IH _ H) as (es & -> & He). exists ((c, s) :: es). split; [reflexivity|]. intros c' s' [[= <- <-]|Hi]; eauto. }
  destruct t; cbn; try discriminate; rewrite dmap_ok; intros (x & H & _); [eauto| |eauto|eauto].
  apply dbind_ok in H as (acc & H & _). eauto.
Qed.
End Rec.

(** ** Members and items are what the deserialisers hand out *)
Lemma entry_inj a b : entry a = entry b -> a = b.
Proof. destruct a, b. unfold entry. cbn. intros [= -> ->]. reflexivity. Qed.
Lemma map_entry_inj l : forall l', map entry l = map entry l' -> l = l'.
Proof. induction l as [|a l IH]; intros [|b l'] H; try discriminate; [reflexivity|]. cbn [map] in H. injection H as H1 H2 H3. f_equal; [apply entry_inj; unfold entry; congruence|apply IH, H3]. Qed.
Lemma map_entry_bad es l st l' : map entry es = l ++ st :: l' -> (exists e, st = MDuplicate e) \/ st = MPanic -> False.
Proof.
  intros E H. assert (Hi : In st (map entry es)) by (rewrite E; apply in_app_iff; right; left; reflexivity).
  apply in_map_iff in Hi as (e & <- & _). destruct H as [[? H]|H]; discriminate.
Qed.
Lemma src_of_inj x y : src_of x = src_of y -> x = y.
Proof. destruct x, y; cbn; congruence. Qed.
Lemma Hands_unique es ms ms' : Hands es ms -> Hands es ms' -> ms = ms'.
Proof.
  intros H. revert ms'. induction H as [|e [n y] es ms [E1 E2] _ IH]; intros ms' H'; inversion H' as [|? [n' y'] ? ? [E1' E2']]; subst; [reflexivity|].
  cbn in *. f_equal; [|auto]. f_equal; [congruence|]. apply src_of_inj. congruence.
Qed.

Section Order.
Variable ord : blocks_t -> blocks_t.
Hypothesis Ho : Order ord.
Notation de := (deserialize ord).

Lemma last_run_dec r : (forall c, In c r -> b_labels c = []) \/ exists c, In c r /\ b_labels c <> [].
Proof.
  induction r as [|c r IH]; [left; intros ? []|]. destruct (b_labels c) as [|l ls] eqn:E.
  - destruct IH as [H|(c' & Hc & H)]; [left; intros c' [<-|Hc]; auto|right; exists c'; split; [right; exact Hc|exact H]].
  - right. exists c. split; [left; reflexivity|congruence].
Qed.
Lemma labelled_panics r : (exists c, In c r /\ b_labels c <> []) -> forall t, de t (SBlock (extend bdefault (run_of r))) = DePanic.
Proof.
  intros (c & Hc & Hl). eapply C45_labels_refuted; [exact Ho|apply Built_exists|].
  exists (b_labels c), (b_body c). split; [|exact Hl]. apply in_map_iff. eauto.
Qed.
Definition body_entries (b : body_t) : list (cow * src) :=
  map (fun a => (fst a, SExpr (snd a))) (attributes_of b) ++ map (fun kb => (fst kb, SBlock (snd kb))) (ord (blocks_new (blocks_of b))).
Lemma body_entries_eq b : body_entries b = map (fun kv => (fst kv, val_src (snd kv))) (build_map_access_iter ord b).
Proof. unfold body_entries, build_map_access_iter. rewrite map_app, !map_map. reflexivity. Qed.
Lemma body_members b es : body_steps [] (build_map_access_iter ord b) = map entry es ->
  (forall c s, In (c, s) es -> exists t' d', de t' s = DeOk d') -> exists ms, Members (Body b) ms /\ Hands es ms.
Proof.
  intros E Hr.
  destruct (ListDec.NoDup_dec (list_eq_dec N.eq_dec) (keys_of (build_map_access_iter ord b))) as [HD|HD].
  2:{ destruct (body_steps_stale (build_map_access_iter ord b) []) as (l1 & kv & l2 & _ & _ & _ & _ & E2); [tauto|].
      rewrite E in E2. exfalso. eapply map_entry_bad; [exact E2|]. destruct (snd kv); eauto. }
  rewrite body_steps_fresh in E; [|exact HD|intros ? ? []].
  assert (Ees : es = body_entries b).
  { rewrite body_entries_eq. apply map_entry_inj. rewrite <- E, map_map. reflexivity. }
  subst es. unfold body_entries in *.
  assert (Hg : exists groups, Hands (map (fun kb => (fst kb, SBlock (snd kb))) (ord (blocks_new (blocks_of b)))) groups /\
    Forall (fun g => exists r, LastRun (fst g) (block_list b) r /\ (forall c, In c r -> b_labels c = []) /\ snd g = Group (map b_body r)) groups).
  { assert (Hall : forall kb, In kb (ord (blocks_new (blocks_of b))) -> exists r, LastRun (cow_str (fst kb)) (block_list b) r /\ (forall c, In c r -> b_labels c = []) /\ snd kb = BBody (map b_body r)).
    { intros [k x] Hx. assert (Hk : exists t' d', de t' (SBlock x) = DeOk d').
      { apply (Hr k). apply in_app_iff. right. apply in_map_iff. exists (k, x). auto. }
      apply (Permutation_in _ (Permutation_sym (Ho _))) in Hx. destruct (blocks_new_in _ _ _ Hx) as (r & HL & ->). rewrite blocks_list in HL.
      destruct (last_run_dec r) as [Hu|Hl].
      - exists r. split; [exact HL|]. split; [exact Hu|]. cbn [snd]. unfold bdefault. rewrite extend_unlabelled by exact Hu. reflexivity.
      - exfalso. destruct Hk as (t' & d' & Hk). rewrite (labelled_panics r Hl) in Hk. discriminate. }
    clear - Hall. induction (ord (blocks_new (blocks_of b))) as [|kb L IH]; [exists []; split; constructor|].
    destruct IH as (gs & H1 & H2); [intros kb' Hi; apply Hall; right; exact Hi|].
    destruct (Hall kb (or_introl eq_refl)) as (r & HL & Hu & Ek). exists ((cow_str (fst kb), Group (map b_body r)) :: gs). split.
    - constructor; [|exact H1]. cbn. rewrite Ek. auto.
    - constructor; [|exact H2]. cbn. eauto. }
  destruct Hg as (groups & HG & HF).
  assert (HA : Hands (map (fun a => (fst a, SExpr (snd a))) (attributes_of b)) (map (fun a => (fst a, Expr (snd a))) (attr_list b))).
  { rewrite <- attributes_list, map_map. clear. induction (attributes_of b) as [|a l IH]; [constructor|]. constructor; [cbn; auto|exact IH]. }
  assert (HH : Hands (map (fun a => (fst a, SExpr (snd a))) (attributes_of b) ++ map (fun kb => (fst kb, SBlock (snd kb))) (ord (blocks_new (blocks_of b))))
    (map (fun a => (fst a, Expr (snd a))) (attr_list b) ++ groups)) by (apply Forall2_app; assumption).
  exists (map (fun a => (fst a, Expr (snd a))) (attr_list b) ++ groups). split; [|exact HH].
  eapply Mem_body with (groups := groups); [|exact HF|reflexivity|].
  - intros x. rewrite <- (Hands_keys _ _ HG), map_map. cbn [fst]. rewrite (ord_keys ord _ x Ho). rewrite blocks_list. reflexivity.
  - rewrite <- (Hands_keys _ _ HH). rewrite map_app, !map_map. cbn [fst]. unfold keys_of, build_map_access_iter in HD. rewrite map_app, !map_map in HD. exact HD.
Qed.
Lemma object_members l es : object_steps [] l = map entry es -> exists ms, Members (Expr (EObject l)) ms /\ Hands es ms.
Proof.
  intros E.
  destruct (Forall_dec _ ident_key_dec l) as [Hk|Hk].
  2:{ destruct (object_steps_bad l []) as (l1 & st & Es & Hst).
      - intros (H & _). apply Hk. rewrite Forall_forall. exact H.
      - rewrite E in Es. exfalso. eapply map_entry_bad; eassumption. }
  destruct (ListDec.NoDup_dec (list_eq_dec N.eq_dec) (map (fun ke => okey_str (fst ke)) l)) as [HD|HD].
  2:{ destruct (object_steps_bad l []) as (l1 & st & Es & Hst); [tauto|]. rewrite E in Es. exfalso. eapply map_entry_bad; eassumption. }
  rewrite object_steps_fresh in E; [|rewrite Forall_forall in Hk; exact Hk|exact HD|intros ? _ []].
  assert (Ees : es = map (fun ke => (match fst ke with KIdent i => i | KExpr t => t end, SExpr (snd ke))) l).
  { apply map_entry_inj. rewrite <- E, map_map. reflexivity. }
  subst es. exists (map (fun ke => (okey_str (fst ke), Expr (snd ke))) l). split.
  - constructor; [|rewrite map_map; exact HD]. clear - Hk. induction Hk as [|[k e] l [i Hi] _ IH]; [constructor|]. cbn in Hi. subst k.
    constructor; [|exact IH]. exists i. auto.
  - clear - Hk. induction Hk as [|[k e] l [i Hi] _ IH]; [constructor|]. cbn in Hi. subst k. constructor; [|exact IH]. cbn. auto.
Qed.
Lemma members_sound x es : call ord (src_of x) MAny = VMap (map entry es) ->
  (forall c s, In (c, s) es -> exists t' d', de t' s = DeOk d') -> exists ms, Members x ms /\ Hands es ms.
Proof.
  intros E Hr. destruct x as [e|b|[|b [|b' bs]]]; cbn in E; try discriminate.
  - destruct e as [|n|b|[s|s]|l|l]; cbn in E; try discriminate.
    + pose proof (number_event_shape n) as Hn. rewrite E in Hn. destruct Hn.
    + injection E as E. apply object_members, E.
  - injection E as E. apply body_members; assumption.
  - injection E as E. destruct (body_members b es E Hr) as (ms & H1 & H2). exists ms. split; [constructor; exact H1|exact H2].
Qed.
Lemma body_hands b ms : Members (Body b) ms ->
  exists es ms', body_steps [] (build_map_access_iter ord b) = map entry es /\ Hands es ms' /\ Permutation ms ms'.
Proof.
  intros H. inversion H as [|? groups ? Hk HF Ems HD|]; subst.
  set (attrs := map (fun a => (fst a, Expr (snd a))) (attr_list b)) in *.
  assert (Hall : forall kb, In kb (ord (blocks_new (blocks_of b))) -> exists r, LastRun (cow_str (fst kb)) (block_list b) r /\ (forall c, In c r -> b_labels c = []) /\ snd kb = BBody (map b_body r)
     /\ In (cow_str (fst kb), Group (map b_body r)) groups).
  { intros [k x] Hx. assert (Hin : In (cow_str k) (map fst groups)).
    { apply Hk. rewrite <- blocks_list. apply (ord_keys ord _ _ Ho). apply in_map_iff. exists (k, x). auto. }
    apply in_map_iff in Hin as ([n g] & En & Hg). cbn in En. subst n. rewrite Forall_forall in HF. destruct (HF _ Hg) as (r & HL & Hu & Eg). cbn in HL, Eg. subst g.
    apply (Permutation_in _ (Permutation_sym (Ho _))) in Hx. destruct (blocks_new_in _ _ _ Hx) as (r' & HL' & ->). rewrite blocks_list in HL'.
    rewrite (LastRun_unique _ _ _ _ HL' HL). exists r. cbn. split; [exact HL|]. split; [exact Hu|]. split; [|exact Hg].
    unfold bdefault. rewrite extend_unlabelled by exact Hu. reflexivity. }
  assert (Hg : exists groups', Hands (map (fun kb => (fst kb, SBlock (snd kb))) (ord (blocks_new (blocks_of b)))) groups' /\ incl groups' groups).
  { clear - Hall. induction (ord (blocks_new (blocks_of b))) as [|kb L IH]; [exists []; split; [constructor|intros ? []]|].
    destruct IH as (gs & H1 & H2); [intros kb' Hi; apply Hall; right; exact Hi|].
    destruct (Hall kb (or_introl eq_refl)) as (r & HL & Hu & Ek & Hg). exists ((cow_str (fst kb), Group (map b_body r)) :: gs). split.
    - constructor; [|exact H1]. cbn. rewrite Ek. auto.
    - intros g [<-|Hi]; auto. }
  destruct Hg as (groups' & HG & Hincl).
  assert (HKg : map fst groups' = map (fun kv => cow_str (fst kv)) (ord (blocks_new (blocks_of b)))) by (rewrite <- (Hands_keys _ _ HG), map_map; reflexivity).
  assert (HDg' : NoDup (map fst groups')) by (rewrite HKg; apply ord_nodup, Ho).
  assert (HDg : NoDup (map fst groups)) by (rewrite map_app in HD; apply PropSerde.NoDup_app in HD; tauto).
  assert (HP : Permutation groups groups').
  { apply NoDup_Permutation; [eapply NoDup_map_inv, HDg|eapply NoDup_map_inv, HDg'|]. intros [n g]. split; [|apply Hincl]. intros Hi.
    assert (Hn : In n (map fst groups')).
    { rewrite HKg. apply (ord_keys ord _ _ Ho). rewrite blocks_list. apply Hk. apply (in_map fst) in Hi. exact Hi. }
    apply in_map_iff in Hn as ([n' g'] & En & Hn). cbn in En. subst n'.
    assert (Eg : g = g').
    { apply (field_get_some n groups g HDg) in Hi. pose proof (Hincl _ Hn) as Hn'. apply (field_get_some n groups g' HDg) in Hn'. congruence. }
    rewrite Eg. exact Hn. }
  assert (HA : Hands (map (fun a => (fst a, SExpr (snd a))) (attributes_of b)) attrs).
  { unfold attrs. rewrite <- attributes_list, map_map. clear. induction (attributes_of b) as [|a l IH]; [constructor|]. constructor; [cbn; auto|exact IH]. }
  assert (HH : Hands (body_entries b) (attrs ++ groups')) by (apply Forall2_app; assumption).
  assert (HP' : Permutation (attrs ++ groups) (attrs ++ groups')) by (apply Permutation_app_head, HP).
  exists (body_entries b), (attrs ++ groups'). split; [|split; [exact HH|exact HP']].
  rewrite body_entries_eq, map_map. apply body_steps_fresh; [|intros ? ? []].
  assert (Ek : keys_of (build_map_access_iter ord b) = map fst (attrs ++ groups')).
  { rewrite <- (Hands_keys _ _ HH). rewrite body_entries_eq, map_map. reflexivity. }
  rewrite Ek. eapply Permutation_NoDup; [apply Permutation_map, HP'|exact HD].
Qed.
Lemma members_complete x ms : Members x ms ->
  exists es ms', call ord (src_of x) MAny = VMap (map entry es) /\ Hands es ms' /\ Permutation ms ms'.
Proof.
  intros H. destruct x as [e|b|bs].
  - inversion H as [l ms0 HF HD| |]; subst.
    assert (Hks : map fst ms = map (fun ke => okey_str (fst ke)) l).
    { clear - HF. induction HF as [|[k e] m l ms (i & Hi & ->) _ IH]; [reflexivity|]. cbn in *. subst k. cbn. f_equal. exact IH. }
    exists (map (fun ke => (match fst ke with KIdent i => i | KExpr t => t end, SExpr (snd ke))) l), ms. split; [|split; [|reflexivity]].
    + cbn. f_equal. rewrite map_map. apply object_steps_fresh; [|rewrite <- Hks; exact HD|intros ? _ []].
      intros ke Hke. clear - HF Hke. induction HF as [|ke' m l ms (i & Hi & _) _ IH]; [destruct Hke|]. destruct Hke as [<-|Hke]; eauto.
    + clear - HF. induction HF as [|[k e] m l ms (i & Hi & ->) _ IH]; [constructor|]. cbn in Hi. subst k. constructor; [cbn; auto|exact IH].
  - destruct (body_hands b ms H) as (es & ms' & E & R). exists es, ms'. split; [cbn; unfold body_any; rewrite E; reflexivity|exact R].
  - inversion H as [| |b ms0 Hb]; subst. destruct (body_hands b ms Hb) as (es & ms' & E & R).
    exists es, ms'. split; [cbn; unfold body_any; rewrite E; reflexivity|exact R].
Qed.
Lemma Members_unique x ms ms' : Members x ms -> Members x ms' -> Permutation ms ms'.
Proof.
  intros H H'. destruct (members_complete x ms H) as (es & m1 & E1 & H1 & P1). destruct (members_complete x ms' H') as (es' & m2 & E2 & H2 & P2).
  rewrite E1 in E2. injection E2 as E2. apply map_entry_inj in E2. subst es'. rewrite (Hands_unique _ _ _ H1 H2) in P1.
  eapply Permutation_trans; [exact P1|apply Permutation_sym, P2].
Qed.
Lemma Members_nodup x ms : Members x ms -> NoDup (map fst ms).
Proof. induction 1; assumption. Qed.
Lemma items_call x items : Items x items -> call ord (src_of x) MAny = VSeq (map src_of items).
Proof. intros [l|b b' bs]; cbn; rewrite map_map; reflexivity. Qed.

(** ** Numbers *)
Lemma number_int n z : IntLit n z -> number_event n = VI64 z.
Proof.
  intros (t & Hn & Hz & Hr). unfold number_event, is_float. destruct (is_signed n) eqn:Es; cbn [negb].
  - assert (E : as_int I64 n = Some z) by (apply (i64_text n t z Hn); auto). rewrite E. reflexivity.
  - destruct (NumLit_float_not_integer n t z Hn Es Hz).
Qed.
Lemma number_float n f : FloatLit n f -> number_event n = VF64 f.
Proof.
  intros (t & neg & v & Hn & Hno & HT & HC). unfold number_event, is_float. destruct (is_signed n) eqn:Es; cbn [negb].
  - destruct (NumLit_integer n t Hn Es) as (z & Hz & _). destruct (Hno z Hz).
  - destruct (literal_float n t neg v 53 1024 Hn HT) as (g & Hg & HC'); [right; split; reflexivity|].
    assert (E : as_f64 n = Some g) by exact Hg. rewrite E.
    rewrite (C91_unique 53 1024 neg v f g (or_intror (conj eq_refl eq_refl)) HC HC'). reflexivity.
Qed.
Lemma number_cases n t : NumLit n t -> (exists z, IntLit n z) \/ (exists f, FloatLit n f) \/ exists e, number_event n = VErr e.
Proof.
  intros Hn. destruct (is_signed n) eqn:Es.
  - destruct (NumLit_integer n t Hn Es) as (z & Hz & _). destruct (as_int I64 n) as [y|] eqn:E.
    + left. exists y. exists t. split; [exact Hn|]. apply (i64_text n t y Hn). exact E.
    + right. right. exists EParseInt. unfold number_event, is_float. rewrite Es. cbn [negb]. rewrite E. reflexivity.
  - right. left. destruct (literal_text n t Hn) as (v & HT & Hr). destruct (Hr 53%Z 1024%Z) as (f & Hf & HC); [right; split; reflexivity|].
    exists f, t, (negb (num_positive n)), v. split; [exact Hn|]. split; [|split; assumption]. intros z. apply (NumLit_float_not_integer n t z Hn Es).
Qed.

(** ** Soundness *)
Lemma ignored_only s d : de TIgnored s = DeOk d -> d = DIgnored.
Proof.
  rewrite deserialize_eq by exact Ho. destruct (call ord s (method_of TIgnored)); cbn; try discriminate; try (intros [= <-]; reflexivity);
    rewrite dmap_ok; intros (? & _ & ->); reflexivity.
Qed.
Lemma PartT_good t' t : GoodTy t -> PartT t' t -> GoodTy t'.
Proof.
  intros HG H. destruct H as [t t' Hi|t|t|t|t l Hi|k t|t l Hi]; [|inversion HG; subst; try contradiction; try assumption..].
  - destruct Hi as [<-|[<-|[<-|[]]]]; apply GT_leaf; exact I.
  - rewrite Forall_forall in *. auto.
  - apply in_map_iff in Hi as (ft & <- & Hft). rewrite Forall_forall in *. auto.
Qed.
Lemma Forall3_in_weaken {A B C} (R Q : A -> B -> C -> Prop) la lb lc :
  (forall a b c, In a la -> In b lb -> R a b c -> Q a b c) -> Forall3 R la lb lc -> Forall3 Q la lb lc.
Proof.
  intros H HF. induction HF as [|a b c la lb lc Hab _ IH]; constructor.
  - apply H; [left; reflexivity|left; reflexivity|exact Hab].
  - apply IH. intros x y z Hx Hy. apply H; right; assumption.
Qed.
Lemma Forall2_in_both {A B} (R Q : A -> B -> Prop) l l' : (forall a b, In a l -> In b l' -> R a b -> Q a b) -> Forall2 R l l' -> Forall2 Q l l'.
Proof.
  intros H HF. induction HF as [|a b l l' Hab _ IH]; constructor; [apply H; [left; reflexivity|left; reflexivity|exact Hab]|].
  apply IH. intros x y Hx Hy. apply H; right; assumption.
Qed.
Lemma members_den t x es ms d : GoodTy t -> Members x ms -> Hands es ms ->
  (forall t' m d', In m ms -> PartT t' t -> de t' (src_of (snd m)) = DeOk d' -> Den t' (snd m) d') ->
  visit de t (VMap (map entry es)) = DeOk d -> Den t x d.
Proof.
  intros HG HM HH IH H. pose proof (Members_nodup x ms HM) as HD.
  destruct t; cbn in H; try discriminate; apply dmap_ok in H as (r & H & ->).
  - apply (map_all_hands de _ _ _ _ _ HH) in H as [Hk HF]. eapply D_map; [exact HM|exact Hk|]. revert HF. apply Forall2_in_weaken.
    intros m e Hm [E Hd]. split; [exact E|]. apply IH; [exact Hm|apply PT_map|exact Hd].
  - assert (Hfs : NoDup (map fst fields)) by (inversion HG; subst; [contradiction|assumption]).
    apply (struct_hands de _ _ _ _ HH HD Hfs) in H as [Hi HF]. eapply D_struct; [exact HM| |].
    + intros n y Hy Hno. destruct (Hi n y Hy Hno) as (d & Hd). pose proof (ignored_only _ _ Hd). subst d.
      apply (IH TIgnored (n, y)); [exact Hy|apply PT_leaf; cbn; auto|exact Hd].
    + revert HF. apply Forall2_in_weaken. intros [f t] v Hft [E Hv]. split; [exact E|]. destruct Hv as [(y & Hy & Hd)|Hv]; [left|right; exact Hv].
      exists y. split; [exact Hy|]. apply (IH t (f, y)); [exact Hy|apply PT_struct, (in_map snd _ _ Hft)|exact Hd].
  - apply (ignore_map_hands de _ _ _ HH) in H. eapply D_ignored_members; [exact HM|]. rewrite Forall_forall in *. intros m Hm.
    destruct (H m Hm) as (d & Hd). pose proof (ignored_only _ _ Hd). subst d. apply IH; [exact Hm|apply PT_leaf; cbn; auto|exact Hd].
  - apply (map_all_hands de _ _ _ _ _ HH) in H as [_ HF]. eapply D_any_members; [exact HM|]. revert HF. apply Forall2_in_weaken.
    intros m e Hm [E Hd]. split; [exact E|]. apply IH; [exact Hm|apply PT_leaf; cbn; auto|exact Hd].
Qed.
Definition takes_items (t : ty) (x : node) (items : list node) : Prop :=
  match t with
  | TNewtype _ => exists bs, x = Group bs
  | TTuple ts => (exists bs, x = Group bs) \/ length items = length ts
  | _ => True
  end.
Lemma combine_fields (fs : list (str * ty)) : forall here (ds : list data), Forall3 (fun t y d => Den t y d) (map snd fs) here ds ->
  Forall3 (fun (ft : str * ty) y (v : str * data) => fst v = fst ft /\ Den (snd ft) y (snd v)) fs here (combine (map fst fs) ds).
Proof.
  induction fs as [|[f t] fs IH]; intros here ds H; inversion H; subst; cbn; [constructor|]. constructor; [cbn; auto|apply IH; assumption].
Qed.
Lemma app_map_split {A B} (f : A -> B) l : forall h r, map f l = h ++ r -> exists h' r', l = h' ++ r' /\ h = map f h' /\ r = map f r'.
Proof.
  induction l as [|a l IH]; intros [|x h] r H; cbn in H; try discriminate.
  - exists [], []. auto.
  - exists [], (a :: l). auto.
  - injection H as <- H. destruct (IH _ _ H) as (h' & r' & -> & -> & ->). exists (a :: h'), r'. auto.
Qed.
Lemma seq_types_nodes ts items ds : seq_types de ts (map src_of items) = DeOk ds ->
  exists here rest, items = here ++ rest /\ Forall3 (fun t y d => de t (src_of y) = DeOk d) ts here ds.
Proof.
  intros H. apply seq_types_first in H as (here & rest & E & H). apply app_map_split in E as (h' & r' & -> & -> & ->).
  exists h', r'. split; [reflexivity|]. apply Forall3_map in H. exact H.
Qed.
Lemma Den_int it y d : Den (TInt it) y d -> exists n z, y = Expr (ENumber n) /\ d = DInt z /\ IntLit n z /\ InRange it z.
Proof. intros H. inversion H; subst. eauto 6. Qed.
Lemma items_den t x items d : GoodTy t -> Items x items -> takes_items t x items ->
  (forall t' y d', In y items -> PartT t' t -> de t' (src_of y) = DeOk d' -> Den t' y d') ->
  visit de t (VSeq (map src_of items)) = DeOk d -> Den t x d.
Proof.
  intros HG HI HT IH H.
  destruct t; cbn in H; try discriminate.
  - destruct HT as (bs & ->). inversion HI as [|b b' bs']; subst. cbn in *. apply D_newtype_group. apply IH; [left; reflexivity|apply PT_newtype|exact H].
  - apply dmap_ok in H as (ds & H & ->). apply seq_all_ok in H. apply Forall2_map_l in H. eapply D_seq; [exact HI|].
    revert H. apply Forall2_in_weaken. intros y d Hy Hd. apply IH; [exact Hy|apply PT_seq|exact Hd].
  - apply dmap_ok in H as (ds & H & ->). apply seq_types_nodes in H as (here & rest & E & H).
    assert (HF : Forall3 (fun t y d => Den t y d) l here ds).
    { revert H. apply Forall3_in_weaken. intros t y d Ht Hy Hd. apply IH; [rewrite E; apply in_app_iff; auto|apply PT_tuple, Ht|exact Hd]. }
    assert (HL : length here = length l) by (clear - HF; induction HF; cbn; congruence).
    inversion HI as [l0 E1 E2|b b' bs E1 E2]; subst x.
    + destruct HT as [[bs [=]]|HT]. assert (rest = []).
      { rewrite E, app_length in HT. destruct rest; [reflexivity|cbn in HT; lia]. }
      subst rest. rewrite app_nil_r in E. subst here. rewrite <- E2 in HF. apply D_tuple, HF.
    + rewrite <- E2 in E. apply app_map_split in E as (h' & r' & Eb & -> & ->). eapply D_tuple_group; [exact Eb|exact HF].
  - apply dmap_ok in H as (ds & H & ->). apply seq_types_nodes in H as (here & rest & E & H). subst items.
    eapply D_struct_items; [exact HI|]. apply combine_fields. revert H. apply Forall3_in_weaken.
    intros t y d Ht Hy Hd. apply IH; [apply in_app_iff; auto|apply PT_struct, Ht|exact Hd].
  - apply dmap_ok in H as (ds & H & ->). apply seq_all_ok in H. apply Forall2_map_l in H. eapply D_bytes_items; [exact HI|].
    assert (IH' : forall y d', In y items -> de (TInt U8) (src_of y) = DeOk d' -> Den (TInt U8) y d').
    { intros y d' Hy Hd. apply IH; [exact Hy|apply PT_leaf; cbn; auto|exact Hd]. }
    clear - H IH'. induction H as [|y d items ds Hd _ IH0]; [constructor|]. cbn [map]. constructor; [|apply IH0; intros; apply IH'; [right|]; assumption].
    pose proof (IH' y d (or_introl eq_refl) Hd) as Hy. destruct (Den_int _ _ _ Hy) as (n & z & -> & -> & _ & HR).
    cbn [byte_of]. rewrite Z2N.id by (cbn in HR; lia). exact Hy.
  - apply dmap_ok in H as (u & H & ->). apply ignore_seq_ok in H. rewrite Forall_map in H. eapply D_ignored_items; [exact HI|].
    rewrite Forall_forall in *. intros y Hy. destruct (H y Hy) as (d & Hd). pose proof (ignored_only _ _ Hd). subst d. apply IH; [exact Hy|apply PT_leaf; cbn; auto|exact Hd].
  - apply dmap_ok in H as (ds & H & ->). apply seq_all_ok in H. apply Forall2_map_l in H. eapply D_any_items; [exact HI|].
    revert H. apply Forall2_in_weaken. intros y d Hy Hd. apply IH; [exact Hy|apply PT_leaf; cbn; auto|exact Hd].
Qed.

(** ** The main induction *)
Definition proper (x : node) : Prop := match x with Group [] => False | _ => True end.
Definition Lits (s : src) : Prop := forall n, HasExpr (ENumber n) s -> exists t, NumLit n t.
Lemma Lits_part s' s : PartS s' s -> Lits s -> Lits s'.
Proof. intros [H _] HL n Hn. apply HL, H, Hn. Qed.
Lemma Members_proper x ms m : Members x ms -> In m ms -> proper (snd m).
Proof.
  induction 1 as [l ms HF HD|b groups ms Hk HF -> HD|b ms _ IH]; intros Hm; [| |auto].
  - clear HD. induction HF as [|ke m' l ms (i & _ & ->) _ IH]; [destruct Hm|]. destruct Hm as [<-|Hm]; [exact I|auto].
  - apply in_app_iff in Hm as [Hm|Hm].
    + apply in_map_iff in Hm as (a & <- & _). exact I.
    + rewrite Forall_forall in HF. destruct (HF m Hm) as (r & HL & _ & ->). destruct HL as [? ? _ Hr _ _ _]. destruct r as [|c r]; [congruence|exact I].
Qed.
Lemma Items_proper x items y : Items x items -> In y items -> proper y.
Proof. intros [l|b b' bs] Hy; apply in_map_iff in Hy as (? & <- & _); exact I. Qed.
Lemma seq_part s m l s' : call ord s m = VSeq l -> In s' l -> src_depth s' < src_depth s /\ PartS s' s.
Proof.
  intros E H. pose proof (call_ok ord Ho s m) as H1. pose proof (call_shape ord s m) as H2. rewrite E in *. split; [apply H1, H|apply H2, H].
Qed.
Lemma map_part s m es c s' : call ord s m = VMap (map entry es) -> In (c, s') es -> src_depth s' < src_depth s /\ PartS s' s.
Proof.
  intros E H. pose proof (call_ok ord Ho s m) as H1. pose proof (call_shape ord s m) as H2. rewrite E in *.
  assert (Hi : In (MEntry c s') (map entry es)) by (apply in_map_iff; exists (c, s'); auto).
  split; [apply (H1 c), Hi|]. eapply map_source_part; [exact Ho|exact H2|exact Hi].
Qed.
Theorem den_sound : forall n t x d, ty_depth t + src_depth (src_of x) <= n -> GoodTy t -> proper x -> Lits (src_of x) ->
  de t (src_of x) = DeOk d -> Den t x d.
Proof.
  induction n as [|n IH]; intros t x d Hn HG HP HL H; [pose proof (ty_depth_pos t); lia|].
  assert (Hmap : forall l, call ord (src_of x) MAny = VMap l -> visit de t (VMap l) = DeOk d -> Den t x d).
  { intros l E Hv. destruct (visit_map_ok de t l d Hv) as (es & -> & Hr). destruct (members_sound x es E Hr) as (ms & HM & HH).
    eapply members_den; [exact HG|exact HM|exact HH| |exact Hv]. intros t' m d' Hm Ht Hd.
    destruct (Hands_in _ _ _ HH Hm) as (c & Hc & _). destruct (map_part _ _ _ _ _ E Hc) as [Hd1 Hp]. pose proof (PartT_depth _ _ Ht).
    apply IH; [lia|eapply PartT_good; eassumption|eapply Members_proper; eassumption|eapply Lits_part; eassumption|exact Hd]. }
  assert (Hseq : forall items, Items x items -> takes_items t x items -> visit de t (VSeq (map src_of items)) = DeOk d -> Den t x d).
  { intros items HI HT Hv. eapply items_den; [exact HG|exact HI|exact HT| |exact Hv]. intros t' y d' Hy Ht Hd.
    destruct (seq_part _ _ _ (src_of y) (items_call x items HI) (in_map src_of _ _ Hy)) as [Hd1 Hp]. pose proof (PartT_depth _ _ Ht).
    apply IH; [lia|eapply PartT_good; eassumption|eapply Items_proper; eassumption|eapply Lits_part; eassumption|exact Hd]. }
  assert (Hsub : forall t' d', PartT t' t -> S (ty_depth t') <= ty_depth t -> de t' (src_of x) = DeOk d' -> Den t' x d').
  { intros t' d' Ht Hlt Hd. apply IH; [lia|eapply PartT_good; eassumption|exact HP|exact HL|exact Hd]. }
  rewrite deserialize_eq in H by exact Ho.
  destruct x as [e|b|bs]; cbn [src_of call] in *.
  - (* an expression *)
    assert (Hany : (forall t', t <> TOption t') -> (forall t', t <> TNewtype t') -> (forall ts l, t = TTuple ts -> e = ETuple l -> length l = length ts) ->
      visit de t (expr_any e) = DeOk d -> Den t (Expr e) d).
    { intros N1 N2 N3 Hv. destruct e as [|m|b|s|l|l]; cbn [expr_any] in Hv.
      - destruct t; cbn in Hv; try discriminate; injection Hv as <-; constructor.
      - destruct (HL m) as (txt & Hlit); [repeat constructor|]. destruct (number_cases m txt Hlit) as [(z & Hz)|[(f & Hf)|(err & He)]].
        + rewrite (number_int m z Hz) in Hv. destruct t; cbn in Hv; try discriminate.
          * destruct (checked t z) as [z'|] eqn:E; [|discriminate]. apply checked_range in E as [-> Hr]. injection Hv as <-. apply D_int; assumption.
          * injection Hv as <-. eapply D_f64_int; [exact Hz|]. apply of_Z_correct; lia.
          * injection Hv as <-. eapply D_f32_int; [exact Hz|]. apply of_Z_correct; lia.
          * injection Hv as <-. eapply D_ignored_int, Hz.
          * injection Hv as <-. apply D_any_int, Hz.
        + rewrite (number_float m f Hf) in Hv. destruct t; cbn in Hv; try discriminate; injection Hv as <-.
          * apply D_f64, Hf.
          * eapply D_f32; [exact Hf|apply f32_of_f64_narrow].
          * eapply D_ignored_float, Hf.
          * apply D_any_float, Hf.
        + rewrite He in Hv. discriminate.
      - destruct t; cbn in Hv; try discriminate; injection Hv as <-; constructor.
      - assert (Hs : visit de t (VString (cow_str s)) = DeOk d \/ exists v, s = Borrowed v /\ t = TStr /\ d = DStr v).
        { destruct s as [v|v]; cbn [string_event cow_str] in *; [|left; exact Hv]. destruct t; try (left; exact Hv). cbn in Hv. injection Hv as <-. right. eauto. }
        clear Hv. destruct Hs as [Hv|(v & -> & -> & ->)]; [|constructor].
        destruct t; cbn in Hv; try discriminate; try (injection Hv as <-; constructor).
        destruct (cow_str s) as [|c [|c' l]] eqn:E; try discriminate. injection Hv as <-. constructor. exact E.
      - apply (Hseq (map Expr l)); [constructor| |].
        + destruct t; cbn; auto; [elim (N2 t); reflexivity|]. right. rewrite map_length. eapply N3; reflexivity.
        + rewrite map_map. exact Hv.
      - eapply Hmap; [reflexivity|exact Hv]. }
    assert (Hplain : (forall t', t <> TOption t') -> (forall t', t <> TNewtype t') -> (forall ts, t <> TTuple ts) -> Den t (Expr e) d).
    { intros N1 N2 N3. apply Hany; [exact N1|exact N2|intros ts l E; elim (N3 ts E)|]. destruct t; try exact H; [elim (N1 t); reflexivity|elim (N2 t); reflexivity|elim (N3 l); reflexivity]. }
    destruct t; try (apply Hplain; discriminate).
    + (* option *)
      cbn [method_of expr_call] in H. assert (He : e = ENull \/ (e <> ENull /\ exists d', de t (SExpr e) = DeOk d' /\ d = DSome d')).
      { destruct e; [left; reflexivity|right; split; [discriminate|]; cbn in H; apply dmap_ok in H as (d' & Hd & ->); eauto..]. }
      destruct He as [->|(He & d' & Hd & ->)]; [cbn in H; injection H as <-; constructor|]. apply D_some; [exact He|].
      apply Hsub; [apply PT_option|cbn; lia|exact Hd].
    + cbn in H. apply D_newtype. apply Hsub; [apply PT_newtype|cbn; lia|exact H].
    + cbn [method_of expr_call] in H. apply Hany; [discriminate|discriminate| |].
      * intros ts l0 [= <-] ->. destruct (length l0 =? length l) eqn:E; [apply Nat.eqb_eq, E|discriminate].
      * destruct e; try exact H. destruct (length l0 =? length l); [exact H|discriminate].
  - (* a body *)
    eapply Hmap; [reflexivity|exact H].
  - (* blocks *)
    destruct bs as [|b [|b' bs]]; [destruct HP| |].
    + (* one *)
      destruct t; try (eapply Hmap; [reflexivity|exact H]).
      * cbn in H. apply dmap_ok in H as (d' & Hd & ->). apply D_some_group. apply Hsub; [apply PT_option|cbn; lia|exact Hd].
      * cbn in H. apply dmap_ok in H as (ds & Hd & ->). apply dbind_ok in Hd as (d' & Hd & E). injection E as <-. apply D_seq_one.
        destruct (seq_part (SBlock (BBody [b])) MSeq [SBody b] (SBody b) eq_refl (or_introl eq_refl)) as [Hd1 Hp].
        apply (IH t (Body b)); [cbn [src_of ty_depth] in *; lia|eapply PartT_good; [exact HG|apply PT_seq]|exact I|eapply Lits_part; eassumption|exact Hd].
    + destruct t; try (apply (Hseq (map Body (b :: b' :: bs))); [constructor|cbn; eauto|rewrite map_map; exact H]).
      cbn in H. apply dmap_ok in H as (d' & Hd & ->). apply D_some_group. apply Hsub; [apply PT_option|cbn; lia|exact Hd].
Qed.

(** ** Completeness *)
Definition Reads (t : ty) (y : node) (d : data) : Prop := exists d', de t (src_of y) = DeOk d' /\ Same d d' /\ (Ordered t -> d' = d).
Lemma reads_list t items ds : (forall y d, In y items -> Den t y d -> Reads t y d) -> Forall2 (fun y d => Den t y d) items ds ->
  exists ds', Forall2 (fun y d => de t (src_of y) = DeOk d) items ds' /\ Forall2 (fun d d' => Same d d') ds ds' /\ (Ordered t -> ds' = ds).
Proof.
  intros IH H. induction H as [|y d items ds Hd _ IH0]; [exists []; repeat split; constructor|].
  destruct IH0 as (ds' & H1 & H2 & H3); [intros; apply IH; [right|]; assumption|].
  destruct (IH y d (or_introl eq_refl) Hd) as (d' & E & HS & HO). exists (d' :: ds'). split; [constructor; assumption|]. split; [constructor; assumption|].
  intros Ot. rewrite HO, H3 by exact Ot. reflexivity.
Qed.
Lemma reads_three ts items ds : (forall t y d, In t ts -> In y items -> Den t y d -> Reads t y d) -> Forall3 (fun t y d => Den t y d) ts items ds ->
  exists ds', Forall3 (fun t y d => de t (src_of y) = DeOk d) ts items ds' /\ Forall2 (fun d d' => Same d d') ds ds' /\ (Forall Ordered ts -> ds' = ds).
Proof.
  intros IH H. induction H as [|t y d ts items ds Hd _ IH0]; [exists []; repeat split; constructor|].
  destruct IH0 as (ds' & H1 & H2 & H3); [intros; apply IH; [right|right|]; assumption|].
  destruct (IH t y d (or_introl eq_refl) (or_introl eq_refl) Hd) as (d' & E & HS & HO). exists (d' :: ds'). split; [constructor; assumption|]. split; [constructor; assumption|].
  intros Ot. inversion Ot; subst. rewrite HO, H3 by assumption. reflexivity.
Qed.
Lemma reads_members t ms es ms' : (forall m d, In m ms -> Den t (snd m) d -> Reads t (snd m) d) -> Permutation ms ms' ->
  Forall2 (fun (m : str * node) (e : str * data) => fst e = fst m /\ Den t (snd m) (snd e)) ms es ->
  exists es' es'', Permutation es es' /\ Forall2 (fun (e e' : str * data) => fst e' = fst e /\ Same (snd e) (snd e')) es' es'' /\
    Forall2 (fun (m : str * node) (e : str * data) => fst e = fst m /\ de t (src_of (snd m)) = DeOk (snd e)) ms' es''.
Proof.
  intros IH HP H. destruct (Permutation_Forall2 HP H) as (es' & HP' & H'). exists es'.
  assert (IH' : forall m d, In m ms' -> Den t (snd m) d -> Reads t (snd m) d).
  { intros m d Hm. apply IH. eapply Permutation_in; [apply Permutation_sym, HP|exact Hm]. }
  assert (Hx : exists es'', Forall2 (fun (e e' : str * data) => fst e' = fst e /\ Same (snd e) (snd e')) es' es'' /\
    Forall2 (fun (m : str * node) (e : str * data) => fst e = fst m /\ de t (src_of (snd m)) = DeOk (snd e)) ms' es'').
  { clear - H' IH'. induction H' as [|m e ms es [E Hd] _ IH0]; [exists []; repeat split; constructor|].
    destruct IH0 as (es'' & H1 & H2); [intros; apply IH'; [right|]; assumption|].
    destruct (IH' m (snd e) (or_introl eq_refl) Hd) as (d' & Ed & HS & _). exists ((fst e, d') :: es''). split; constructor; cbn; auto. }
  destruct Hx as (es'' & H1 & H2). exists es''. auto.
Qed.
Lemma items_call' x items m : Items x items -> m = MAny \/ m = MSeq -> call ord (src_of x) m = VSeq (map src_of items).
Proof. intros [l|b b' bs] [-> | ->]; cbn; rewrite map_map; reflexivity. Qed.
Lemma seq_types_of ts here rest ds : Forall3 (fun t y d => de t (src_of y) = DeOk d) ts here ds ->
  seq_types de ts (map src_of (here ++ rest)) = DeOk ds.
Proof.
  intros H. apply seq_types_first. exists (map src_of here), (map src_of rest). split; [apply map_app|]. apply Forall3_map. exact H.
Qed.
Lemma den_nonempty : forall t d, ~ Den t (Group []) d.
Proof.
  induction t; intros d0 H; inversion H; subst;
    try match goal with [ HI : Items (Group []) _ |- _ ] => inversion HI | [ HM : Members (Group []) _ |- _ ] => inversion HM end.
  eapply IHt; eassumption.
Qed.
Theorem den_complete : forall n t x d, ty_depth t + src_depth (src_of x) <= n -> GoodTy t -> Den t x d -> Reads t x d.
Proof.
  induction n as [|n IH]; intros t x d Hn HG H; [pose proof (ty_depth_pos t); lia|].
  assert (Hitems : forall items, Items x items -> forall t' y d, In y items -> PartT t' t -> Den t' y d -> Reads t' y d).
  { intros items HI t' y d' Hy Ht Hd. destruct (seq_part _ _ _ (src_of y) (items_call x items HI) (in_map src_of _ _ Hy)) as [Hd1 _]. pose proof (PartT_depth _ _ Ht).
    apply IH; [lia|eapply PartT_good; eassumption|exact Hd]. }
  assert (Hmem : forall ms, Members x ms -> exists es ms', call ord (src_of x) MAny = VMap (map entry es) /\ Hands es ms' /\ Permutation ms ms' /\
     (forall t' m d, In m ms -> PartT t' t -> Den t' (snd m) d -> Reads t' (snd m) d)).
  { intros ms HM. destruct (members_complete x ms HM) as (es & ms' & E & HH & HP). exists es, ms'. split; [exact E|]. split; [exact HH|]. split; [exact HP|].
    intros t' m d' Hm Ht Hd. apply (Permutation_in _ HP) in Hm. destruct (Hands_in _ _ _ HH Hm) as (c & Hc & _).
    destruct (map_part _ _ _ _ _ E Hc) as [Hd1 _]. pose proof (PartT_depth _ _ Ht). apply IH; [lia|eapply PartT_good; eassumption|exact Hd]. }
  assert (Hone : forall ev, call ord (src_of x) (method_of t) = ev -> visit de t ev = DeOk d -> Reads t x d).
  { intros ev E Hv. exists d. split; [rewrite deserialize_eq by exact Ho; rewrite E; exact Hv|]. split; [constructor|auto]. }
  assert (Hgo : forall ev d', call ord (src_of x) (method_of t) = ev -> visit de t ev = DeOk d' -> Same d d' -> (Ordered t -> d' = d) -> Reads t x d).
  { intros ev d' E Hv HS HO. exists d'. split; [rewrite deserialize_eq by exact Ho; rewrite E; exact Hv|]. auto. }
  destruct H.
  - eapply Hone; reflexivity.
  - eapply Hone; reflexivity.
  - eapply Hone; [reflexivity|]. cbn [src_of call method_of expr_call expr_any]. rewrite (number_int n0 z H). cbn.
    assert (E : checked it z = Some z) by (apply checked_range; auto). rewrite E. reflexivity.
  - eapply Hone; [reflexivity|]. cbn [src_of call method_of expr_call expr_any]. rewrite (number_int n0 z H). cbn. do 2 f_equal.
    apply (C91_unique 53 1024 (z <? 0)%Z (IZR z)); [right; split; reflexivity|apply of_Z_correct; lia|assumption].
  - eapply Hone; [reflexivity|]. cbn [src_of call method_of expr_call expr_any]. rewrite (number_float n0 f H). reflexivity.
  - eapply Hone; [reflexivity|]. cbn [src_of call method_of expr_call expr_any]. rewrite (number_int n0 z H). cbn. do 2 f_equal.
    apply (C91_unique 24 128 (z <? 0)%Z (IZR z)); [left; split; reflexivity|apply of_Z_correct; lia|assumption].
  - eapply Hone; [reflexivity|]. cbn [src_of call method_of expr_call expr_any]. rewrite (number_float n0 f H). cbn. do 2 f_equal.
    pose proof (f32_of_f64_narrow f) as Hw. destruct f; cbn [Narrowed] in *; try congruence;
      (eapply C91_unique; [left; split; reflexivity|exact Hw|assumption]).
  - eapply Hone; [reflexivity|]. destruct s as [v|v]; cbn in *; subst v; reflexivity.
  - eapply Hone; [reflexivity|]. destruct s; reflexivity.
  - eapply Hone; reflexivity.
  - eapply Hone; [reflexivity|]. destruct s; reflexivity.
  - (* bytes *)
    destruct (reads_list (TInt U8) items (map (fun b => DInt (Z.of_N b)) bs)) as (ds' & H1 & _ & H3).
    { intros y d Hy. apply (Hitems items H); [exact Hy|apply PT_leaf; cbn; auto]. }
    { clear - H0. induction H0; constructor; assumption. }
    rewrite (H3 ltac:(apply O_leaf; exact I)) in H1. eapply Hone; [apply items_call'; [exact H|left; reflexivity]|]. cbn [visit]. apply dmap_ok.
    exists (map (fun b => DInt (Z.of_N b)) bs). split; [apply seq_all_ok, Forall2_map_l, H1|]. rewrite map_map. cbn [byte_of]. f_equal.
    rewrite <- (map_id bs) at 1. apply map_ext. intros b. symmetry. apply N2Z.id.
  - eapply Hone; reflexivity.
  - destruct (IH t (Expr e) d) as (d' & Hd & HS & HO); [cbn in *; lia|eapply PartT_good; [exact HG|first [apply PT_option|apply PT_newtype|apply PT_seq]]|assumption|].
    eapply Hgo with (ev := VSome (SExpr e)) (d' := DSome d'); [|apply dmap_ok; exists d'; split; [exact Hd|reflexivity]|constructor; exact HS|].
    + cbn. destruct e; try reflexivity. congruence.
    + intros Ot. inversion Ot; subst; [contradiction|]. rewrite HO by assumption. reflexivity.
  - assert (Hne : bs <> []) by (intros ->; eapply den_nonempty; eassumption).
    destruct (IH t (Group bs) d) as (d' & Hd & HS & HO); [cbn in *; lia|eapply PartT_good; [exact HG|first [apply PT_option|apply PT_newtype|apply PT_seq]]|assumption|].
    eapply Hgo with (ev := VSome (src_of (Group bs))) (d' := DSome d'); [|apply dmap_ok; exists d'; split; [exact Hd|reflexivity]|constructor; exact HS|].
    + cbn. destruct bs; [congruence|reflexivity].
    + intros Ot. inversion Ot; subst; [contradiction|]. rewrite HO by assumption. reflexivity.
  - destruct (IH t (Expr e) d) as (d' & Hd & HS & HO); [cbn in *; lia|eapply PartT_good; [exact HG|first [apply PT_option|apply PT_newtype|apply PT_seq]]|assumption|].
    eapply Hgo with (d' := d'); [reflexivity|exact Hd|exact HS|]. intros Ot. inversion Ot; subst; [contradiction|auto].
  - destruct (Hitems _ (It_blocks b b' bs) t (Body b) d) as (d' & Hd & HS & HO); [left; reflexivity|apply PT_newtype|assumption|].
    eapply Hgo with (d' := d'); [reflexivity|exact Hd|exact HS|]. intros Ot. inversion Ot; subst; [contradiction|auto].
  - (* sequences *)
    destruct (reads_list t items ds) as (ds' & H1 & H2 & H3); [intros y d Hy; apply (Hitems items H); [exact Hy|apply PT_seq]|assumption|].
    eapply Hgo with (d' := DSeq ds'); [apply items_call'; [exact H|right; reflexivity]| |constructor; exact H2|].
    + cbn [visit]. apply dmap_ok. exists ds'. split; [apply seq_all_ok, Forall2_map_l, H1|reflexivity].
    + intros Ot. inversion Ot; subst; [contradiction|]. rewrite H3 by assumption. reflexivity.
  - destruct (seq_part (SBlock (BBody [b])) MSeq [SBody b] (SBody b) eq_refl (or_introl eq_refl)) as [Hd1 _].
    destruct (IH t (Body b) d) as (d' & Hd & HS & HO); [cbn [src_of ty_depth] in *; lia|eapply PartT_good; [exact HG|first [apply PT_option|apply PT_newtype|apply PT_seq]]|assumption|].
    eapply Hgo with (d' := DSeq [d']); [reflexivity| |constructor; repeat constructor; exact HS|].
    + cbn. cbn in Hd. rewrite Hd. reflexivity.
    + intros Ot. inversion Ot; subst; [contradiction|]. rewrite HO by assumption. reflexivity.
  - (* tuples *)
    destruct (reads_three ts (map Expr l) ds) as (ds' & H1 & H2 & H3); [intros t y d Ht Hy; apply (Hitems _ (It_tuple l)); [exact Hy|apply PT_tuple, Ht]|assumption|].
    eapply Hgo with (d' := DSeq ds'); [reflexivity| |constructor; exact H2|].
    + assert (El : length l = length ts).
      { assert (Hl : length (map Expr l) = length ts) by (clear - H; induction H; cbn; congruence). rewrite map_length in Hl. exact Hl. }
      cbn. rewrite El, Nat.eqb_refl. apply dmap_ok. exists ds'. split; [|reflexivity].
      apply (seq_types_of ts (map Expr l) [] ds') in H1. rewrite app_nil_r, map_map in H1. exact H1.
    + intros Ot. inversion Ot; subst; [contradiction|]. rewrite H3 by assumption. reflexivity.
  - destruct (reads_three ts (map Body here) ds) as (ds' & H1 & H2 & H3).
    { intros t y d Ht Hy. apply (Hitems _ (It_blocks b b' bs)); [rewrite H, map_app; apply in_app_iff; auto|apply PT_tuple, Ht]. }
    { assumption. }
    eapply Hgo with (d' := DSeq ds'); [reflexivity| |constructor; exact H2|].
    + cbn [src_of call method_of block_call one_or_seq visit]. apply dmap_ok. exists ds'. split; [|reflexivity].
      apply (seq_types_of ts (map Body here) (map Body rest) ds') in H1. rewrite <- map_app, <- H, map_map in H1. exact H1.
    + intros Ot. inversion Ot; subst; [contradiction|]. rewrite H3 by assumption. reflexivity.
  - (* maps *)
    destruct (Hmem ms H) as (es0 & ms' & E & HH & HP & Hr).
    destruct (reads_members t ms es ms') as (es' & es'' & P1 & P2 & P3); [intros m d Hm; apply Hr; [exact Hm|apply PT_map]|exact HP|assumption|].
    eapply Hgo with (d' := DMap es''); [exact E| |econstructor; eassumption|intros Ot; inversion Ot; contradiction].
    cbn [visit]. apply dmap_ok. exists es''. split; [|reflexivity]. apply (map_all_hands de _ _ _ _ _ HH). split; [|exact P3].
    destruct k; cbn in *; [exact I| |].
    + apply map_eq_nil in H0. subst ms. apply Permutation_nil in HP. subst. reflexivity.
    + eapply Permutation_Forall; [apply Permutation_map, HP|assumption].
  - (* structs *)
    destruct (Hmem ms H) as (es0 & ms' & E & HH & HP & Hr).
    assert (Hfs : NoDup (map fst fs)) by (inversion HG; subst; [contradiction|assumption]).
    assert (Hv : exists vs', Forall2 (fun (ft : str * ty) (v : str * data) => fst v = fst ft /\
      ((exists y, In (fst ft, y) ms' /\ de (snd ft) (src_of y) = DeOk (snd v)) \/
       (~ In (fst ft) (map fst ms') /\ (exists t, snd ft = TOption t) /\ snd v = DNone))) fs vs' /\
       Forall2 (fun (e e' : str * data) => fst e' = fst e /\ Same (snd e) (snd e')) vs vs' /\ (Forall (fun ft => Ordered (snd ft)) fs -> vs' = vs)).
    { assert (Hr' : forall f t y d, In (f, t) fs -> In (f, y) ms -> Den t y d -> Reads t y d).
      { intros f t y d Hft Hy. apply (Hr t (f, y)); [exact Hy|apply PT_struct, (in_map snd _ _ Hft)]. }
      clear - H1 HP Hr'. induction H1 as [|[f t] [f' d] fs vs [Ef Hv] _ IH]; [exists []; repeat split; constructor|].
      cbn [fst snd] in *. subst f'. destruct IH as (vs' & V1 & V2 & V3); [intros f0 t0 y d0 Hf; apply Hr'; right; exact Hf|].
      destruct Hv as [(y & Hy & Hd)|(Hno & Ht & ->)].
      - destruct (Hr' f t y d (or_introl eq_refl) Hy Hd) as (d' & Ed & HS & HO). exists ((f, d') :: vs'). split; [|split].
        + constructor; [|exact V1]. cbn. split; [reflexivity|]. left. exists y. split; [eapply Permutation_in; eassumption|exact Ed].
        + constructor; [cbn; auto|exact V2].
        + intros Ot. inversion Ot; subst. cbn in *. rewrite HO, V3 by assumption. reflexivity.
      - exists ((f, DNone) :: vs'). split; [|split].
        + constructor; [|exact V1]. cbn. split; [reflexivity|]. right. split; [|auto]. intros Hi. apply Hno.
          eapply Permutation_in; [apply Permutation_sym, Permutation_map, HP|exact Hi].
        + constructor; [cbn; split; [reflexivity|constructor]|exact V2].
        + intros Ot. inversion Ot; subst. rewrite V3 by assumption. reflexivity. }
    destruct Hv as (vs' & V1 & V2 & V3). eapply Hgo with (d' := DStruct vs'); [exact E| |constructor; exact V2|].
    + cbn [visit]. apply dmap_ok. exists vs'. split; [|reflexivity]. apply (struct_hands de _ _ _ _ HH); [|exact Hfs|split; [|exact V1]].
      * eapply Permutation_NoDup; [apply Permutation_map, HP|eapply Members_nodup, H].
      * intros f y Hy Hno. apply (Permutation_in _ (Permutation_sym HP)) in Hy. destruct (Hr TIgnored (f, y) DIgnored) as (d' & Ed & _).
        -- exact Hy.
        -- apply PT_leaf. cbn. auto.
        -- apply (H0 f); assumption.
        -- eauto.
    + intros Ot. inversion Ot; subst; [contradiction|]. rewrite V3 by assumption. reflexivity.
  - (* structs by position *)
    destruct (reads_three (map snd fs) here (map snd vs)) as (ds' & H1 & H2 & H3).
    { intros t y d Ht Hy. apply (Hitems _ H); [apply in_app_iff; auto|apply PT_struct, Ht]. }
    { clear - H0. induction H0 as [|ft y v fs here vs [_ Hd] _ IH]; constructor; assumption. }
    assert (Hf : map fst vs = map fst fs) by (clear - H0; induction H0 as [|ft y v fs here vs [E _] _ IH]; cbn; congruence).
    eapply Hgo with (d' := DStruct (combine (map fst fs) ds')); [apply items_call'; [exact H|left; reflexivity]| | |].
    + cbn [visit]. apply dmap_ok. exists ds'. split; [|reflexivity]. apply seq_types_of, H1.
    + constructor. rewrite <- Hf. clear - H2. remember (map snd vs) as ds eqn:E. revert vs E.
      induction H2 as [|d d' ds ds' Hd _ IH]; intros [|v vs] E; try discriminate; [constructor|]. cbn in *. injection E as -> E. constructor; [cbn; auto|apply IH, E].
    + intros Ot. inversion Ot as [? Hc| | | | |fs0 HO]; subst; [contradiction|]. rewrite H3, <- Hf by (rewrite Forall_map; exact HO). f_equal.
      clear. induction vs as [|[f v] vs IH]; [reflexivity|]. cbn. f_equal. exact IH.
  - eapply Hone; reflexivity.
  - eapply Hone; reflexivity.
  - eapply Hone; [reflexivity|]. destruct s; reflexivity.
  - eapply Hone; [reflexivity|]. cbn [src_of call method_of expr_call expr_any]. rewrite (number_int n0 z H). reflexivity.
  - eapply Hone; [reflexivity|]. cbn [src_of call method_of expr_call expr_any]. rewrite (number_float n0 f H). reflexivity.
  - eapply Hone; [apply items_call'; [exact H|left; reflexivity]|]. cbn [visit]. apply dmap_ok. exists tt. split; [|reflexivity].
    apply ignore_seq_ok. rewrite Forall_map. rewrite Forall_forall in *. intros y Hy.
    destruct (Hitems _ H TIgnored y DIgnored Hy) as (d' & Ed & _); [apply PT_leaf; cbn; auto|auto|eauto].
  - destruct (Hmem ms H) as (es0 & ms' & E & HH & HP & Hr). eapply Hone; [exact E|]. cbn [visit]. apply dmap_ok. exists tt. split; [|reflexivity].
    apply (ignore_map_hands de _ _ _ HH). rewrite Forall_forall in *. intros m Hm. apply (Permutation_in _ (Permutation_sym HP)) in Hm.
    destruct (Hr TIgnored m DIgnored Hm) as (d' & Ed & _); [apply PT_leaf; cbn; auto|auto|eauto].
  - eapply Hone; reflexivity.
  - eapply Hone; reflexivity.
  - eapply Hone; [reflexivity|]. destruct s; reflexivity.
  - eapply Hone; [reflexivity|]. cbn [src_of call method_of expr_call expr_any]. rewrite (number_int n0 z H). reflexivity.
  - eapply Hone; [reflexivity|]. cbn [src_of call method_of expr_call expr_any]. rewrite (number_float n0 f H). reflexivity.
  - destruct (reads_list TAny items ds) as (ds' & H1 & H2 & _); [intros y d Hy; apply (Hitems items H); [exact Hy|apply PT_leaf; cbn; auto]|assumption|].
    eapply Hgo with (d' := DSeq ds'); [apply items_call'; [exact H|left; reflexivity]| |constructor; exact H2|intros Ot; inversion Ot; contradiction].
    cbn [visit]. apply dmap_ok. exists ds'. split; [apply seq_all_ok, Forall2_map_l, H1|reflexivity].
  - destruct (Hmem ms H) as (es0 & ms' & E & HH & HP & Hr).
    destruct (reads_members TAny ms es ms') as (es' & es'' & P1 & P2 & P3); [intros m d Hm; apply Hr; [exact Hm|apply PT_leaf; cbn; auto]|exact HP|assumption|].
    eapply Hgo with (d' := DMap es''); [exact E| |econstructor; eassumption|intros Ot; inversion Ot; contradiction].
    cbn [visit]. apply dmap_ok. exists es''. split; [|reflexivity]. apply (map_all_hands de _ _ _ _ _ HH). split; [exact I|exact P3].
Qed.
End Order.
