(** * PropAny: C111 and C112, documents read as any type at all *)
From Coq Require Import Permutation ZArith Reals SpecFloat Lia.
From Verif Require Import Base Ast NomFacts Blocks BlockSpec NumConv NumSpec IoSpec
  Serde SerdeSpec SerdeProofs PropSerde SerdeErrSpec SerdeErrProofs PropSerdeErr SerdeExactSpec
  Grammar Parser DocProofs PropSyntax Printer Reprint DenSpec DenProofs PropDen FailSpec FailProofs PropFails
  MapAccess AnyTarget AnySpec AnyProofs AnyAlike AnyTypes AnyTypesProofs AnyEnds.
Local Open Scope nat_scope.

(** *** Hazards can be decided *)
Lemma any_dec {A} (P : A -> Prop) (l : list A) : (forall x, In x l -> P x \/ ~ P x) -> (exists x, In x l /\ P x) \/ ~ (exists x, In x l /\ P x).
Proof.
  induction l as [|a l IH]; intros H; [right; intros (x & [] & _)|].
  destruct (H a (or_introl eq_refl)) as [Ha|Ha]; [left; exists a; split; [left; reflexivity|exact Ha]|].
  destruct IH as [(x & Hx & Px)|Hn]; [intros x Hx; apply H; right; exact Hx|left; exists x; split; [right; exact Hx|exact Px]|].
  right. intros (x & [<-|Hx] & Px); [exact (Ha Px)|apply Hn; eauto].
Qed.
Lemma split_dec {A} (P : list A -> A -> Prop) (l : list A) : forall pre, (forall l1 x, In x l -> P l1 x \/ ~ P l1 x) ->
  (exists l1 x l2, l = l1 ++ x :: l2 /\ P (pre ++ l1) x) \/ ~ (exists l1 x l2, l = l1 ++ x :: l2 /\ P (pre ++ l1) x).
Proof.
  induction l as [|a l IH]; intros pre H; [right; intros ([|? ?] & x & l2 & E & _); discriminate|].
  destruct (H pre a (or_introl eq_refl)) as [Ha|Ha]; [left; exists [], a, l; rewrite app_nil_r; auto|].
  destruct (IH (pre ++ [a])) as [(l1 & x & l2 & -> & Hx)|Hn]; [intros l1 x Hx; apply H; right; exact Hx| |].
  - left. exists (a :: l1), x, l2. rewrite <- app_assoc in Hx. auto.
  - right. intros ([|a' l1] & x & l2 & E & Hx); cbn in E; injection E as <- E.
    + rewrite app_nil_r in Hx. subst. exact (Ha Hx).
    + apply Hn. exists l1, x, l2. rewrite <- app_assoc. auto.
Qed.
Lemma in_dec_str (n : str) l : In n l \/ ~ In n l.
Proof. destruct (in_dec (list_eq_dec N.eq_dec) n l); [left|right]; assumption. Qed.
Lemma hazard_dec n : forall x, src_depth (src_of x) < n -> proper x -> Hazard x \/ ~ Hazard x.
Proof.
  induction n as [|n IH]; intros x Hn Hx; [lia|].
  assert (HB : forall b, body_depth b <= n -> Hazard (Body b) \/ ~ Hazard (Body b)).
  { intros b Hb.
    assert (Hattr : forall m e, In (m, e) (attr_list b) -> expr_depth e < n).
    { intros m e H. unfold attr_list in H. apply in_flat_map in H as ([i v|? ? ?] & H1 & H2); [|destruct H2].
      destruct H2 as [[= <- <-]|[]]. unfold body_depth in Hb. pose proof (list_max_le (map elem_depth b) (list_max (map elem_depth b))) as [HM _]. specialize (HM (le_n _)).
      rewrite Forall_forall in HM. specialize (HM _ (in_map elem_depth _ _ H1)). cbn in HM. lia. }
    assert (Hblk : forall c, In c (block_list b) -> body_depth (b_body c) < n).
    { intros c H. unfold block_list in H. apply in_flat_map in H as ([i v|ty ls bb] & H1 & H2); [destruct H2|].
      destruct H2 as [<-|[]]. unfold body_depth in Hb. pose proof (list_max_le (map elem_depth b) (list_max (map elem_depth b))) as [HM _]. specialize (HM (le_n _)).
      rewrite Forall_forall in HM. specialize (HM _ (in_map elem_depth _ _ H1)). cbn in *. unfold body_depth. lia. }
    destruct (split_dec (fun l1 ne => ~ In (fst ne) (map fst l1) /\ Hazard (Expr (snd ne))) (attr_list b) []) as [(l1 & [m e] & l2 & E & Hni & Hz)|HN1].
    { intros l1 [m e] Hi. destruct (IH (Expr e)) as [Hz|Hz]; [cbn [src_of src_depth]; specialize (Hattr m e Hi); lia|exact I| |].
      - destruct (in_dec_str m (map fst l1)); [right; intros [? _]; contradiction|left; split; assumption].
      - right. intros [_ ?]. contradiction. }
    { left. eapply H_attr; [exact E|exact Hni|exact Hz]. }
    destruct (any_dec (fun c => In (cow_str (b_type c)) (map fst (attr_list b))) (block_list b)) as [(c & Hc & Hi)|HN2].
    { intros c _. apply in_dec_str. }
    { left. eapply H_clash; eassumption. }
    destruct (any_dec (fun d => exists r, LastRun (cow_str (b_type d)) (block_list b) r /\ exists c, In c r /\ (b_labels c <> [] \/ Hazard (Body (b_body c)))) (block_list b)) as [(d & Hd & r & HL & c & Hc & Hz)|HN3].
    { intros d Hd. destruct (LastRun_exists (cow_str (b_type d)) (block_list b)) as (r & HL); [eauto|].
      destruct (any_dec (fun c => b_labels c <> [] \/ Hazard (Body (b_body c))) r) as [H|H].
      - intros c Hc. destruct (b_labels c); [|left; left; discriminate].
        destruct (IH (Body (b_body c))) as [Hz|Hz]; [|exact I|left; right; exact Hz|right; intros [?|?]; [congruence|contradiction]].
        cbn [src_of src_depth]. pose proof (Hblk c (LastRun_in _ _ _ _ HL Hc)). lia.
      - left. exists r. split; [exact HL|exact H].
      - right. intros (r' & HL' & Hc). rewrite (LastRun_unique _ _ _ _ HL' HL) in Hc. exact (H Hc). }
    { left. destruct Hz as [Hz|Hz]; [eapply H_labels|eapply H_block]; eassumption. }
    assert (Hd : forall t r, LastRun t (block_list b) r -> exists d, In d (block_list b) /\ cow_str (b_type d) = t).
    { intros t r HL. pose proof HL as [l1 l2 _ Hr Ht _ _]. destruct r as [|d r]; [congruence|]. exists d. split; [apply (LastRun_in _ _ _ _ HL); left; reflexivity|apply Ht; left; reflexivity]. }
    right. intros HH. inversion HH as [| | |b0 l1 m e l2 E Hni Hz|b0 c Hc Hi|b0 t r c HL Hc Hl|b0 t r c HL Hc Hz|]; subst.
    - apply HN1. exists l1, (m, e), l2. cbn. auto.
    - apply HN2. eauto.
    - destruct (Hd _ _ HL) as (d & Hd1 & <-). apply HN3. exists d. split; [exact Hd1|]. exists r. split; [exact HL|]. eauto.
    - destruct (Hd _ _ HL) as (d & Hd1 & <-). apply HN3. exists d. split; [exact Hd1|]. exists r. split; [exact HL|]. eauto. }
  destruct x as [e|b|bs].
  - destruct e as [|n0|b|s|l|l]; try (right; intros HH; inversion HH; fail).
    + destruct (any_dec (fun e => Hazard (Expr e)) l) as [(e & He & Hz)|HN].
      * intros e He. apply IH; [|exact I]. cbn [src_of src_depth expr_depth] in *. pose proof (list_max_le (map expr_depth l) (list_max (map expr_depth l))) as [HM _]. specialize (HM (le_n _)).
        rewrite Forall_forall in HM. specialize (HM _ (in_map expr_depth _ _ He)). lia.
      * left. eapply H_item; eassumption.
      * right. intros HH. inversion HH; subst. apply HN. eauto.
    + destruct (any_dec (fun ke : okey * expr => exists k, fst ke = KExpr k) l) as [([k e] & He & k' & Ek)|HN].
      * intros [[i|k] e] _; [right; intros (k & E); discriminate|left; exists k; reflexivity].
      * left. cbn in Ek. subst k. eapply H_key; exact He.
      * destruct (split_dec (fun l1 (ke : okey * expr) => exists k, fst ke = KIdent k /\ (forall k' e', In (KIdent k', e') l1 -> cow_str k' <> cow_str k) /\ Hazard (Expr (snd ke))) l []) as [(l1 & [k e] & l2 & E & k' & Ek & Hf & Hz)|HN'].
        -- intros l1 [[k|k] e] Hi; [|right; intros (k' & E & _); discriminate].
           destruct (IH (Expr e)) as [Hz|Hz].
           { cbn [src_of src_depth expr_depth] in *. pose proof (list_max_le (map (fun ke => expr_depth (snd ke)) l) (list_max (map (fun ke => expr_depth (snd ke)) l))) as [HM _]. specialize (HM (le_n _)).
             rewrite Forall_forall in HM. specialize (HM _ (in_map (fun ke => expr_depth (snd ke)) _ _ Hi)). cbn in HM. lia. }
           { exact I. }
           { destruct (any_dec (fun ke : okey * expr => exists k', fst ke = KIdent k' /\ cow_str k' = cow_str k) l1) as [([ke e'] & Hin & k' & Ek & Es)|Hno].
             - intros [[k'|k'] e'] _; cbn; [|right; intros (k0 & E & _); discriminate]. destruct (list_eq_dec N.eq_dec (cow_str k') (cow_str k)) as [E|E]; [left; eauto|right; intros (k0 & [= <-] & E'); contradiction].
             - right. intros (k0 & [= <-] & Hf & _). cbn in Ek. subst ke. exact (Hf _ _ Hin Es).
             - left. exists k. split; [reflexivity|]. split; [|exact Hz]. intros k' e' Hin Es. apply Hno. exists (KIdent k', e'). split; [exact Hin|]. exists k'. auto. }
           { right. intros (k0 & _ & _ & ?). contradiction. }
        -- left. cbn in Ek, Hf, Hz. subst. eapply H_member; eassumption.
        -- right. intros HH. inversion HH; subst.
           ++ apply HN. eexists. split; [eassumption|]. eexists. reflexivity.
           ++ apply HN'. eexists l1, (KIdent k, e), l2. split; [reflexivity|]. exists k. cbn. auto.
  - apply HB. cbn [src_of src_depth] in Hn. lia.
  - destruct (any_dec (fun b => Hazard (Body b)) bs) as [(b & Hb & Hz)|HN].
    + intros b Hb. apply HB. cbn [src_of src_depth] in Hn.
      pose proof (list_max_le (map (fun pb => body_depth (snd pb)) (flat_iter (BBody bs))) (list_max (map (fun pb => body_depth (snd pb)) (flat_iter (BBody bs))))) as [HM _]. specialize (HM (le_n _)).
      rewrite Forall_forall in HM. cbn [flat_iter] in *. rewrite map_map in *. cbn [snd] in *. specialize (HM _ (in_map (fun x => body_depth x) _ _ Hb)). lia.
    + left. eapply H_group; eassumption.
    + right. intros HH. inversion HH; subst. apply HN. eauto.
Qed.

(** ** C111: which documents can make a type panic *)
(** A reading that ended has ended: more steps change nothing. *)
Theorem C111_steps : forall U ord D (c : target D) s f f', f <= f' -> from_str_any ord U f c s <> Running ->
  from_str_any ord U f' c s = from_str_any ord U f c s.
Proof.
  intros U ord D c s f f' Hf H. unfold from_str_any in *. destruct (parse_str U s); try reflexivity. apply (run_mono ord f f' Hf c _ H).
Qed.
Theorem C111_panics : forall U ord, Order ord -> forall s,
  (exists D (c : target D) f, Polite c /\ from_str_any ord U f c s = Panicked) <->
  parse_str U s = PanicR \/ exists b, GConfig U b s /\ Hazard (Body b).
Proof.
  intros U ord Ho s. split.
  - intros (D & c & f & Hc & H). unfold from_str_any in H. destruct (parse_str U s) as [b|e| |] eqn:E; try discriminate; [|left; reflexivity].
    right. exists b. split; [apply C01_parse_str_grammar, E|].
    destruct (hazard_dec _ (Body b) (Nat.lt_succ_diag_r _) I) as [HZ|HZ]; [exact HZ|]. exfalso. exact (run_safe ord Ho f c (Body b) Hc I HZ H).
  - intros [E|(b & Hb & HH)].
    + exists unit, walker, 0. split; [apply walker_polite|]. unfold from_str_any. rewrite E. reflexivity.
    + destruct (walk ord Ho _ (Body b) (Nat.lt_succ_diag_r _) I) as (r & [_ (F & HE)] & Hr). specialize (Hr HH). subst r.
      exists unit, walker, F. split; [apply walker_polite|]. unfold from_str_any. apply C01_parse_str_grammar in Hb. rewrite Hb. apply HE, le_n.
Qed.
(** So a document without hazards is safe with every type that keeps to the protocol ... *)
Theorem C111_safe : forall U ord, Order ord -> forall s b, GConfig U b s -> ~ Hazard (Body b) ->
  forall D (c : target D) f, Polite c -> from_str_any ord U f c s <> Panicked.
Proof.
  intros U ord Ho s b Hb HZ D c f Hc. unfold from_str_any. apply C01_parse_str_grammar in Hb. rewrite Hb. exact (run_safe ord Ho f c (Body b) Hc I HZ).
Qed.
(** ... and with one that does not (it asks for a value first) every document panics. *)
Theorem C111_impolite : forall U ord, exists c : target unit, ~ Polite c /\ forall s b, GConfig U b s -> exists f, from_str_any ord U f c s = Panicked.
Proof.
  intros U ord. exists (Target MAny (fun _ => Good tt) (IRet (Good tt)) (IRet (Good tt)) (SRet (Good tt)) (MVal walker (fun o => MRet o))). split.
  - intros H. inversion H as [? ? ? ? ? ? _ _ _ HM]. inversion HM.
  - intros s b Hb. exists 2. unfold from_str_any. apply C01_parse_str_grammar in Hb. rewrite Hb. reflexivity.
Qed.
(** The types of the other properties are such types, and what they read is what is said
    there. *)
Theorem C111_types : forall U ord, Order ord -> forall t, Polite (target_of t) /\ forall s,
  (forall d, from_str U ord t s = DeOk d <-> exists f, from_str_any ord U f (target_of t) s = Done (Good d)) /\
  (forall e, from_str U ord t s = DeErr e <-> exists f, from_str_any ord U f (target_of t) s = Done (Bad e)) /\
  (from_str U ord t s = DePanic <-> exists f, from_str_any ord U f (target_of t) s = Panicked).
Proof.
  intros U ord Ho t. split; [apply target_of_polite|]. intros s.
  assert (HX : from_str U ord t s <> DeFuel /\ (exists f, from_str_any ord U f (target_of t) s = embed (from_str U ord t s))).
  { unfold from_str, from_str_any. destruct (parse_str U s) as [b|e| |] eqn:E.
    - assert (HT : deserialize ord t (SBody b) <> DeFuel) by apply (deserialize_total ord Ho). split; [exact HT|].
      destruct (types_run ord (ty_depth t + src_depth (SBody b)) t (SBody b) HT) as [_ H]. exact H.
    - split; [discriminate|]. exists 0. reflexivity.
    - split; [discriminate|]. exists 0. reflexivity.
    - exfalso. exact (C02_parse_str_terminates U s E). }
  destruct HX as [HN (f & Ef)].
  assert (HU : forall r, r <> Running -> (exists g, from_str_any ord U g (target_of t) s = r) -> r = embed (from_str U ord t s)).
  { intros r Hr (g & Eg). assert (He : embed (from_str U ord t s) <> Running) by (apply embed_run, HN).
    rewrite <- Eg in Hr. rewrite <- Ef in He. rewrite <- Ef, <- Eg.
    rewrite <- (C111_steps U ord _ _ _ f (f + g) ltac:(lia) He), <- (C111_steps U ord _ _ _ g (f + g) ltac:(lia) Hr). reflexivity. }
  split; [|split].
  - intros d. split; [intros E; exists f; rewrite Ef, E; reflexivity|]. intros H. apply HU in H; [|discriminate]. destruct (from_str U ord t s); cbn in H; congruence.
  - intros e. split; [intros E; exists f; rewrite Ef, E; reflexivity|]. intros H. apply HU in H; [|discriminate]. destruct (from_str U ord t s); cbn in H; congruence.
  - split; [intros E; exists f; rewrite Ef, E; reflexivity|]. intros H. apply HU in H; [|discriminate]. destruct (from_str U ord t s); cbn in H; congruence.
Qed.

(** ** C112: what no type can tell apart *)
Theorem C112_exact : forall U ord, Order ord -> exists vo, Visiting vo /\
  forall s s' b b', GConfig U b s -> GConfig U b' s' -> ~ Hazard (Body b) -> ~ Hazard (Body b') ->
  ((forall D (c : target D), Polite c -> forall o, (exists f, from_str_any ord U f c s = Done o) <-> (exists f, from_str_any ord U f c s' = Done o))
   <-> Alike vo (Body b) (Body b')).
Proof.
  intros U ord Ho. exists (vo_of ord). split; [apply vo_visiting, Ho|]. intros s s' b b' Hb Hb' HZ HZ'.
  apply C01_parse_str_grammar in Hb, Hb'. unfold from_str_any. rewrite Hb, Hb'. split.
  - intros H. apply (alike_complete ord Ho _ (Body b) (Body b') (Nat.lt_succ_diag_r _)); try exact I; try assumption; try (eapply parsed_lits; eassumption).
    intros D c Hc r. unfold Eval. cbn [src_of]. split; intros [Hr (f & E)]; (split; [exact Hr|]); destruct r as [o| |]; try congruence.
    + apply (H D c Hc o). eauto.
    + exfalso. exact (run_safe ord Ho f c (Body b) Hc I HZ E).
    + apply (H D c Hc o). eauto.
    + exfalso. exact (run_safe ord Ho f c (Body b') Hc I HZ' E).
  - intros HA D c Hc o. pose proof (fun f => alike_run ord Ho f c (Body b) (Body b') HA I) as HE. cbn [src_of] in HE. split; intros (f & E); exists f; [rewrite <- HE|rewrite HE]; exact E.
Qed.
(** Documents that look alike are read alike by all types, those that panic included. *)
Theorem C112_alike : forall U ord, Order ord -> exists vo, Visiting vo /\
  forall s s' b b', GConfig U b s -> GConfig U b' s' -> Alike vo (Body b) (Body b') ->
  forall D (c : target D) f, from_str_any ord U f c s = from_str_any ord U f c s'.
Proof.
  intros U ord Ho. exists (vo_of ord). split; [apply vo_visiting, Ho|]. intros s s' b b' Hb Hb' HA D c f.
  apply C01_parse_str_grammar in Hb, Hb'. unfold from_str_any. rewrite Hb, Hb'. exact (alike_run ord Ho f c (Body b) (Body b') HA I).
Qed.
Print Assumptions C111_steps.
Print Assumptions C111_panics.
Print Assumptions C111_safe.
Print Assumptions C111_impolite.
Print Assumptions C111_types.
Print Assumptions C112_exact.
Print Assumptions C112_alike.

(** Harmless: the labels are not in the last run of [x] blocks; nothing is read of the second
    [a].  Then a document with labels that count, one with a strange key inside, and one
    with an attribute and a block of one name. *)
Lemma no_hazard ord : Order ord -> forall b f o, run ord f walker (SBody b) = Done o -> ~ Hazard (Body b).
Proof.
  intros Ho b f o E HH. destruct (walk ord Ho _ (Body b) (Nat.lt_succ_diag_r _) I) as (r & [Hr (F & HE)] & Hp). rewrite (Hp HH) in HE.
  specialize (HE (f + F) ltac:(lia)). pose proof (run_mono ord f (f + F) ltac:(lia) walker (SBody b)) as HM. cbn [src_of] in HE. rewrite E, HE in HM. specialize (HM ltac:(discriminate)). discriminate.
Qed.
Definition C111_calm : str := lit "a = [1, {b = 2}]
x ""l"" {
}
y {
}
x {
  c = {d = null}
}
a = {(1) = 2}
".
Definition C111_label : str := lit "x {
}
y {
  x ""l"" {
  }
}
".
Definition C111_key : str := lit "a = [{(1) = 2}]
".
Definition C111_clash : str := lit "x = 1
x {
}
".
Example C111_nonvacuous :
  (exists b, GConfig ascii_ucd b C111_calm /\ ~ Hazard (Body b)) /\
  (forall D (c : target D) f, Polite c -> from_str_any id_ord ascii_ucd f c C111_calm <> Panicked) /\
  from_str_any id_ord ascii_ucd 9 (target_of (TStruct [(lit "x", TIgnored)])) C111_label = Panicked /\
  from_str_any id_ord ascii_ucd 9 (target_of (TStruct [(lit "a", TSeq (TMap KTString TIgnored))])) C111_key = Panicked /\
  from_str_any id_ord ascii_ucd 9 (target_of (TMap KTString TIgnored)) C111_clash = Panicked /\
  (forall s, In s [C111_label; C111_key; C111_clash] -> exists b, GConfig ascii_ucd b s /\ Hazard (Body b)).
Proof.
  assert (HC : exists b, GConfig ascii_ucd b C111_calm /\ ~ Hazard (Body b)).
  { destruct (parse_str ascii_ucd C111_calm) as [b|e| |] eqn:E; try (vm_compute in E; discriminate). exists b. split; [apply C01_parse_str_grammar, E|].
    vm_compute in E. injection E as <-. apply (no_hazard id_ord id_Order _ 15 (Good tt)). vm_compute. reflexivity. }
  split; [exact HC|]. split; [destruct HC as (b & Hb & HZ); exact (C111_safe ascii_ucd id_ord id_Order _ b Hb HZ)|].
  assert (E1 : from_str_any id_ord ascii_ucd 9 (target_of (TStruct [(lit "x", TIgnored)])) C111_label = Panicked) by (vm_compute; reflexivity).
  assert (E2 : from_str_any id_ord ascii_ucd 9 (target_of (TStruct [(lit "a", TSeq (TMap KTString TIgnored))])) C111_key = Panicked) by (vm_compute; reflexivity).
  assert (E3 : from_str_any id_ord ascii_ucd 9 (target_of (TMap KTString TIgnored)) C111_clash = Panicked) by (vm_compute; reflexivity).
  split; [exact E1|]. split; [exact E2|]. split; [exact E3|].
  assert (HP : forall s t f, from_str_any id_ord ascii_ucd f (target_of t) s = Panicked -> parse_str ascii_ucd s <> PanicR -> exists b, GConfig ascii_ucd b s /\ Hazard (Body b)).
  { intros s t f E HN. destruct (proj1 (C111_panics ascii_ucd id_ord id_Order s)) as [H|H]; [|contradiction|exact H]. exists data, (target_of t), f. split; [apply target_of_polite|exact E]. }
  intros s [<-|[<-|[<-|[]]]]; (eapply HP; [eassumption|vm_compute; discriminate]).
Qed.

(** Alike: [7] and [+07]; only the name of the second [a] counts.  Not alike: [1] and [1.0]. *)
Definition C112_one : str := lit "a = [7, ""s""]
a = 2
".
Definition C112_two : str := lit "# no difference
a = [
  +07,
  ""s"",
]
a = {(1) = null}
".
Definition C112_int : str := lit "a = 1
".
Definition C112_float : str := lit "a = 1.0
".
Example C112_nonvacuous :
  (exists vo b b', Visiting vo /\ GConfig ascii_ucd b C112_one /\ GConfig ascii_ucd b' C112_two /\ b <> b' /\ ~ Hazard (Body b) /\ ~ Hazard (Body b') /\ Alike vo (Body b) (Body b')) /\
  (forall D (c : target D) f, from_str_any id_ord ascii_ucd f c C112_one = from_str_any id_ord ascii_ucd f c C112_two) /\
  (forall vo b b', Visiting vo -> GConfig ascii_ucd b C112_int -> GConfig ascii_ucd b' C112_float -> ~ Alike vo (Body b) (Body b')).
Proof.
  assert (HV : forall vo, Visiting vo -> exists b b', GConfig ascii_ucd b C112_one /\ GConfig ascii_ucd b' C112_two /\ b <> b' /\ ~ Hazard (Body b) /\ ~ Hazard (Body b') /\ Alike vo (Body b) (Body b')).
  { intros vo HV. destruct (parse_str ascii_ucd C112_one) as [b|e| |] eqn:E; try (vm_compute in E; discriminate).
    destruct (parse_str ascii_ucd C112_two) as [b'|e| |] eqn:E'; try (vm_compute in E'; discriminate).
    exists b, b'. split; [apply C01_parse_str_grammar, E|]. split; [apply C01_parse_str_grammar, E'|].
    vm_compute in E, E'. injection E as <-. injection E' as <-. split; [discriminate|].
    split; [apply (no_hazard id_ord id_Order _ 15 (Good tt)); vm_compute; reflexivity|].
    split; [apply (no_hazard id_ord id_Order _ 15 (Good tt)); vm_compute; reflexivity|].
    assert (HN : forall b, block_list b = [] -> vo b = []).
    { intros b Eb. destruct (HV b) as [_ H]. destruct (vo b) as [|t l]; [reflexivity|]. destruct (proj1 (H t) (or_introl eq_refl)) as (c & Hc & _). rewrite Eb in Hc. destruct Hc. }
    eapply A_body.
    - apply Of_body. rewrite HN by reflexivity. constructor.
    - apply Of_body. rewrite HN by reflexivity. constructor.
    - cbn [attr_list flat_map app map fst snd]. apply AM_first; [intros []| |].
      + apply A_tuple. constructor; [|constructor; [apply A_string|constructor]].
        apply (A_int vo _ _ 7%Z).
        * exists (lit "7"). split; [|split; [|cbn; lia]].
          -- refine (NL true [] (Some [55%N]) None [55%N] None [] Sign_none _ X_none). apply M_int; [discriminate|]. intros c [<-|[]]. lia.
          -- refine (IT true [] [55%N] Sign_none _ _); [discriminate|]. intros c [<-|[]]. lia.
        * exists (lit "+07"). split; [|split; [|cbn; lia]].
          -- refine (NL true [43%N] (Some [48; 55]%N) None [48; 55]%N None [] Sign_plus _ X_none). apply M_int; [discriminate|]. intros c [<-|[<-|[]]]; lia.
          -- refine (IT true [43%N] [48; 55]%N Sign_plus _ _); [discriminate|]. intros c [<-|[<-|[]]]; lia.
      + apply AM_again; [left; reflexivity|]. constructor. }
  split; [|split].
  - destruct (C112_exact ascii_ucd id_ord id_Order) as (vo & Hvo & _). destruct (HV vo Hvo) as (b & b' & H). exists vo, b, b'. split; [exact Hvo|exact H].
  - destruct (C112_alike ascii_ucd id_ord id_Order) as (vo & Hvo & HA). destruct (HV vo Hvo) as (b & b' & Hb & Hb' & _ & _ & _ & H). intros D c f. apply (HA _ _ b b' Hb Hb' H).
  - intros vo b b' Hvo Hb Hb' HA. apply C01_parse_str_grammar in Hb, Hb'. vm_compute in Hb, Hb'. injection Hb as <-. injection Hb' as <-.
    inversion HA as [| | | | | | | |? ? os os' HO HO' HM|]; subst. inversion HO as [|b g HG|]; subst. inversion HO' as [|b g' HG'|]; subst. cbn in HM.
    inversion HM as [|seen n y y' p p' l l' Hs HY HR|seen n y y' p l l' Hin]; subst; [|destruct Hin]. inversion HY as [| | |n1 n2 z Hz Hz'|n1 n2 f Hf Hf'|n1 n2 t t' z z' Ht Hi Hr Ht' Hi' Hr'| | | |]; subst.
    + apply number_int in Hz'. vm_compute in Hz'. discriminate.
    + apply number_float in Hf. vm_compute in Hf. discriminate.
    + pose proof (number_large _ _ _ Ht' Hi' Hr') as E. vm_compute in E. discriminate.
Qed.

(** ** C113: when readings end *)
(** A target that asks finitely many questions of one part, whatever the answers, comes to
    an end on every text, also if it goes on into the parts of parts for ever. *)
Theorem C113_ends : forall U ord, Order ord -> forall D (c : target D), Fair c -> forall s, exists f, from_str_any ord U f c s <> Running.
Proof.
  intros U ord Ho D c Hc s. unfold from_str_any. pose proof (C02_parse_str_terminates U s) as HT.
  destruct (parse_str U s) as [b|e| |]; try (exists 0; discriminate); [|congruence].
  destruct (fair_ends ord Ho c Hc (SBody b)) as (r & Hr & (f & E)). exists f. rewrite E. exact Hr.
Qed.
(** Self-describing values and the targets of the other properties are fair. *)
Inductive TypeTarget : target data -> Prop :=
| TT t : TypeTarget (target_of t).
Lemma steps_collect t fin n : TypeTarget t -> forall acc, StepsS TypeTarget n (collect t fin acc).
Proof. intros Ht. induction n as [|n IH]; intros acc; rewrite collect_eq; constructor; [constructor|exact Ht|]. intros [d|e]; [apply IH|constructor]. Qed.
Lemma steps_collect_types fin ts : Forall TypeTarget ts -> forall n acc, StepsS TypeTarget n (collect_types ts fin acc).
Proof. induction 1 as [|t ts Ht _ IH]; intros n acc; cbn [collect_types]; [constructor|]. destruct n; constructor; [constructor|exact Ht|]. intros [d|e]; [apply IH|constructor]. Qed.
Lemma steps_first t n : TypeTarget t -> StepsS TypeTarget n (first_item t).
Proof. intros Ht. destruct n; constructor; [constructor|exact Ht|constructor]. Qed.
Lemma steps_map k t n : TypeTarget t -> forall acc, StepsM TypeTarget n (collect_map k t acc).
Proof.
  intros Ht. induction n as [|n IH]; intros acc; rewrite collect_map_eq; constructor; [constructor| |intros e; constructor].
  intros x. destruct (key_ok k (Borrowed x)); constructor; [exact Ht|]. intros [d|e]; [apply IH|constructor].
Qed.
Lemma steps_fields fs fin n : Forall (fun ft => TypeTarget (snd ft)) fs -> forall acc, StepsM TypeTarget n (collect_fields fs fin acc).
Proof.
  intros Ht. induction n as [|n IH]; intros acc; rewrite collect_fields_eq; constructor; [constructor| |intros e; constructor].
  intros x. destruct (field_get x fs) as [t|] eqn:E.
  - destruct (field_get x acc); constructor; [|intros [d|e]; [apply IH|constructor]].
    unfold field_get in E. destruct (find _ fs) as [[f t']|] eqn:EF; [|discriminate]. injection E as ->. apply find_some in EF as [EF _]. rewrite Forall_forall in Ht. exact (Ht _ EF).
  - constructor; [apply (TT TIgnored)|intros [d|e]; [apply IH|constructor]].
Qed.
Lemma steps_ignore_items n : StepsS TypeTarget n ignore_items.
Proof. induction n as [|n IH]; rewrite ignore_items_eq; constructor; [constructor|apply (TT TIgnored)|]. intros [d|e]; [exact IH|constructor]. Qed.
Lemma steps_ignore_members n : StepsM TypeTarget n ignore_members.
Proof. induction n as [|n IH]; rewrite ignore_members_eq; constructor; [constructor| |intros e; constructor]. intros x. constructor; [apply (TT TIgnored)|]. intros [d|e]; [exact IH|constructor]. Qed.
Lemma steps_any_items n : forall acc, StepsS TypeTarget n (any_items acc).
Proof. induction n as [|n IH]; intros acc; rewrite any_items_eq; constructor; [constructor|apply (TT TAny)|]. intros [d|e]; [apply IH|constructor]. Qed.
Lemma steps_any_members n : forall acc, StepsM TypeTarget n (any_members acc).
Proof. induction n as [|n IH]; intros acc; rewrite any_members_eq; constructor; [constructor| |intros e; constructor]. intros x. constructor; [apply (TT TAny)|]. intros [d|e]; [apply IH|constructor]. Qed.
Lemma steps_types : forall t, StepsT TypeTarget (target_of t).
Proof.
  fix IH 1. intros t. destruct t as [|it| | | | | | |t|t|t|ts|k t|fs| | | |]; cbn [target_of]; try (constructor; try (intros n); constructor; fail).
  - constructor; [constructor; apply IH|constructor|intros n; constructor|intros n; constructor].
  - constructor; [constructor|constructor; apply IH|intros n; apply steps_first, TT|intros n; constructor].
  - constructor; [constructor|constructor|intros n; apply steps_collect, TT|intros n; constructor].
  - constructor; [constructor|constructor| |intros n; constructor]. intros n. apply steps_collect_types. apply Forall_forall. intros x Hx. apply in_map_iff in Hx as (t & <- & _). constructor.
  - constructor; [constructor|constructor|intros n; constructor|intros n; apply steps_map, TT].
  - constructor; [constructor|constructor| |]; intros n.
    + apply steps_collect_types. apply Forall_forall. intros x Hx. apply in_map_iff in Hx as (t & <- & _). constructor.
    + apply steps_fields. apply Forall_forall. intros x Hx. apply in_map_iff in Hx as (t & <- & _). constructor.
  - constructor; [constructor|constructor|intros n; apply steps_collect, (TT (TInt U8))|intros n; constructor].
  - rewrite ignore_eq. constructor; [constructor|constructor|intros n; apply steps_ignore_items|intros n; apply steps_ignore_members].
  - rewrite anything_eq. constructor; [constructor|constructor|intros n; apply steps_any_items|intros n; apply steps_any_members].
Qed.
Theorem C113_types : forall t, Fair (target_of t).
Proof. intros t. exists TypeTarget. split; [constructor|]. intros c [t']. apply steps_types. Qed.
(** [struct Loop(Option<Box<Loop>>)] is not: both hand on the same part, and reading it from
    anything but [null] never ends (it overflows the stack). *)
CoFixpoint looping : target unit :=
  Target MNewtype (fun _ => Bad (ECustom CInvalidType)) (IRet (Bad (ECustom CInvalidType)))
    (IAsk (Target MOption (fun _ => Good tt) (IAsk looping (fun o => o)) (IRet (Bad (ECustom CInvalidType))) (SRet (Bad (ECustom CInvalidType))) (MRet (Bad (ECustom CInvalidType)))) (fun o => o))
    (SRet (Bad (ECustom CInvalidType))) (MRet (Bad (ECustom CInvalidType))).
Definition looping_doc : target unit :=
  Target MAny (fun _ => Good tt) (IRet (Good tt)) (IRet (Good tt)) (SRet (Good tt)) (MKey (fun a => match a with GotKey _ => MVal looping (fun o => MRet o) | _ => MRet (Good tt) end)).
Lemma looping_eq : looping = Target MNewtype (fun _ => Bad (ECustom CInvalidType)) (IRet (Bad (ECustom CInvalidType)))
    (IAsk (Target MOption (fun _ => Good tt) (IAsk looping (fun o => o)) (IRet (Bad (ECustom CInvalidType))) (SRet (Bad (ECustom CInvalidType))) (MRet (Bad (ECustom CInvalidType)))) (fun o => o))
    (SRet (Bad (ECustom CInvalidType))) (MRet (Bad (ECustom CInvalidType))).
Proof. rewrite (target_frob_eq looping) at 1. reflexivity. Qed.
Lemma looping_runs ord e : e <> ENull -> forall f, run ord f looping (SExpr e) = Running.
Proof.
  intros He f. induction f as [f IH] using lt_wf_ind. destruct f as [|[|f]]; [reflexivity| |]; rewrite looping_eq; [reflexivity|].
  assert (EC : call ord (SExpr e) MOption = VSome (SExpr e)) by (destruct e; try reflexivity; congruence).
  rewrite run_react. cbn [method_target]. change (call ord (SExpr e) MNewtype) with (VNewtype (SExpr e)). cbn [react run_inner].
  rewrite run_react. cbn [method_target]. rewrite EC. cbn [react run_inner]. rewrite IH by lia. reflexivity.
Qed.
Theorem C113_recursive_newtype : forall U ord s n e l, GConfig U (Attr n e :: l) s -> e <> ENull ->
  Polite looping_doc /\ forall f, from_str_any ord U f looping_doc s = Running.
Proof.
  intros U ord s n e l Hb He. split.
  - constructor; try constructor; [|constructor|intros; constructor]. intros x. constructor; [|intros; constructor].
    cofix CH. rewrite looping_eq. constructor; [constructor| |constructor|constructor]. constructor. constructor; [constructor; exact CH|constructor|constructor|constructor].
  - intros f. unfold from_str_any. apply C01_parse_str_grammar in Hb. rewrite Hb. destruct f as [|[|[|f]]]; try reflexivity.
    rewrite run_react. cbn [method_target looping_doc call]. unfold body_any. cbn [react run_map]. cbn -[run looping]. rewrite (looping_runs ord e He (S (S f))). reflexivity.
Qed.
Print Assumptions C113_ends.
Print Assumptions C113_types.
Print Assumptions C113_recursive_newtype.
Example C113_nonvacuous :
  Fair anything /\ from_str_any id_ord ascii_ucd 30 anything C111_label = Panicked /\ Fair walker /\
  (exists b, GConfig ascii_ucd b C112_one /\ exists n e l, b = Attr n e :: l /\ e <> ENull).
Proof.
  split; [apply (C113_types TAny)|]. split; [vm_compute; reflexivity|]. split.
  - pose (F := fun c : target unit => c = walker). exists F. split; [reflexivity|]. intros c Hc. unfold F in Hc. subst c. rewrite walker_eq. constructor; [constructor|constructor| |]; intros n.
    + induction n as [|n IH]; rewrite walk_seq_eq; constructor; [constructor|reflexivity|]. intros o. exact IH.
    + induction n as [|n IH]; rewrite walk_map_eq; constructor; [constructor| |intros e; exact IH]. intros x. constructor; [reflexivity|]. intros o. exact IH.
  - destruct (parse_str ascii_ucd C112_one) as [b|e| |] eqn:E; try (vm_compute in E; discriminate). exists b. split; [apply C01_parse_str_grammar, E|].
    vm_compute in E. injection E as <-. do 3 eexists. split; [reflexivity|discriminate].
Qed.
