(** * FailProofs: proofs about FailSpec.v *)
From Coq Require Import Permutation ZArith Reals SpecFloat Lia ListDec.
From Verif Require Import Base Ast NomFacts Blocks BlockSpec BlockProofs PropBlocks BlockExactSpec BlockExact PropBlockExact NumConv NumSpec NumProofs PropNum FloatConv IoSpec
  Serde SerdeSpec SerdeProofs PropSerde SerdeErrSpec SerdeErrProofs PropSerdeErr SerdeExactSpec PropSerdeExact PropWrap
  Grammar Parser DocProofs PropSyntax Printer Reprint FloatSpec FloatProofs PropFloat PropFloatRead PropSerdeScalar DenSpec DenProofs FailSpec.
Local Open Scope nat_scope.

Definition res_of {A} (p : problem) : dres A := match p with Error e => DeErr e | Panic => DePanic end.
Lemma res_of_inj {A} p q : @res_of A p = res_of q -> p = q.
Proof. destruct p, q; cbn; congruence. Qed.
Lemma res_of_ok {A} p (a : A) : res_of p <> DeOk a.
Proof. destruct p; discriminate. Qed.
Lemma dmap_res {A B} (f : A -> B) r p : dmap f r = res_of p <-> r = res_of p.
Proof. destruct p, r; cbn; split; congruence. Qed.

(** ** Sequences *)
Section Rec.
Variable rec : ty -> src -> dres data.
Definition okay (t : ty) (s : src) : Prop := exists d, rec t s = DeOk d.
Lemma seq_all_bad t l p : seq_all rec t l = res_of p <-> exists l1 y l2, l = l1 ++ y :: l2 /\ Forall (okay t) l1 /\ rec t y = res_of p.
Proof.
  induction l as [|s l IH]; cbn [seq_all].
  - split; [destruct p; discriminate|]. intros ([|? ?] & ? & ? & E & _); discriminate.
  - split.
    + destruct (rec t s) as [d|e| |] eqn:E; cbn [dbind].
      * rewrite dmap_res, IH. intros (l1 & y & l2 & -> & HF & Hy). exists (s :: l1), y, l2. split; [reflexivity|]. split; [|exact Hy]. constructor; [exists d; exact E|exact HF].
      * intros H. exists [], s, l. split; [reflexivity|]. split; [constructor|]. rewrite E. destruct p; cbn in *; congruence.
      * intros H. exists [], s, l. split; [reflexivity|]. split; [constructor|]. rewrite E. destruct p; cbn in *; congruence.
      * destruct p; discriminate.
    + intros ([|s' l1] & y & l2 & E & HF & Hy); injection E as -> ->.
      * rewrite Hy. destruct p; reflexivity.
      * inversion HF as [|? ? [d Hd] HF']; subst. rewrite Hd. cbn [dbind]. rewrite dmap_res. apply IH. eauto 6.
Qed.
Lemma ignore_seq_bad l p : ignore_seq rec l = res_of p <-> exists l1 y l2, l = l1 ++ y :: l2 /\ Forall (okay TIgnored) l1 /\ rec TIgnored y = res_of p.
Proof.
  induction l as [|s l IH]; cbn [ignore_seq].
  - split; [destruct p; discriminate|]. intros ([|? ?] & ? & ? & E & _); discriminate.
  - split.
    + destruct (rec TIgnored s) as [d|e| |] eqn:E; cbn [dbind].
      * rewrite IH. intros (l1 & y & l2 & -> & HF & Hy). exists (s :: l1), y, l2. split; [reflexivity|]. split; [|exact Hy]. constructor; [exists d; exact E|exact HF].
      * intros H. exists [], s, l. split; [reflexivity|]. split; [constructor|]. rewrite E. destruct p; cbn in *; congruence.
      * intros H. exists [], s, l. split; [reflexivity|]. split; [constructor|]. rewrite E. destruct p; cbn in *; congruence.
      * destruct p; discriminate.
    + intros ([|s' l1] & y & l2 & E & HF & Hy); injection E as -> ->.
      * rewrite Hy. destruct p; reflexivity.
      * inversion HF as [|? ? [d Hd] HF']; subst. rewrite Hd. cbn [dbind]. apply IH. eauto 6.
Qed.
Lemma seq_types_bad ts : forall l p, seq_types rec ts l = res_of p <->
  (exists ts1 t ts2 l1 y l2, ts = ts1 ++ t :: ts2 /\ l = l1 ++ y :: l2 /\ Forall2 okay ts1 l1 /\ rec t y = res_of p) \/
  (p = Error (ECustom CInvalidLength) /\ exists ts1 t ts2, ts = ts1 ++ t :: ts2 /\ Forall2 okay ts1 l).
Proof.
  induction ts as [|t ts IH]; intros l p; cbn [seq_types].
  - split; [destruct p; discriminate|]. intros [([|? ?] & ? & ? & ? & ? & ? & E & _)|(_ & [|? ?] & ? & ? & E & _)]; discriminate.
  - destruct l as [|s l].
    + split.
      * intros H. right. split; [destruct p; cbn in H; congruence|]. exists [], t, ts. split; [reflexivity|constructor].
      * intros [(ts1 & t' & ts2 & [|? ?] & y & l2 & _ & E & _)|[-> _]]; [discriminate|discriminate|reflexivity].
    + split.
      * destruct (rec t s) as [d|e| |] eqn:E; cbn [dbind].
        -- rewrite dmap_res, IH. intros [(ts1 & t' & ts2 & l1 & y & l2 & -> & -> & HF & Hy)|(-> & ts1 & t' & ts2 & -> & HF)].
           ++ left. exists (t :: ts1), t', ts2, (s :: l1), y, l2. split; [reflexivity|]. split; [reflexivity|]. split; [|exact Hy]. constructor; [exists d; exact E|exact HF].
           ++ right. split; [reflexivity|]. exists (t :: ts1), t', ts2. split; [reflexivity|]. constructor; [exists d; exact E|exact HF].
        -- intros H. left. exists [], t, ts, [], s, l. split; [reflexivity|]. split; [reflexivity|]. split; [constructor|]. rewrite E. destruct p; cbn in *; congruence.
        -- intros H. left. exists [], t, ts, [], s, l. split; [reflexivity|]. split; [reflexivity|]. split; [constructor|]. rewrite E. destruct p; cbn in *; congruence.
        -- destruct p; discriminate.
      * intros [(ts1 & t' & ts2 & l1 & y & l2 & E & E' & HF & Hy)|(-> & ts1 & t' & ts2 & E & HF)].
        -- destruct HF as [|t0 s0 ts1 l1 [d Hd] HF]; injection E as -> ->; injection E' as -> ->.
           ++ rewrite Hy. destruct p; reflexivity.
           ++ rewrite Hd. cbn [dbind]. rewrite dmap_res. apply IH. left. eauto 10.
        -- inversion HF as [|t0 s0 ts1' l1 [d Hd] HF']; subst. injection E as -> ->. rewrite Hd. cbn [dbind]. rewrite dmap_res. apply IH. right. eauto 8.
Qed.

(** ** Members *)
Lemma key_ok_fits k c : key_ok k c = true <-> KeyFits k (cow_str c).
Proof.
  destruct k; cbn; [tauto|split; [discriminate|tauto]|]. destruct (cow_str c) as [|x [|y l]]; split; try discriminate; intros H.
  - destruct H as (x & H). discriminate.
  - eauto.
  - reflexivity.
  - destruct H as (z & H). discriminate.
Qed.
Lemma map_all_prefix' k t es rest : reads_ok rec (fun _ => t) es -> Forall (fun kv => KeyFits k (cow_str (fst kv))) es ->
  exists ds, map_all rec k t (map entry es ++ rest) = dmap (app ds) (map_all rec k t rest).
Proof.
  intros H. induction H as [|[c s] es [d Hd] _ IH]; intros HK.
  - exists []. cbn. destruct (map_all rec k t rest); reflexivity.
  - inversion HK as [|? ? Hk HK']; subst. destruct (IH HK') as [ds E]. exists ((cow_str c, d) :: ds). cbn [map entry fst snd app map_all] in *.
    apply key_ok_fits in Hk. rewrite Hk, Hd. cbn [dbind]. rewrite E. destruct (map_all rec k t rest); reflexivity.
Qed.
(* what the first step that is not fine leads to *)
Definition step_problem (k : kty) (reads : str -> ty) (st : mstep) (p : problem) : Prop :=
  match st with
  | MDuplicate e => p = Error e
  | MPanic => p = Panic
  | MEntry c s => (~ KeyFits k (cow_str c) /\ p = Error (key_error k)) \/ (KeyFits k (cow_str c) /\ rec (reads (cow_str c)) s = res_of p)
  end.
Lemma visit_problem T k reads es st rest p : MapReads T k reads -> reads_ok rec reads es -> NoDup (ekeys es) ->
  Forall (fun kv => KeyFits k (cow_str (fst kv))) es ->
  (forall c s, st = MEntry c s -> ~ In (cow_str c) (ekeys es)) -> step_problem k reads st p ->
  visit rec T (VMap (map entry es ++ st :: rest)) = res_of p.
Proof.
  intros HT Hok HD HK Hst Hp. destruct HT as [k t|fs| |]; cbn [visit].
  - destruct (map_all_prefix' k t es (st :: rest) Hok HK) as (ds & ->). rewrite dmap_res, dmap_res. destruct st as [c s|e|]; cbn [map_all step_problem] in *; [|subst; reflexivity|subst; reflexivity].
    destruct Hp as [[Hk ->]|[Hk Hr]].
    + destruct (key_ok k c) eqn:E; [apply key_ok_fits in E; contradiction|]. reflexivity.
    + apply key_ok_fits in Hk. rewrite Hk, Hr. destruct p; reflexivity.
  - assert (Hb : bad_outcome rec (field_type fs) st (res_of p)).
    { destruct st as [c s|e|]; cbn [step_problem bad_outcome] in *; [|subst; reflexivity|subst; reflexivity]. destruct Hp as [[Hk _]|[_ ->]]; [elim Hk; exact I|]. destruct p; reflexivity. }
    apply (visit_prefix rec (TStruct fs) (field_type fs) es st rest _ (MT_struct fs) Hok HD Hst Hb).
  - assert (Hb : bad_outcome rec (fun _ => TIgnored) st (res_of p)).
    { destruct st as [c s|e|]; cbn [step_problem bad_outcome] in *; [|subst; reflexivity|subst; reflexivity]. destruct Hp as [[Hk _]|[_ ->]]; [elim Hk; exact I|]. destruct p; reflexivity. }
    apply (visit_prefix rec TIgnored _ es st rest _ MT_ignored Hok HD Hst Hb).
  - assert (Hb : bad_outcome rec (fun _ => TAny) st (res_of p)).
    { destruct st as [c s|e|]; cbn [step_problem bad_outcome] in *; [|subst; reflexivity|subst; reflexivity]. destruct Hp as [[Hk _]|[_ ->]]; [elim Hk; exact I|]. destruct p; reflexivity. }
    apply (visit_prefix rec TAny _ es st rest _ MT_any Hok HD Hst Hb).
Qed.
(* if all entries are fine, only a missing field is left *)
Lemma visit_fine T k reads es p : MapReads T k reads -> reads_ok rec reads es -> NoDup (ekeys es) ->
  Forall (fun kv => KeyFits k (cow_str (fst kv))) es ->
  (visit rec T (VMap (map entry es)) = res_of p <->
   exists fs1 f t fs2, T = TStruct (fs1 ++ (f, t) :: fs2) /\ p = Error (ECustom (CMissingField f)) /\ ~ In f (ekeys es) /\ (forall t', t <> TOption t') /\
     forall f' t', In (f', t') fs1 -> In f' (ekeys es) \/ exists t'', t' = TOption t'').
Proof.
  intros HT Hok HD HK. destruct HT as [k t|fs| |]; cbn [visit].
  - destruct (map_all_prefix' k t es [] Hok HK) as (ds & E). rewrite app_nil_r in E. rewrite E. cbn. split; [destruct p; discriminate|]. intros (? & ? & ? & ? & ? & _); discriminate.
  - destruct (struct_map_prefix rec fs es [] Hok HD []) as (acc & E & Hk); [intros ? _ []|]. rewrite app_nil_r in E. rewrite E. cbn [struct_map dbind]. rewrite dmap_res.
    assert (Hk' : forall n, In n (map fst acc) <-> In n (ekeys es) /\ In n (map fst fs)) by (intros n; rewrite Hk; cbn; tauto).
    clear E Hk. split.
    + assert (G : forall fs0, (forall ft, In ft fs0 -> In ft fs) -> struct_finish fs0 acc = res_of p -> exists fs1 f t fs2, fs0 = fs1 ++ (f, t) :: fs2 /\ p = Error (ECustom (CMissingField f)) /\
         ~ In f (ekeys es) /\ (forall t', t <> TOption t') /\ forall f' t', In (f', t') fs1 -> In f' (ekeys es) \/ exists t'', t' = TOption t'').
      { induction fs0 as [|[f t] fs0 IH]; intros Hi; cbn [struct_finish]; [destruct p; discriminate|].
        assert (Hf : In f (map fst fs)) by (apply (in_map fst _ (f, t)), Hi; left; reflexivity).
        pose proof (IH (fun ft H => Hi ft (or_intror H))) as IH'.
        assert (Hcont : (In f (ekeys es) \/ exists t'', t = TOption t'') -> struct_finish fs0 acc = res_of p -> exists fs1 f0 t0 fs2, (f, t) :: fs0 = fs1 ++ (f0, t0) :: fs2 /\ p = Error (ECustom (CMissingField f0)) /\
          ~ In f0 (ekeys es) /\ (forall t', t0 <> TOption t') /\ forall f' t', In (f', t') fs1 -> In f' (ekeys es) \/ exists t'', t' = TOption t'').
        { intros Hc H. destruct (IH' H) as (fs1 & f0 & t0 & fs2 & -> & Ep & H1 & H2 & H3). exists ((f, t) :: fs1), f0, t0, fs2.
          split; [reflexivity|]. split; [exact Ep|]. split; [exact H1|]. split; [exact H2|]. intros f' t' [[= <- <-]|H']; [exact Hc|eauto]. }
        destruct (field_get f acc) as [d|] eqn:Ef.
        - rewrite dmap_res. apply Hcont. left. apply field_get_in in Ef. apply (in_map fst) in Ef. apply Hk' in Ef. tauto.
        - assert (Hn : ~ In f (ekeys es)) by (intros Hin; apply field_get_none in Ef; apply Ef, Hk'; auto).
          assert (Hm : (forall t', t <> TOption t') -> DeErr (ECustom (CMissingField f)) = @res_of (list (str * data)) p -> exists fs1 f0 t0 fs2, (f, t) :: fs0 = fs1 ++ (f0, t0) :: fs2 /\ p = Error (ECustom (CMissingField f0)) /\
          ~ In f0 (ekeys es) /\ (forall t', t0 <> TOption t') /\ forall f' t', In (f', t') fs1 -> In f' (ekeys es) \/ exists t'', t' = TOption t'').
          { intros Ht H. exists [], f, t, fs0. split; [reflexivity|]. split; [destruct p; cbn in H; congruence|]. split; [exact Hn|]. split; [exact Ht|]. intros ? ? []. }
          destruct t; try (apply Hm; discriminate). rewrite dmap_res. apply Hcont. right. eauto. }
      intros H. destruct (G fs (fun _ H => H) H) as (fs1 & f & t & fs2 & -> & R). exists fs1, f, t, fs2. split; [reflexivity|exact R].
    + intros (fs1 & f & t & fs2 & [= ->] & -> & Hn & Ht & H1). rewrite (struct_finish_missing fs1 f t fs2 acc); [reflexivity|exact Ht| |].
      * apply field_get_none. rewrite Hk'. tauto.
      * intros f' t' Hi. destruct (H1 f' t' Hi) as [H|H]; [|auto]. left. apply Hk'. split; [exact H|]. apply in_map_iff. exists (f', t').
        split; [reflexivity|]. apply in_app_iff. auto.
  - pose proof (ignore_map_prefix rec es [] Hok) as E. rewrite app_nil_r in E. rewrite E. cbn. split; [destruct p; discriminate|]. intros (? & ? & ? & ? & ? & _); discriminate.
  - destruct (map_all_prefix' KTString TAny es [] Hok HK) as (ds & E). rewrite app_nil_r in E. rewrite E. cbn. split; [destruct p; discriminate|]. intros (? & ? & ? & ? & ? & _); discriminate.
Qed.
End Rec.

(** ** The steps of a map access, from what it has to offer *)
Definition raw : Type := option cow * src * problem.
Fixpoint gsteps (seen : list str) (l : list raw) : list mstep :=
  match l with
  | [] => []
  | (None, _, _) :: _ => [MPanic]
  | (Some c, s, d) :: l' =>
      if seen_mem (cow_str c) seen then [match d with Error e => MDuplicate e | Panic => MPanic end]
      else MEntry c s :: gsteps (cow_str c :: seen) l'
  end.
Definition oraw (ke : okey * expr) : raw :=
  match fst ke with
  | KIdent c => (Some c, SExpr (snd ke), Error (EObjectDuplicateKey (cow_str c)))
  | KExpr _ => (None, SExpr (snd ke), Panic)
  end.
Definition braw (kv : cow * body_value) : raw :=
  match snd kv with
  | BVExpr e => (Some (fst kv), SExpr e, Error (EBodyDuplicateKey (cow_str (fst kv))))
  | BVBlock b => (Some (fst kv), SBlock b, Panic)
  end.
Lemma object_gsteps l : forall seen, object_steps seen l = gsteps seen (map oraw l).
Proof.
  induction l as [|[[c|c] e] l IH]; intros seen; cbn [object_steps map oraw fst snd gsteps]; [reflexivity| |reflexivity].
  destruct (seen_mem (cow_str c) seen); [reflexivity|]. f_equal. apply IH.
Qed.
Lemma body_gsteps l : forall seen, body_steps seen l = gsteps seen (map braw l).
Proof.
  induction l as [|[c [e|b]] l IH]; intros seen; cbn [body_steps map braw fst snd gsteps]; [reflexivity| |];
    (destruct (seen_mem (cow_str c) seen); [reflexivity|]; f_equal; apply IH).
Qed.
Definition rname (r : raw) : option cow := fst (fst r).
Definition rsrc (r : raw) : src := snd (fst r).
(* a prefix with different names *)
Lemma gsteps_app es l2 : forall seen, NoDup (ekeys es) -> (forall k, In k (ekeys es) -> ~ In k seen) -> forall l1, Forall2 (fun kv r => rname r = Some (fst kv) /\ rsrc r = snd kv) es l1 ->
  exists seen', gsteps seen (l1 ++ l2) = map entry es ++ gsteps seen' l2 /\ forall k, In k seen' <-> In k seen \/ In k (ekeys es).
Proof.
  induction es as [|[c s] es IH]; intros seen HD Hs l1 HF; inversion HF as [|? [[oc s'] d] ? l1' [E1 E2] HF']; subst.
  - exists seen. split; [reflexivity|]. cbn. tauto.
  - cbn in E1, E2. subst oc s'. cbn in HD. inversion HD as [|? ? Hn HD']; subst.
    assert (E : seen_mem (cow_str c) seen = false) by (apply seen_mem_out, Hs; left; reflexivity).
    destruct (IH (cow_str c :: seen) HD') with (l1 := l1') as (seen' & E' & Hk); [|exact HF'|].
    { intros k Hk [<-|Hi]; [contradiction|]. apply (Hs k); [right; exact Hk|exact Hi]. }
    exists seen'. split; [cbn [app gsteps map entry fst snd]; rewrite E, E'; reflexivity|]. intros k. rewrite Hk. cbn. tauto.
Qed.

Section Order.
Variable ord : blocks_t -> blocks_t.
Hypothesis Ho : Order ord.
Notation de := (deserialize ord).
(* the order of visiting that [ord] stands for *)
Definition vo_of (b : body_t) : list str := map (fun kb => cow_str (fst kb)) (ord (blocks_new (blocks_of b))).
Lemma vo_visiting : Visiting vo_of.
Proof.
  intros b. split; [apply ord_nodup, Ho|]. intros t. rewrite <- blocks_list. apply (ord_keys ord _ _ Ho).
Qed.
Definition matches (r : raw) (o : offer) : Prop :=
  option_map cow_str (rname r) = oname o /\ snd r = snd o /\
  match opart o with Some y => rsrc r = src_of y /\ proper y | None => forall t, de t (rsrc r) = DePanic end.
Definition raws (x : node) : list raw :=
  match x with
  | Expr (EObject l) => map oraw l
  | Body b | Group [b] => map braw (build_map_access_iter ord b)
  | _ => []
  end.
Lemma raws_steps x : Kind x KMembers -> call ord (src_of x) MAny = VMap (gsteps [] (raws x)).
Proof.
  intros H. inversion H; subst; cbn [src_of call raws block_call one_or_seq expr_call expr_any].
  - rewrite object_gsteps. reflexivity.
  - unfold body_any. rewrite body_gsteps. reflexivity.
  - unfold body_any. rewrite body_gsteps. reflexivity.
Qed.

Lemma group_matches b k x : In (k, x) (ord (blocks_new (blocks_of b))) -> exists r, LastRun (cow_str k) (block_list b) r /\
  forall part, ((forall c, In c r -> b_labels c = []) /\ part = Some (Group (map b_body r))) \/ ((exists c, In c r /\ b_labels c <> []) /\ part = None) ->
  matches (Some k, SBlock x, Panic) (Some (cow_str k), part, Panic).
Proof.
  intros Hx. apply (Permutation_in _ (Permutation_sym (Ho _))) in Hx. destruct (blocks_new_in _ _ _ Hx) as (r & HL & ->). rewrite blocks_list in HL.
  exists r. split; [exact HL|]. intros part [[Hu ->]|[Hl ->]]; (split; [reflexivity|]; split; [reflexivity|]); cbn.
  - unfold bdefault. rewrite extend_unlabelled by exact Hu. split; [reflexivity|]. inversion HL as [l1 l2 _ Hne _ _ _]. destruct r; [congruence|exact I].
  - apply (labelled_panics ord Ho), Hl.
Qed.
Lemma offers_match x os : Offers vo_of x os -> Forall2 matches (raws x) os.
Proof.
  assert (HB : forall b os, Offers vo_of (Body b) os -> Forall2 matches (map braw (build_map_access_iter ord b)) os).
  { intros b os0 H. inversion H as [|? groups HF|]; subst. unfold build_map_access_iter. rewrite map_app, !map_map. apply Forall2_app.
    - rewrite <- attributes_list, map_map. clear. induction (attributes_of b) as [|[n e] l IH]; constructor; [|exact IH]. repeat split.
    - unfold vo_of in HF. assert (Hin : forall kx, In kx (ord (blocks_new (blocks_of b))) -> In kx (ord (blocks_new (blocks_of b)))) by auto. clear H.
      revert Hin HF. generalize (ord (blocks_new (blocks_of b))) at 1 3 4. intros L. revert groups. induction L as [|[k y] L IH]; intros groups Hin HF; inversion HF as [|? o ? gs (r & part & -> & HL & Hp) HF']; subst; [constructor|].
      cbn [map fst snd braw]. constructor.
      + destruct (group_matches b k y (Hin _ (or_introl eq_refl))) as (r' & HL' & HM). cbn [fst] in HL. rewrite (LastRun_unique _ _ _ _ HL HL') in Hp. apply HM, Hp.
      + apply IH; [intros kx Hi; apply Hin; right; exact Hi|exact HF']. }
  intros H. destruct H as [l os HF|b groups HF|b os H]; cbn [raws].
  - induction HF as [|[[c|c] e] o l os E _ IH]; cbn [fst snd] in *; [constructor| |]; subst o; (constructor; [|exact IH]); repeat split.
  - apply HB. constructor. exact HF.
  - apply HB, H.
Qed.
Lemma offers_exist x : Kind x KMembers -> exists os, Offers vo_of x os.
Proof.
  assert (HB : forall b, exists os, Offers vo_of (Body b) os).
  { intros b. assert (HG : exists groups, Forall2 (fun t (o : offer) => exists r part, o = (Some t, part, Panic) /\ LastRun t (block_list b) r /\
      (((forall c, In c r -> b_labels c = []) /\ part = Some (Group (map b_body r))) \/ ((exists c, In c r /\ b_labels c <> []) /\ part = None))) (vo_of b) groups).
    { unfold vo_of. assert (Hin : forall kx, In kx (ord (blocks_new (blocks_of b))) -> In kx (ord (blocks_new (blocks_of b)))) by auto.
      revert Hin. generalize (ord (blocks_new (blocks_of b))) at 1 3. intros L. induction L as [|[k y] L IH]; intros Hin; [exists []; constructor|].
      destruct IH as [gs HG]; [intros kx Hi; apply Hin; right; exact Hi|]. destruct (group_matches b k y (Hin _ (or_introl eq_refl))) as (r & HL & _).
      destruct (last_run_dec r) as [Hu|Hl].
      - exists ((Some (cow_str k), Some (Group (map b_body r)), Panic) :: gs). constructor; [|exact HG]. exists r, (Some (Group (map b_body r))). auto.
      - exists ((Some (cow_str k), None, Panic) :: gs). constructor; [|exact HG]. exists r, None. auto. }
    destruct HG as [groups HG]. eexists. constructor. exact HG. }
  intros H. inversion H; subst.
  - induction l as [|[[c|c] e] l IH].
    + exists []. constructor. constructor.
    + destruct IH as [os IH]; [constructor|]. inversion IH; subst. eexists (_ :: os). constructor. constructor; [cbn; reflexivity|assumption].
    + destruct IH as [os IH]; [constructor|]. inversion IH; subst. eexists (_ :: os). constructor. constructor; [cbn; reflexivity|assumption].
  - apply HB.
  - destruct (HB b) as [os Hos]. exists os. constructor. exact Hos.
Qed.
Lemma offers_kind vo x os : Offers vo x os -> Kind x KMembers.
Proof. destruct 1; constructor. Qed.
Lemma reads_good T k reads n : MapReads T k reads -> GoodTy T -> PartT (reads n) T /\ GoodTy (reads n).
Proof.
  intros HT HG. assert (HP : PartT (reads n) T).
  { destruct HT as [k t|fs| |].
    - apply PT_map.
    - unfold field_type. destruct (find _ fs) as [[f t]|] eqn:E; [|apply PT_leaf; cbn; auto]. apply find_some in E as [E _]. apply PT_struct, (in_map snd _ _ E).
    - apply PT_leaf; cbn; auto.
    - apply PT_leaf; cbn; auto. }
  split; [exact HP|eapply PartT_good; eassumption].
Qed.
Lemma den_ok t y d : GoodTy t -> Den t y d -> okay de t (src_of y).
Proof. intros HG HD. destruct (den_complete ord Ho _ t y d (le_n _) HG HD) as (d' & E & _). exists d'. exact E. Qed.
(* fine, as the deserialisers see it *)
Definition DeFine (k : kty) (reads : str -> ty) (os : list offer) : Prop :=
  NoDup (map oname os) /\
  Forall (fun o => exists n y, oname o = Some n /\ opart o = Some y /\ KeyFits k n /\ okay de (reads n) (src_of y)) os.
Lemma fine_de T k reads os : MapReads T k reads -> GoodTy T -> AllFine k reads os -> DeFine k reads os.
Proof.
  intros HT HG [HD HF]. split; [exact HD|]. eapply Forall_impl; [|exact HF]. intros o (n & y & d & En & Ey & Hk & Hd). exists n, y.
  split; [exact En|]. split; [exact Ey|]. split; [exact Hk|]. eapply den_ok; [apply (reads_good T k reads _ HT HG)|exact Hd].
Qed.
Lemma fine_entries k reads os rs : DeFine k reads os -> Forall2 matches rs os ->
  exists es, Forall2 (fun kv r => rname r = Some (fst kv) /\ rsrc r = snd kv) es rs /\ reads_ok de reads es /\ NoDup (ekeys es) /\
    Forall (fun kv => KeyFits k (cow_str (fst kv))) es /\ map oname os = map Some (ekeys es).
Proof.
  intros [HD HF] HM.
  assert (G : exists es, Forall2 (fun kv r => rname r = Some (fst kv) /\ rsrc r = snd kv) es rs /\ reads_ok de reads es /\ 
    Forall (fun kv => KeyFits k (cow_str (fst kv))) es /\ map oname os = map Some (ekeys es)).
  { clear HD. induction HM as [|r o rs os (E1 & E2 & E3) _ IH]; [exists []; repeat split; constructor|].
    inversion HF as [|? ? (n & y & En & Ey & Hk & Hd) HF']; subst. destruct (IH HF') as (es & H1 & H2 & H3 & H4).
    rewrite En in E1. rewrite Ey in E3. destruct (rname r) as [c|] eqn:Er; [|discriminate]. injection E1 as <-.
    exists ((c, rsrc r) :: es). split; [constructor; [split; [exact Er|reflexivity]|exact H1]|]. split; [|split].
    - constructor; [|exact H2]. cbn [fst snd]. rewrite (proj1 E3). exact Hd.
    - constructor; [exact Hk|exact H3].
    - cbn. rewrite En. f_equal. exact H4. }
  destruct G as (es & H1 & H2 & H3 & H4). exists es. split; [exact H1|]. split; [exact H2|]. split; [|split; [exact H3|exact H4]].
  rewrite H4 in HD. apply NoDup_map_inv in HD. exact HD.
Qed.
(* the walk up to the first problem *)
Lemma walk_problem T k reads x os1 o os2 : MapReads T k reads -> Offers vo_of x (os1 ++ o :: os2) -> DeFine k reads os1 ->
  exists es c s st rest, call ord (src_of x) (method_of T) = VMap (map entry es ++ st :: rest) /\ map oname os1 = map Some (ekeys es) /\
    reads_ok de reads es /\ NoDup (ekeys es) /\ Forall (fun kv => KeyFits k (cow_str (fst kv))) es /\
    (oname o = None -> st = MPanic) /\
    (forall n, oname o = Some n -> cow_str c = n /\
       (In (Some n) (map oname os1) -> st = match snd o with Error e => MDuplicate e | Panic => MPanic end) /\
       (~ In (Some n) (map oname os1) -> st = MEntry c s /\ match opart o with Some y => s = src_of y /\ proper y | None => forall t, de t s = DePanic end)).
Proof.
  intros HT HO HA. pose proof (offers_kind _ _ _ HO) as HK. pose proof (offers_match _ _ HO) as HM.
  apply Forall2_app_inv_r in HM as (rs1 & rs2 & HM1 & HM2 & E). inversion HM2 as [|r o' rs2' os2' (Er1 & Er2 & Er3) HM3]; subst.
  destruct (fine_entries k reads os1 rs1 HA HM1) as (es & H1 & H2 & H3 & H4 & H5).
  destruct (gsteps_app es (r :: rs2') [] H3 (fun _ _ H => H) rs1 H1) as (seen & Es & Hs).
  assert (Hc : call ord (src_of x) (method_of T) = VMap (map entry es ++ gsteps seen (r :: rs2'))).
  { rewrite <- Es, <- E, <- raws_steps by exact HK. destruct HT; reflexivity. }
  destruct r as [[oc s] d]. cbn [rname rsrc fst snd] in Er1, Er2, Er3. subst d. destruct oc as [c|]; cbn [gsteps] in Hc.
  - destruct (seen_mem (cow_str c) seen) eqn:EM.
    + eexists es, c, s, _, _. split; [exact Hc|]. split; [exact H5|]. split; [exact H2|]. split; [exact H3|]. split; [exact H4|]. cbn in Er1. split; [congruence|].
      intros n En. split; [congruence|]. split; [intros _; reflexivity|]. intros Hn. exfalso. apply Hn. rewrite H5. apply in_map.
      apply seen_mem_in in EM. apply Hs in EM as [[]|EM]. congruence.
    + eexists es, c, s, _, _. split; [exact Hc|]. split; [exact H5|]. split; [exact H2|]. split; [exact H3|]. split; [exact H4|]. cbn in Er1. split; [congruence|].
      intros n En. split; [congruence|]. split.
      * intros Hi. exfalso. apply seen_mem_out in EM. apply EM. apply Hs. right. rewrite H5 in Hi. apply in_map_iff in Hi as (m & Em & Hi). congruence.
      * intros _. split; [reflexivity|exact Er3].
  - cbn in Er1. eexists es, (Borrowed []), s, MPanic, []. split; [exact Hc|]. split; [exact H5|]. split; [exact H2|]. split; [exact H3|]. split; [exact H4|]. split; [reflexivity|].
    intros n En. congruence.
Qed.

(** ** Soundness *)
Lemma list_part t t' : ListOf t t' -> GoodTy t -> GoodTy t'.
Proof.
  intros H HG. destruct H; [inversion HG; subst; [contradiction|assumption]|apply GT_leaf; exact I..].
Qed.
Lemma position_good T x ts : Positions T x ts -> GoodTy T -> Forall GoodTy ts.
Proof.
  intros H HG. destruct H as [ts l _|ts bs|fs x]; inversion HG; subst; try contradiction; try assumption. apply Forall_map. assumption.
Qed.
Lemma forall_okay t l : GoodTy t -> Forall (fun z => exists d, Den t z d) l -> Forall (okay de t) (map src_of l).
Proof. intros HG H. apply Forall_map. eapply Forall_impl; [|exact H]. intros z (d & Hd). eapply den_ok; eassumption. Qed.
Lemma forall2_okay ts l : Forall GoodTy ts -> Forall2 (fun t z => exists d, Den t z d) ts l -> Forall2 (okay de) ts (map src_of l).
Proof.
  intros HG H. induction H as [|t z ts l (d & Hd) _ IH]; [constructor|]. inversion HG; subst. constructor; [eapply den_ok; eassumption|auto].
Qed.
Lemma kind_event x k : Kind x k -> match k with
  | KNull => call ord (src_of x) MAny = VUnit
  | KBool => exists b, call ord (src_of x) MAny = VBool b
  | KInt => exists z, call ord (src_of x) MAny = VI64 z
  | KFloat => exists f, call ord (src_of x) MAny = VF64 f
  | KBorrowed => exists s, call ord (src_of x) MAny = VBorrowedStr s
  | KOwned => exists s, call ord (src_of x) MAny = VString s
  | KItems => exists l, call ord (src_of x) MAny = VSeq l
  | KMembers => exists l, call ord (src_of x) MAny = VMap l
  end.
Proof.
  intros H. destruct H; try (eexists; reflexivity); try reflexivity.
  - exists z. apply (number_int n z H).
  - exists f. apply (number_float n f H).
  - eexists. apply (items_call ord x items H).
Qed.
Lemma direct_call t x k : direct t x = true -> Kind x k -> (forall ts, t = TTuple ts -> k <> KItems) -> call ord (src_of x) (method_of t) = call ord (src_of x) MAny.
Proof.
  intros HD HK HT. destruct t; try reflexivity; destruct x as [e|b|bs]; try discriminate HD; try reflexivity.
  - destruct bs as [|b [|b' bs]]; [|discriminate|reflexivity]. inversion HK; subst. match goal with [ HI : Items _ _ |- _ ] => inversion HI end.
  - destruct e; try reflexivity. exfalso. apply (HT l eq_refl). inversion HK; subst. reflexivity.
Qed.
Theorem fails_sound : forall t x p, Fails vo_of t x p -> GoodTy t -> de t (src_of x) = res_of p.
Proof.
  intros t x p H. induction H as [t n lt z HD Hn Hz Hr|t x k HD HK HT|it n z Hz Hr|s Hs|t e p He _ IH|t b bs p _ IH|t e p _ IH|t b b' bs p _ IH
    |t t' x l1 y l2 p HL HI HF _ IH|t b p _ IH|ts l Hl|T x ts1 t ts2 l1 y l2 p HP HI HF _ IH|T x ts1 t ts2 l HP HI HF
    |T k reads x os1 o os2 HM HO HA En|T k reads x os1 o os2 n HM HO HA En Hi|T k reads x os1 o os2 n HM HO HA En Hi Hk|T k reads x os1 o os2 n HM HO HA En Hi Hk Ep
    |T k reads x os1 o os2 n y p HM HO HA En Hi Hk Ep _ IH|fs1 f t fs2 x os HO HA Hn Ht H1]; intros HG; rewrite deserialize_eq by exact Ho.
  - assert (E : number_event n = VErr EParseInt).
    { unfold number_event, is_float. destruct (is_signed n) eqn:Es; cbn [negb].
      - destruct (as_int I64 n) as [y|] eqn:E; [|reflexivity]. apply (i64_text n lt y Hn) in E as [Hy Hry]. rewrite (C14_value_unique lt z y Hz Hy) in Hr. contradiction.
      - destruct (NumLit_float_not_integer n lt z Hn Es Hz). }
    destruct t; try discriminate HD; cbn [src_of call method_of expr_call expr_any]; rewrite E; reflexivity.
  - assert (Hne : forall ts, t = TTuple ts -> k <> KItems) by (intros ts -> ->; discriminate).
    rewrite (direct_call t x k HD HK Hne). pose proof (kind_event x k HK) as HE.
    destruct k; try (match type of HE with ex _ => destruct HE as [v HE] end); rewrite HE; destruct t; try discriminate HT; try reflexivity;
      (destruct x; try discriminate HD; inversion HK).
  - cbn [src_of call method_of expr_call expr_any]. rewrite (number_int n z Hz). cbn.
    destruct (checked it z) as [z'|] eqn:E; [|reflexivity]. apply checked_range in E as [_ E]. contradiction.
  - cbn [src_of call method_of expr_call expr_any]. destruct s as [s|s]; cbn in *; (destruct s as [|c [|c' s]]; [reflexivity|destruct (Hs c); reflexivity|reflexivity]).
  - assert (HG' : GoodTy t) by (inversion HG; subst; [contradiction|assumption]). specialize (IH HG'). cbn [src_of] in *.
    assert (E : call ord (SExpr e) (method_of (TOption t)) = VSome (SExpr e)) by (destruct e; [congruence|reflexivity..]). rewrite E. cbn [visit]. rewrite dmap_res. exact IH.
  - assert (HG' : GoodTy t) by (inversion HG; subst; [contradiction|assumption]). specialize (IH HG'). cbn [src_of] in *.
    cbn [call method_of block_call len_blocks length Nat.eqb visit]. rewrite dmap_res. exact IH.
  - assert (HG' : GoodTy t) by (inversion HG; subst; [contradiction|assumption]). exact (IH HG').
  - assert (HG' : GoodTy t) by (inversion HG; subst; [contradiction|assumption]). exact (IH HG').
  - pose proof (list_part _ _ HL HG) as HG'. specialize (IH HG').
    assert (E : call ord (src_of x) (method_of t) = VSeq (map src_of (l1 ++ y :: l2))) by (destruct HL; apply items_call'; auto).
    assert (Hbad : exists s1 s s2, map src_of (l1 ++ y :: l2) = s1 ++ s :: s2 /\ Forall (okay de t') s1 /\ de t' s = res_of p).
    { exists (map src_of l1), (src_of y), (map src_of l2). split; [rewrite map_app; reflexivity|]. split; [apply forall_okay; assumption|exact IH]. }
    rewrite E. destruct HL; cbn [visit]; rewrite dmap_res.
    + apply seq_all_bad, Hbad.
    + apply seq_all_bad, Hbad.
    + apply ignore_seq_bad, Hbad.
    + apply seq_all_bad, Hbad.
  - assert (HG' : GoodTy t) by (inversion HG; subst; [contradiction|assumption]). cbn [src_of call method_of block_call map visit]. rewrite dmap_res. apply seq_all_bad.
    exists [], (SBody b), []. split; [reflexivity|]. split; [constructor|exact (IH HG')].
  - cbn [src_of call method_of expr_call]. destruct (Nat.eqb_spec (length l) (length ts)) as [E|E]; [congruence|]. reflexivity.
  - pose proof (position_good _ _ _ HP HG) as HGs. apply Forall_app in HGs as [HG1 HG2]. inversion HG2 as [|? ? HG' _]; subst. specialize (IH HG').
    assert (E : call ord (src_of x) (method_of T) = VSeq (map src_of (l1 ++ y :: l2))).
    { inversion HP as [ts l E1 E2 E3 E4|ts bs E1 E2 E3|fs x' E1 E2 E3]; subst.
      - inversion HI; subst. cbn. destruct (Nat.eqb_spec (length l) (length (ts1 ++ t :: ts2))) as [_|E]; [|contradiction]. rewrite map_map. reflexivity.
      - inversion HI; subst. cbn. rewrite map_map. reflexivity.
      - apply items_call'; auto. }
    assert (Hbad : forall s : list data -> data, dmap s (seq_types de (ts1 ++ t :: ts2) (map src_of (l1 ++ y :: l2))) = res_of p).
    { intros s. rewrite dmap_res. apply seq_types_bad. left. exists ts1, t, ts2, (map src_of l1), (src_of y), (map src_of l2). split; [reflexivity|].
      split; [rewrite map_app; reflexivity|]. split; [apply forall2_okay; assumption|exact IH]. }
    rewrite E. inversion HP as [ts l E1 E2 E3 E4|ts bs E1 E2 E3|fs x' E1 E2 E3]; subst; cbn [visit]; try apply Hbad. rewrite E3. apply Hbad.
  - pose proof (position_good _ _ _ HP HG) as HGs. apply Forall_app in HGs as [HG1 _].
    assert (E : call ord (src_of x) (method_of T) = VSeq (map src_of l)).
    { inversion HP as [ts l' E1 E2 E3 E4|ts bs E1 E2 E3|fs x' E1 E2 E3]; subst.
      - inversion HI; subst. cbn. destruct (Nat.eqb_spec (length l') (length (ts1 ++ t :: ts2))) as [_|E]; [|contradiction]. rewrite map_map. reflexivity.
      - inversion HI; subst. cbn. rewrite map_map. reflexivity.
      - apply items_call'; auto. }
    assert (Hbad : forall s : list data -> data, dmap s (seq_types de (ts1 ++ t :: ts2) (map src_of l)) = res_of (Error (ECustom CInvalidLength))).
    { intros s. rewrite dmap_res. apply seq_types_bad. right. split; [reflexivity|]. exists ts1, t, ts2. split; [reflexivity|]. apply forall2_okay; assumption. }
    rewrite E. inversion HP as [ts l' E1 E2 E3 E4|ts bs E1 E2 E3|fs x' E1 E2 E3]; subst; cbn [visit]; try apply Hbad. rewrite E3. apply Hbad.
  - apply (fine_de T k reads os1 HM HG) in HA. destruct (walk_problem T k reads x os1 o os2 HM HO HA) as (es & c & s & st & rest & -> & _ & H2 & H3 & H4 & H5 & _).
    eapply (visit_problem de T k reads); try eassumption; rewrite (H5 En); [discriminate|reflexivity].
  - apply (fine_de T k reads os1 HM HG) in HA. destruct (walk_problem T k reads x os1 o os2 HM HO HA) as (es & c & s & st & rest & -> & _ & H2 & H3 & H4 & _ & H6).
    destruct (H6 n En) as (_ & Est & _). specialize (Est Hi).
    eapply (visit_problem de T k reads); try eassumption; rewrite Est; [destruct (snd o); discriminate|destruct (snd o); reflexivity].
  - apply (fine_de T k reads os1 HM HG) in HA. destruct (walk_problem T k reads x os1 o os2 HM HO HA) as (es & c & s & st & rest & -> & H1 & H2 & H3 & H4 & _ & H6).
    destruct (H6 n En) as (Ec & _ & Est). destruct (Est Hi) as [Est' _].
    eapply (visit_problem de T k reads); try eassumption; rewrite Est'.
    + intros c' s' [= <- <-] Hin. apply Hi. rewrite H1. apply in_map. congruence.
    + left. split; [rewrite Ec; exact Hk|reflexivity].
  - apply (fine_de T k reads os1 HM HG) in HA. destruct (walk_problem T k reads x os1 o os2 HM HO HA) as (es & c & s & st & rest & -> & H1 & H2 & H3 & H4 & _ & H6).
    destruct (H6 n En) as (Ec & _ & Est). destruct (Est Hi) as [Est' Hs]. rewrite Ep in Hs.
    eapply (visit_problem de T k reads _ _ _ Panic); try eassumption; rewrite Est'.
    + intros c' s' [= <- <-] Hin. apply Hi. rewrite H1. apply in_map. congruence.
    + right. split; [rewrite Ec; exact Hk|apply Hs].
  - apply (fine_de T k reads os1 HM HG) in HA. destruct (walk_problem T k reads x os1 o os2 HM HO HA) as (es & c & s & st & rest & -> & H1 & H2 & H3 & H4 & _ & H6).
    destruct (H6 n En) as (Ec & _ & Est). destruct (Est Hi) as [Est' Hs]. rewrite Ep in Hs. destruct Hs as [-> _].
    eapply (visit_problem de T k reads); try eassumption; rewrite Est'.
    + intros c' s' [= <- <-] Hin. apply Hi. rewrite H1. apply in_map. congruence.
    + right. split; [rewrite Ec; exact Hk|]. rewrite Ec. apply IH. apply (reads_good T k reads n HM HG).
  - pose proof (offers_match _ _ HO) as HM. pose proof (MR_struct (fs1 ++ (f, t) :: fs2)) as HR.
    apply (fine_de _ _ _ os HR HG) in HA. destruct (fine_entries _ _ os (raws x) HA HM) as (es & E1 & E2 & E3 & E4 & E5).
    destruct (gsteps_app es [] [] E3 (fun _ _ H => H) (raws x) E1) as (seen & Es & _). cbn [gsteps] in Es. rewrite !app_nil_r in Es.
    assert (Ec : call ord (src_of x) (method_of (TStruct (fs1 ++ (f, t) :: fs2))) = VMap (map entry es)) by (cbn [method_of]; rewrite raws_steps by (eapply offers_kind; eassumption); rewrite Es; reflexivity).
    rewrite Ec. apply (visit_fine de _ _ _ es _ HR E2 E3 E4). exists fs1, f, t, fs2. split; [reflexivity|]. split; [reflexivity|].
    assert (Hn' : forall n, In (Some n) (map oname os) <-> In n (ekeys es)).
    { intros n. rewrite E5. split; [|apply in_map]. intros Hi. apply in_map_iff in Hi as (m & [= <-] & Hi). exact Hi. }
    split; [rewrite <- Hn'; exact Hn|]. split; [exact Ht|]. intros f' t' Hf. destruct (H1 f' t' Hf) as [Hf'|Hf']; [left; apply Hn', Hf'|right; exact Hf'].
Qed.

(** ** Completeness *)
Lemma matched {A B} (R : A -> B -> Prop) la lb : Forall2 R la lb -> forall b, In b lb -> exists a, In a la /\ R a b.
Proof.
  induction 1 as [|a b la lb Hab _ IH]; intros b0 []; [subst; exists a; split; [left; reflexivity|exact Hab]|].
  destruct (IH b0 H) as (a0 & Ha & HR). exists a0. split; [right; exact Ha|exact HR].
Qed.
Lemma entry_depth b k v : In (k, v) (build_map_access_iter ord b) -> src_depth (val_src v) < body_depth b.
Proof.
  intros H. unfold body_depth. apply in_app_iff in H as [H|H]; apply in_map_iff in H as ([n w] & [= <- <-] & H); cbn [val_src].
  - cbn [src_depth fst snd] in *. apply attributes_of_in in H. pose proof (list_max_map_in elem_depth _ _ H) as Hm. cbn in Hm. lia.
  - cbn [src_depth fst snd] in *. apply (Permutation_in _ (Permutation_sym (Ho _))) in H. apply Nat.lt_succ_r.
    assert (Hb : forall pb, In pb (flat_iter w) -> S (S (body_depth (snd pb))) <= list_max (map elem_depth b)).
    { intros [p body] Hpb. destruct (blocks_new_bodies _ _ _ _ _ H Hpb) as (c & Hc & _ & <-). apply blocks_of_in in Hc.
      pose proof (list_max_map_in elem_depth _ _ Hc) as Hm. cbn [elem_depth] in Hm. exact Hm. }
    destruct (blocks_new_in _ _ _ H) as (r & HL & _).
    assert (H1 : 1 <= list_max (map elem_depth b)).
    { destruct HL as [l1 l2 El Hr _ _ _]. destruct r as [|c r]; [congruence|].
      assert (Hc : In c (blocks_of b)) by (rewrite El; apply in_app_iff; right; left; reflexivity). apply blocks_of_in in Hc.
      pose proof (list_max_map_in elem_depth _ _ Hc) as Hm. cbn [elem_depth] in Hm. lia. }
    destruct (list_max (map elem_depth b)) as [|d]; [lia|]. apply le_n_S. apply list_max_le. rewrite Forall_forall.
    intros x0 Hx. apply in_map_iff in Hx as (pb & <- & Hpb). specialize (Hb pb Hpb). lia.
Qed.
Lemma raws_part x r : In r (raws x) -> src_depth (rsrc r) < src_depth (src_of x) /\ PartS (rsrc r) (src_of x).
Proof.
  assert (HB : forall b, In r (map braw (build_map_access_iter ord b)) -> src_depth (rsrc r) < body_depth b /\ PartS (rsrc r) (SBody b)).
  { intros b H. apply in_map_iff in H as ([k v] & <- & H). assert (E : rsrc (braw (k, v)) = val_src v) by (destruct v; reflexivity). rewrite E.
    split; [eapply entry_depth; exact H|eapply PartS_entry; [exact Ho|exact H]]. }
  destruct x as [e|b|[|b [|b' bs]]]; cbn [raws src_of]; try (intros []).
  - destruct e; try (intros []). intros H. apply in_map_iff in H as ([k e] & <- & H). assert (E : rsrc (oraw (k, e)) = SExpr e) by (destruct k; reflexivity). rewrite E.
    split; [eapply expr_depth_object; exact H|]. apply PartS_sub. eapply SE_object; [exact H|constructor].
  - apply HB.
  - intros H. destruct (HB b H) as [H1 H2]. split; [cbn [src_of src_depth flat_iter map list_max fold_right snd]; lia|]. eapply PartS_trans; [exact H2|]. apply (PartS_blocks []). cbn. left. reflexivity.
Qed.
Lemma keyfits_dec k n : {KeyFits k n} + {~ KeyFits k n}.
Proof.
  destruct k; cbn; [left; exact I|right; tauto|]. destruct n as [|c [|c' n]]; [right; intros [? H]; discriminate|left; eauto|right; intros [? H]; discriminate].
Qed.
Lemma de_cases t s : okay de t s \/ exists q, de t s = res_of q.
Proof.
  pose proof (deserialize_total ord Ho t s) as Ht. destruct (de t s) as [d|e| |] eqn:E; [left; exists d; exact E|right; exists (Error e)|right; exists Panic|congruence]; reflexivity.
Qed.
Lemma walk_cases k reads os : DeFine k reads os \/ exists os1 o os2, os = os1 ++ o :: os2 /\ DeFine k reads os1 /\
  (oname o = None \/ exists n, oname o = Some n /\ (In (Some n) (map oname os1) \/ (~ In (Some n) (map oname os1) /\
     (~ KeyFits k n \/ (KeyFits k n /\ (opart o = None \/ exists y q, opart o = Some y /\ de (reads n) (src_of y) = res_of q)))))).
Proof.
  induction os as [|o os IH] using rev_ind; [left; split; constructor|].
  destruct IH as [HF|(os1 & o' & os2 & -> & HF & R)].
  2:{ right. exists os1, o', (os2 ++ [o]). split; [rewrite <- app_assoc; reflexivity|auto]. }
  destruct (oname o) as [n|] eqn:En.
  2:{ right. exists os, o, []. auto. }
  assert (Hd : forall a b : option str, {a = b} + {a <> b}) by (decide equality; apply (list_eq_dec N.eq_dec)).
  destruct (in_dec Hd (Some n) (map oname os)) as [Hi|Hi].
  { right. exists os, o, []. split; [reflexivity|]. split; [exact HF|]. right. exists n. auto. }
  destruct (keyfits_dec k n) as [Hk|Hk].
  2:{ right. exists os, o, []. split; [reflexivity|]. split; [exact HF|]. right. exists n. auto. }
  destruct (opart o) as [y|] eqn:Ey.
  2:{ right. exists os, o, []. split; [reflexivity|]. split; [exact HF|]. right. exists n. auto 8. }
  destruct (de_cases (reads n) (src_of y)) as [Hok|(q & Hq)].
  2:{ right. exists os, o, []. split; [reflexivity|]. split; [exact HF|]. right. exists n. split; [exact En|]. right. split; [exact Hi|]. right. split; [exact Hk|]. right. eauto. }
  left. destruct HF as [HD HF]. split.
  - rewrite map_app. cbn. rewrite En. apply PropSerde.NoDup_app. split; [exact HD|]. split; [constructor; [intros []|constructor]|]. intros m Hm [<-|[]]. exact (Hi Hm).
  - apply Forall_app. split; [exact HF|]. constructor; [|constructor]. exists n, y. auto.
Qed.
Theorem fails_complete : forall n t x p, ty_depth t + src_depth (src_of x) <= n -> GoodTy t -> proper x -> Lits (src_of x) ->
  de t (src_of x) = res_of p -> Fails vo_of t x p.
Proof.
  induction n as [|n IH]; intros t x p Hn HG HP HL H; [pose proof (ty_depth_pos t); lia|].
  (* members *)
  assert (Hmap : forall k reads, Kind x KMembers -> MapReads t k reads -> Fails vo_of t x p).
  { intros k reads HK HT. destruct (offers_exist x HK) as [os HO]. pose proof (offers_match x os HO) as HM.
    assert (Hpart : forall o y, In o os -> opart o = Some y -> src_depth (src_of y) < src_depth (src_of x) /\ Lits (src_of y) /\ proper y).
    { intros o y Hi Ey. destruct (matched _ _ _ HM o Hi) as (r & Hr & _ & _ & E). rewrite Ey in E. destruct E as [E Hp].
      destruct (raws_part x r Hr) as [H1 H2]. rewrite E in *. split; [exact H1|]. split; [eapply Lits_part; eassumption|exact Hp]. }
    assert (Hfine : forall os1, (forall o, In o os1 -> In o os) -> DeFine k reads os1 -> AllFine k reads os1).
    { intros os1 Hi [HD HF]. split; [exact HD|]. rewrite Forall_forall in *. intros o Hin. destruct (HF o Hin) as (m & y & Em & Ey & Hk & d & Hd).
      exists m, y, d. split; [exact Em|]. split; [exact Ey|]. split; [exact Hk|]. destruct (Hpart o y (Hi o Hin) Ey) as (H1 & H2 & H3).
      eapply (den_sound ord Ho); [apply le_n|apply (reads_good t k reads m HT HG)|exact H3|exact H2|exact Hd]. }
    destruct (walk_cases k reads os) as [HF|(os1 & o & os2 & -> & HF & R)].
    - destruct (fine_entries k reads os (raws x) HF HM) as (es & E1 & E2 & E3 & E4 & E5).
      destruct (gsteps_app es [] [] E3 (fun _ _ H => H) (raws x) E1) as (seen & Es & _). cbn [gsteps] in Es. rewrite !app_nil_r in Es.
      rewrite deserialize_eq in H by exact Ho.
      assert (Ec : call ord (src_of x) (method_of t) = VMap (map entry es)) by (rewrite <- Es, <- raws_steps by exact HK; destruct HT; reflexivity).
      rewrite Ec in H. apply (visit_fine de _ _ _ es _ HT E2 E3 E4) in H as (fs1 & f & t' & fs2 & -> & -> & Hn1 & Ht & H1).
      inversion HT; subst. clear Es.
      assert (Hn' : forall m, In (Some m) (map oname os) <-> In m (ekeys es)).
      { intros m. rewrite E5. split; [|apply in_map]. intros Hi. apply in_map_iff in Hi as (m' & [= <-] & Hi). exact Hi. }
      apply F_missing with (os := os); [exact HO|apply Hfine; [auto|exact HF]|rewrite Hn'; exact Hn1|exact Ht|].
      intros f' t'' Hf. destruct (H1 f' t'' Hf) as [Hf'|Hf']; [left; apply Hn', Hf'|right; exact Hf'].
    - assert (HA : AllFine k reads os1) by (apply Hfine; [intros o' Ho'; apply in_app_iff; auto|exact HF]).
      assert (Hgo : forall q, Fails vo_of t x q -> Fails vo_of t x p).
      { intros q Hq. pose proof (fails_sound t x q Hq HG) as Hq'. rewrite H in Hq'. apply res_of_inj in Hq'. subst q. exact Hq. }
      destruct R as [En|(m & En & [Hi|(Hi & [Hk|(Hk & [Ep|(y & q & Ep & Hq)])])])].
      + eapply Hgo, F_no_name; eassumption.
      + eapply Hgo, F_again; eassumption.
      + eapply Hgo, F_key; eassumption.
      + eapply Hgo, F_labels; eassumption.
      + eapply Hgo, F_value; try eassumption. destruct (Hpart o y) as (H1 & H2 & H3); [apply in_app_iff; right; left; reflexivity|exact Ep|].
        destruct (reads_good t k reads m HT HG) as [HPt HGt]. pose proof (PartT_depth _ _ HPt). apply IH; [lia|exact HGt|exact H3|exact H2|exact Hq]. }
  (* items *)
  assert (Hitem : forall items t' y q, Items x items -> In y items -> PartT t' t -> de t' (src_of y) = res_of q -> Fails vo_of t' y q).
  { intros items t' y q HI Hy Ht Hd. destruct (seq_part ord Ho _ _ _ (src_of y) (items_call ord x items HI) (in_map src_of _ _ Hy)) as [Hd1 Hp]. pose proof (PartT_depth _ _ Ht).
    apply IH; [lia|eapply PartT_good; eassumption|eapply Items_proper; eassumption|eapply Lits_part; eassumption|exact Hd]. }
  assert (Hitem' : forall items t' y, Items x items -> In y items -> PartT t' t -> okay de t' (src_of y) -> exists d, Den t' y d).
  { intros items t' y HI Hy Ht (d & Hd). destruct (seq_part ord Ho _ _ _ (src_of y) (items_call ord x items HI) (in_map src_of _ _ Hy)) as [Hd1 Hp].
    exists d. eapply (den_sound ord Ho); [apply le_n|eapply PartT_good; eassumption|eapply Items_proper; eassumption|eapply Lits_part; eassumption|exact Hd]. }
  assert (Hlist : forall t' items, Items x items -> ListOf t t' -> PartT t' t -> visit de t (VSeq (map src_of items)) = res_of p -> Fails vo_of t x p).
  { intros t' items HI HLo Ht Hv.
    assert (Hb : exists s1 s s2, map src_of items = s1 ++ s :: s2 /\ Forall (okay de t') s1 /\ de t' s = res_of p).
    { destruct HLo; cbn [visit] in Hv; rewrite dmap_res in Hv; (apply seq_all_bad in Hv || apply ignore_seq_bad in Hv); exact Hv. }
    destruct Hb as (s1 & s & s2 & E & HF & Hs). apply app_map_split in E as (l1 & l2 & -> & -> & E). destruct l2 as [|y l2]; [discriminate|]. injection E as -> ->.
    eapply F_list; [exact HLo|exact HI| |].
    - rewrite Forall_map in HF. rewrite Forall_forall in *. intros z Hz. eapply Hitem'; [exact HI|apply in_app_iff; auto|exact Ht|apply HF, Hz].
    - eapply Hitem; [exact HI|apply in_app_iff; right; left; reflexivity|exact Ht|exact Hs]. }
  assert (Hpos : forall ts items, Items x items -> Positions t x ts -> (forall t', In t' ts -> PartT t' t) -> seq_types de ts (map src_of items) = res_of p -> Fails vo_of t x p).
  { intros ts items HI HPo Ht Hv. 
    assert (Hf2 : forall ts1 l1, (forall t', In t' ts1 -> In t' ts) -> (forall y, In y l1 -> In y items) -> Forall2 (okay de) ts1 (map src_of l1) -> Forall2 (fun t' z => exists d, Den t' z d) ts1 l1).
    { intros ts1 l1. revert ts1. induction l1 as [|y l1 IH1]; intros ts1 H1 H2 HF; inversion HF as [|t0 s0 ts1' l1' Hok HF']; subst; constructor.
      - eapply Hitem'; [exact HI|apply H2; left; reflexivity|apply Ht, H1; left; reflexivity|exact Hok].
      - apply IH1; [intros ? ?; apply H1; right; assumption|intros ? ?; apply H2; right; assumption|exact HF']. }
    apply seq_types_bad in Hv as [(ts1 & t' & ts2 & s1 & s & s2 & -> & E & HF & Hs)|(-> & ts1 & t' & ts2 & -> & HF)].
    - apply app_map_split in E as (l1 & l2 & -> & -> & E). destruct l2 as [|y l2]; [discriminate|]. injection E as -> ->.
      eapply F_position; [exact HPo|exact HI| |].
      + apply Hf2; [intros ? ?; apply in_app_iff; auto|intros ? ?; apply in_app_iff; auto|exact HF].
      + eapply Hitem; [exact HI|apply in_app_iff; right; left; reflexivity|apply Ht, in_app_iff; right; left; reflexivity|exact Hs].
    - eapply F_short; [exact HPo|exact HI|]. apply Hf2; [intros ? ?; apply in_app_iff; auto|auto|exact HF]. }
  assert (Hsub : forall t' q, PartT t' t -> S (ty_depth t') <= ty_depth t -> de t' (src_of x) = res_of q -> Fails vo_of t' x q).
  { intros t' q Ht Hlt Hd. apply IH; [lia|eapply PartT_good; eassumption|exact HP|exact HL|exact Hd]. }
  assert (Hbody : forall t' b q, PartT t' t -> src_depth (SBody b) < src_depth (src_of x) -> PartS (SBody b) (src_of x) -> de t' (SBody b) = res_of q -> Fails vo_of t' (Body b) q).
  { intros t' b q Ht Hlt Hp Hd. pose proof (PartT_depth _ _ Ht). apply IH; [cbn [src_of]; lia|eapply PartT_good; eassumption|exact I|eapply Lits_part; eassumption|exact Hd]. }
  (* a kind that is not taken *)
  assert (Hkind : forall k, direct t x = true -> Kind x k -> takes t k = false -> Fails vo_of t x p).
  { intros k H1 H2 H3. pose proof (F_kind vo_of t x k H1 H2 H3) as HF. pose proof (fails_sound t x _ HF HG) as Hq. rewrite H in Hq. apply res_of_inj in Hq. subst p. exact HF. }
  assert (Hmem : Kind x KMembers -> direct t x = true -> Fails vo_of t x p).
  { intros HK HD. destruct t; try (apply (Hkind KMembers HD HK eq_refl)); eapply Hmap; try exact HK; constructor. }
  assert (Hgo : forall q, Fails vo_of t x q -> Fails vo_of t x p).
  { intros q Hq. pose proof (fails_sound t x q Hq HG) as Hq'. rewrite H in Hq'. apply res_of_inj in Hq'. subst q. exact Hq. }
  assert (Hno : forall d, de t (src_of x) = DeOk d -> Fails vo_of t x p).
  { intros d Hd. rewrite H in Hd. destruct (res_of_ok _ _ Hd). }
  assert (Hv : visit de t (call ord (src_of x) (method_of t)) = res_of p) by (rewrite <- deserialize_eq by exact Ho; exact H).
  assert (Hno' : forall d, visit de t (call ord (src_of x) (method_of t)) = DeOk d -> Fails vo_of t x p).
  { intros d Hd. rewrite Hv in Hd. destruct (res_of_ok _ _ Hd). }
  destruct x as [e|b|bs].
  - (* an expression *)
    assert (Hplain : direct t (Expr e) = true -> Fails vo_of t (Expr e) p).
    { intros HD. destruct e as [|m|b|s|l|l].
      - destruct (takes t KNull) eqn:ET; [|apply (Hkind KNull HD (K_null) ET)]. destruct t; try discriminate ET; eapply Hno'; reflexivity.
      - destruct (HL m) as (txt & Hlit); [repeat constructor|].
        assert (HM : direct t (Expr (ENumber m)) = true -> call ord (src_of (Expr (ENumber m))) (method_of t) = number_event m) by (intros _; destruct t; try discriminate HD; reflexivity).
        specialize (HM HD). destruct (number_cases m txt Hlit) as [(z & Hz)|[(f & Hf)|(err & He)]].
        + rewrite (number_int m z Hz) in HM. rewrite HM in Hv, Hno'.
          destruct (takes t KInt) eqn:ET; [|apply (Hkind KInt HD (K_int m z Hz) ET)]. destruct t as [|it| | | | | | | | | | | | | | | |]; try discriminate ET; try (eapply Hno'; reflexivity).
          cbn in Hv. destruct (checked it z) as [z'|] eqn:Ec; [destruct p; discriminate|]. eapply Hgo, F_int; [exact Hz|]. intros Hr.
          assert (Ec' : checked it z = Some z) by (apply checked_range; auto). congruence.
        + rewrite (number_float m f Hf) in HM. rewrite HM in Hv, Hno'.
          destruct (takes t KFloat) eqn:ET; [|apply (Hkind KFloat HD (K_float m f Hf) ET)]. destruct t; try discriminate ET; eapply Hno'; reflexivity.
        + destruct (is_signed m) eqn:Es.
          * destruct (NumLit_integer m txt Hlit Es) as (z & Hz & _). eapply Hgo, (F_number vo_of t m txt z HD Hlit Hz). intros Hr.
            assert (E : as_int I64 m = Some z) by (apply (i64_text m txt z Hlit); auto). unfold number_event, is_float in He. rewrite Es in He. cbn [negb] in He. rewrite E in He. discriminate.
          * unfold number_event, is_float in He. rewrite Es in He. cbn [negb] in He.
            destruct (literal_text m txt Hlit) as (v & _ & Hr). destruct (Hr 53%Z 1024%Z) as (f & Hf & _); [right; split; reflexivity|].
            assert (E : as_f64 m = Some f) by exact Hf. rewrite E in He. discriminate.
      - destruct (takes t KBool) eqn:ET; [|apply (Hkind KBool HD (K_bool b) ET)]. destruct t; try discriminate ET; eapply Hno'; reflexivity.
      - assert (Hchar : t = TChar -> Fails vo_of t (Expr (EString s)) p).
        { intros ->. destruct (cow_str s) as [|c [|c' r]] eqn:Es.
          - eapply Hgo, F_char. intros c. rewrite Es. discriminate.
          - apply (Hno' (DChar c)). destruct s; cbn in Es |- *; rewrite Es; reflexivity.
          - eapply Hgo, F_char. intros c0. rewrite Es. discriminate. }
        destruct s as [s|s].
        + destruct (takes t KBorrowed) eqn:ET; [|apply (Hkind KBorrowed HD (K_borrowed s) ET)]. destruct t; try discriminate ET; try (apply Hchar; reflexivity); eapply Hno'; reflexivity.
        + destruct (takes t KOwned) eqn:ET; [|apply (Hkind KOwned HD (K_owned s) ET)]. destruct t; try discriminate ET; try (apply Hchar; reflexivity); eapply Hno'; reflexivity.
      - pose proof (It_tuple l) as HI. assert (Em : map SExpr l = map src_of (map Expr l)) by (rewrite map_map; reflexivity).
        destruct (takes t KItems) eqn:ET; [|apply (Hkind KItems HD (K_items _ _ HI) ET)]. destruct t as [| | | | | | | |t|t|t|ts|k t|fs| | | |]; try discriminate ET; try discriminate HD.
        + eapply Hlist; [exact HI|constructor|apply PT_seq|]. rewrite <- Em. exact Hv.
        + destruct (Nat.eq_dec (length l) (length ts)) as [El|El]; [|eapply Hgo, F_length; congruence].
          eapply Hpos; [exact HI|constructor; exact El|intros t' Ht; apply PT_tuple, Ht|].
          cbn [src_of call method_of expr_call] in Hv. rewrite (proj2 (Nat.eqb_eq _ _) El) in Hv. cbn [visit] in Hv. rewrite dmap_res in Hv. rewrite <- Em. exact Hv.
        + eapply Hpos; [exact HI|constructor|intros t' Ht; apply PT_struct, Ht|]. cbn in Hv. rewrite dmap_res in Hv. rewrite <- Em. exact Hv.
        + eapply Hlist; [exact HI|constructor|apply PT_leaf; cbn; auto|]. rewrite <- Em. exact Hv.
        + eapply Hlist; [exact HI|constructor|apply PT_leaf; cbn; auto|]. rewrite <- Em. exact Hv.
        + eapply Hlist; [exact HI|constructor|apply PT_leaf; cbn; auto|]. rewrite <- Em. exact Hv.
      - apply Hmem; [constructor|exact HD]. }
    destruct t; try (apply Hplain; reflexivity).
    + assert (He : e = ENull \/ e <> ENull) by (destruct e; auto; right; discriminate). destruct He as [->|He]; [eapply Hno'; reflexivity|].
      apply F_some; [exact He|]. apply Hsub; [apply PT_option|cbn; lia|].
      assert (E : call ord (src_of (Expr e)) (method_of (TOption t)) = VSome (SExpr e)) by (destruct e; [congruence|reflexivity..]).
      rewrite E in Hv. cbn [visit] in Hv. rewrite dmap_res in Hv. exact Hv.
    + apply F_newtype. apply Hsub; [apply PT_newtype|cbn; lia|exact Hv].
  - apply Hmem; [constructor|]. destruct t; reflexivity.
  - destruct bs as [|b [|b' bs]]; [destruct HP| |].
    + destruct t; try (apply Hmem; [constructor|reflexivity]).
      * apply F_some_blocks. apply Hsub; [apply PT_option|cbn; lia|]. cbn in Hv. rewrite dmap_res in Hv. exact Hv.
      * apply F_list_one. cbn [src_of call method_of block_call map visit] in Hv. rewrite dmap_res in Hv. apply seq_all_bad in Hv as (l1 & y & l2 & E & _ & Hy).
        assert (Ey : y = SBody b) by (destruct l1 as [|? [|? ?]]; cbn in E; congruence). subst y.
        destruct (seq_part ord Ho (SBlock (BBody [b])) MSeq [SBody b] (SBody b) eq_refl (or_introl eq_refl)) as [Hd1 Hp].
        apply Hbody; [apply PT_seq|exact Hd1|exact Hp|exact Hy].
    + pose proof (It_blocks b b' bs) as HI. assert (Em : map SBody (b :: b' :: bs) = map src_of (map Body (b :: b' :: bs))) by (rewrite map_map; reflexivity).
      assert (Hrest : direct t (Group (b :: b' :: bs)) = true -> takes t KItems = false -> Fails vo_of t (Group (b :: b' :: bs)) p) by (intros HD ET; apply (Hkind KItems HD (K_items _ _ HI) ET)).
      destruct t as [| | | | | | | |t|t|t|ts|k t|fs| | | |]; try (apply Hrest; reflexivity).
      * apply F_some_blocks. apply Hsub; [apply PT_option|cbn; lia|]. cbn in Hv. rewrite dmap_res in Hv. exact Hv.
      * apply F_newtype_blocks. cbn in Hv.
        destruct (seq_part ord Ho (SBlock (BBody (b :: b' :: bs))) MAny (map SBody (b :: b' :: bs)) (SBody b) eq_refl (or_introl eq_refl)) as [Hd1 Hp].
        apply Hbody; [apply PT_newtype|exact Hd1|exact Hp|exact Hv].
      * eapply Hlist; [exact HI|constructor|apply PT_seq|]. rewrite <- Em. exact Hv.
      * eapply Hpos; [exact HI|constructor|intros t' Ht; apply PT_tuple, Ht|]. rewrite <- Em. eapply dmap_res. exact Hv.
      * eapply Hpos; [exact HI|constructor|intros t' Ht; apply PT_struct, Ht|]. rewrite <- Em. eapply dmap_res. exact Hv.
      * eapply Hlist; [exact HI|constructor|apply PT_leaf; cbn; auto|]. rewrite <- Em. exact Hv.
      * eapply Hlist; [exact HI|constructor|apply PT_leaf; cbn; auto|]. rewrite <- Em. exact Hv.
      * eapply Hlist; [exact HI|constructor|apply PT_leaf; cbn; auto|]. rewrite <- Em. exact Hv.
Qed.
End Order.
