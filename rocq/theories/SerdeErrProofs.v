(** * SerdeErrProofs: the cause of every error of deserialisation *)
From Coq Require Import Permutation SpecFloat.
From Verif Require Import Base Ast NomFacts Grammar Blocks BlockSpec BlockProofs PropBlocks NumConv NumSpec NumProofs PropNum
  Parser Serde SerdeSpec SerdeProofs PropSerde SerdeErrSpec.
Local Open Scope nat_scope.

Lemma SubExpr_trans x y z : SubExpr x y -> SubExpr y z -> SubExpr x z.
Proof.
  intros H1 H2. induction H2 as [|e l Hi _ IH|k e l Hi _ IH]; [exact H1|eapply SE_tuple; eassumption|eapply SE_object; eassumption].
Qed.
Lemma SubTy_trans x y z : SubTy x y -> SubTy y z -> SubTy x z.
Proof.
  intros H1 H2. induction H2 as [|t _ IH|t _ IH|t _ IH|t l Hi _ IH|k t _ IH|f t l Hi _ IH]; [exact H1| | | | | |].
  - apply ST_option, IH.
  - apply ST_newtype, IH.
  - apply ST_seq, IH.
  - eapply ST_tuple; eassumption.
  - apply ST_map, IH.
  - eapply ST_struct; eassumption.
Qed.

Definition PartS (s' s : src) : Prop := (forall x, HasExpr x s' -> HasExpr x s) /\ (forall x, HasBody x s' -> HasBody x s).
Lemma PartS_refl s : PartS s s.
Proof. split; auto. Qed.
Lemma PartS_trans a b c : PartS a b -> PartS b c -> PartS a c.
Proof. intros [H1 H2] [H3 H4]. split; auto. Qed.
Lemma PartS_sub x e : SubExpr x e -> PartS (SExpr x) (SExpr e).
Proof.
  intros H. split; intros y Hy; inversion Hy; subst. constructor. eapply SubExpr_trans; eassumption.
Qed.
Lemma PartS_attr n e b : In (Attr n e) b -> PartS (SExpr e) (SBody b).
Proof. intros H. split; intros y Hy; inversion Hy; subst. eapply HE_attr; eassumption. Qed.
Lemma PartS_blk t ls bd b : In (Blk t ls bd) b -> PartS (SBody bd) (SBody b).
Proof. intros H. split; intros y Hy; [eapply HE_blk|eapply HB_blk]; eassumption. Qed.
Lemma PartS_blocks p bd bb : In (p, bd) (flat_iter bb) -> PartS (SBody bd) (SBlock bb).
Proof. intros H. split; intros y Hy; [eapply HE_blocks|eapply HB_blocks]; eassumption. Qed.

(** ** What a deserialiser answers *)
Section Order.
Variable ord : blocks_t -> blocks_t.
Hypothesis Ho : Order ord.

Lemma PartS_entry b k v : In (k, v) (build_map_access_iter ord b) -> PartS (val_src v) (SBody b).
Proof.
  intros H. apply in_app_iff in H as [H|H]; apply in_map_iff in H as ([k' x] & [= <- <-] & Hx); cbn.
  - apply attributes_of_in in Hx. eapply PartS_attr, Hx.
  - apply (Permutation_in _ (Permutation_sym (Ho _))) in Hx.
    assert (Hc : forall p bd, In (p, bd) (flat_iter x) -> PartS (SBody bd) (SBody b)).
    { intros p bd Hbd. destruct (blocks_new_bodies _ _ _ _ _ Hx Hbd) as (c & Hc & _ & <-). apply blocks_of_in in Hc. eapply PartS_blk, Hc. }
    split; intros y Hy; inversion Hy; subst; eapply Hc; eassumption.
Qed.

Definition map_source (s : src) (l : list mstep) : Prop :=
  (exists lo, s = SExpr (EObject lo) /\ l = object_steps [] lo) \/
  (exists b, PartS (SBody b) s /\ l = body_steps [] (build_map_access_iter ord b)).
Definition err_here (e : de_error) (m : method) (s : src) : Prop :=
  match e with
  | EParseInt => exists n, s = SExpr (ENumber n) /\ is_float n = false /\ as_int I64 n = None
  | EParseFloat => exists n, s = SExpr (ENumber n) /\ is_float n = true /\ as_f64 n = None
  | ETupleLength k k' => k <> k' /\ m = MTuple k /\ exists l, s = SExpr (ETuple l) /\ length l = k'
  | _ => False
  end.
Lemma number_err n e m : number_event n = VErr e -> err_here e m (SExpr (ENumber n)).
Proof.
  unfold number_event. destruct (is_float n) eqn:E.
  - destruct (as_f64 n) eqn:E'; [discriminate|]. intros [= <-]. cbn. eauto.
  - assert (Es : is_signed n = true) by (unfold is_float in E; destruct (is_signed n); [reflexivity|discriminate]).
    rewrite Es. destruct (as_int I64 n) eqn:E'; [discriminate|]. intros [= <-]. cbn. eauto.
Qed.
Lemma number_event_shape n : match number_event n with VErr _ | VF64 _ | VI64 _ => True | _ => False end.
Proof. unfold number_event. destruct (is_float n); [destruct (as_f64 n)|destruct (is_signed n); [destruct (as_int I64 n)|destruct (as_int U64 n)]]; exact I. Qed.
Definition ev_shape (m : method) (s : src) (ev : event) : Prop :=
  match ev with
  | VErr e => err_here e m s
  | VSome s' | VNewtype s' => s' = s
  | VSeq l => forall s', In s' l -> PartS s' s
  | VMap l => map_source s l
  | _ => True
  end.
Lemma expr_any_shape m e : ev_shape m (SExpr e) (expr_any e).
Proof.
  destruct e as [|n|b|[s|s]|l|l]; cbn -[number_event err_here]; try exact I.
  - pose proof (number_event_shape n) as Hs. pose proof (number_err n) as He. destruct (number_event n); try exact I; try contradiction. apply He. reflexivity.
  - intros s' Hs. apply in_map_iff in Hs as (x & <- & Hx). apply PartS_sub. eapply SE_tuple; [exact Hx|constructor].
  - left. eauto.
Qed.
Lemma one_or_seq_shape m bb bodies : (forall bd, In bd bodies -> exists p, In (p, bd) (flat_iter bb)) ->
  ev_shape m (SBlock bb) (one_or_seq ord bodies).
Proof.
  intros H.
  assert (HP : forall bd, In bd bodies -> PartS (SBody bd) (SBlock bb)).
  { intros bd Hb. destruct (H bd Hb) as (p & Hp). eapply PartS_blocks, Hp. }
  assert (Hseq : ev_shape m (SBlock bb) (VSeq (map SBody bodies))).
  { intros s' Hs. apply in_map_iff in Hs as (bd & <- & Hb). apply HP, Hb. }
  unfold one_or_seq. destruct bodies as [|b1 [|b2 bs]]; [exact Hseq| |exact Hseq].
  right. exists b1. split; [apply HP; left; reflexivity|reflexivity].
Qed.
Lemma call_shape s m : ev_shape m s (call ord s m).
Proof.
  destruct s as [e|b|b]; cbn [call].
  - destruct m; cbn [expr_call]; try apply expr_any_shape.
    + destruct e; cbn; auto.
    + reflexivity.
    + destruct e; try apply expr_any_shape. destruct (length l =? n) eqn:E; [apply (expr_any_shape (MTuple n) (ETuple l))|].
      apply Nat.eqb_neq in E. cbn. split; [congruence|]. split; [reflexivity|]. eauto.
  - right. exists b. split; [apply PartS_refl|reflexivity].
  - assert (Hb : forall bodies, b = BBody bodies -> forall bd, In bd bodies -> exists p, In (p, bd) (flat_iter b)).
    { intros bodies -> body Hi. exists []. cbn. apply in_map_iff. eauto. }
    assert (He : forall e m, b = BLabels e m -> forall bd, In bd e -> exists p, In (p, bd) (flat_iter b)).
    { intros e m' -> body Hi. exists []. cbn. apply in_app_iff. left. apply in_map_iff. eauto. }
    assert (Hany : ev_shape m (SBlock b) (match b with BBody bodies => one_or_seq ord bodies | BLabels e [] => one_or_seq ord e | BLabels e (_ :: _) => VPanic end)).
    { destruct b as [bodies|e [|x m']]; [apply one_or_seq_shape; eauto|apply one_or_seq_shape; eauto|exact I]. }
    destruct m; cbn [block_call]; try exact Hany.
    + destruct (_ =? _); cbn; auto.
    + destruct b as [bodies|e [|x m']]; [|exact Hany|exact I]. intros s' Hs. apply in_map_iff in Hs as (bd & <- & Hi).
      destruct (Hb _ eq_refl _ Hi) as [p Hp]. eapply PartS_blocks, Hp.
Qed.
Lemma map_source_part s l c s' : map_source s l -> In (MEntry c s') l -> PartS s' s.
Proof.
  intros [(lo & -> & ->)|(b & HP & ->)] Hin.
  - apply object_steps_in in Hin as (e & -> & He). apply PartS_sub. eapply SE_object; [exact He|constructor].
  - eapply PartS_trans; [|exact HP]. apply body_steps_in in Hin as [(e & -> & He)|(bb & -> & He)]; apply PartS_entry in He; exact He.
Qed.

(** ** Duplicates *)
Lemma in_split_key {A} (f : A -> str) k l : In k (map f l) -> exists l1 x l2, l = l1 ++ x :: l2 /\ f x = k.
Proof. intros H. apply in_map_iff in H as (x & <- & H). apply in_split in H as (l1 & l2 & ->). eauto. Qed.
Lemma object_steps_dup l : forall seen e, In (MDuplicate e) (object_steps seen l) ->
  exists k, e = EObjectDuplicateKey k /\
    ((In k seen /\ exists l1 i x l2, l = l1 ++ (KIdent i, x) :: l2 /\ cow_str i = k) \/ RepeatedKey k l).
Proof.
  induction l as [|[[i|x] v] l IH]; intros seen e; cbn; [intros []| |intros [H|[]]; discriminate].
  destruct (seen_mem (cow_str i) seen) eqn:E.
  - intros [[= <-]|[]]. exists (cow_str i). split; [reflexivity|]. left. split; [apply seen_mem_in, E|]. exists [], i, v, l. auto.
  - intros [H|H]; [discriminate|]. destruct (IH _ _ H) as (k & -> & [[[<-|Hs] (l1 & i' & x & l2 & -> & Ek)]|(l1 & i1 & e1 & l2 & i2 & e2 & l3 & -> & E1 & E2)]).
    + exists (cow_str i). split; [reflexivity|]. right. exists [], i, v, l1, i', x, l2. auto.
    + exists k. split; [reflexivity|]. left. split; [exact Hs|]. exists ((KIdent i, v) :: l1), i', x, l2. auto.
    + exists k. split; [reflexivity|]. right. exists ((KIdent i, v) :: l1), i1, e1, l2, i2, e2, l3. auto.
Qed.
Lemma body_steps_dup l : forall seen e, In (MDuplicate e) (body_steps seen l) ->
  exists k, e = EBodyDuplicateKey k /\ exists l1 n x l2, l = l1 ++ (n, BVExpr x) :: l2 /\ cow_str n = k /\
    (In k seen \/ In k (keys_of l1)).
Proof.
  induction l as [|[n [x|x]] l IH]; intros seen e; cbn; [intros []| |]; destruct (seen_mem (cow_str n) seen) eqn:E.
  - intros [[= <-]|[]]. exists (cow_str n). split; [reflexivity|]. exists [], n, x, l. repeat split. left. apply seen_mem_in, E.
  - intros [H|H]; [discriminate|]. destruct (IH _ _ H) as (k & -> & l1 & n' & x' & l2 & -> & Ek & Hk). exists k. split; [reflexivity|].
    exists ((n, BVExpr x) :: l1), n', x', l2. repeat split; auto. cbn. destruct Hk as [[<-|Hk]|Hk]; auto.
  - intros [H|[]]; discriminate.
  - intros [H|H]; [discriminate|]. destruct (IH _ _ H) as (k & -> & l1 & n' & x' & l2 & -> & Ek & Hk). exists k. split; [reflexivity|].
    exists ((n, BVBlock x) :: l1), n', x', l2. repeat split; auto. cbn. destruct Hk as [[<-|Hk]|Hk]; auto.
Qed.
Lemma attributes_split b : forall l1 n e l2, attributes_of b = l1 ++ (n, e) :: l2 ->
  exists b1 b2, b = b1 ++ Attr n e :: b2 /\ attributes_of b1 = l1 /\ attributes_of b2 = l2.
Proof.
  induction b as [|[n' e'|t ls bd] b IH]; intros l1 n e l2 E; cbn in E.
  - destruct l1; discriminate.
  - destruct l1 as [|x l1]; cbn in E.
    + injection E as <- <- E2. exists [], b. repeat split; assumption.
    + injection E as <- E2. destruct (IH _ _ _ _ E2) as (b1 & b2 & -> & <- & <-). exists (Attr n' e' :: b1), b2. auto.
  - destruct (IH _ _ _ _ E) as (b1 & b2 & -> & <- & <-). exists (Blk t ls bd :: b1), b2. auto.
Qed.
Lemma body_dup b e : In (MDuplicate e) (body_steps [] (build_map_access_iter ord b)) ->
  exists k, e = EBodyDuplicateKey k /\ RepeatedAttr k b.
Proof.
  intros H. apply body_steps_dup in H as (k & -> & l1 & n & x & l2 & E & Ek & [[]|Hk]). exists k. split; [reflexivity|].
  assert (Ha : exists m, map (fun ne : cow * expr => (fst ne, BVExpr (snd ne))) (attributes_of b) = l1 ++ (n, BVExpr x) :: m).
  { unfold build_map_access_iter in E. symmetry in E. apply app_split in E as (m & [[E1 E2]|[E1 E2]]).
    - exfalso. assert (Hi : In (n, BVExpr x) (map (fun tb : cow * bbody => (fst tb, BVBlock (snd tb))) (ord (blocks_new (blocks_of b)))))
        by (rewrite E2; apply in_app_iff; right; left; reflexivity).
      apply in_map_iff in Hi as ([? ?] & ? & _). discriminate.
    - destruct m as [|y m]; cbn in E2.
      + exfalso. assert (Hi : In (n, BVExpr x) (map (fun tb : cow * bbody => (fst tb, BVBlock (snd tb))) (ord (blocks_new (blocks_of b)))))
          by (rewrite <- E2; left; reflexivity).
        apply in_map_iff in Hi as ([? ?] & ? & _). discriminate.
      + injection E2 as <- _. eauto. }
  destruct Ha as (m & Ha). apply in_map_iff in Hk as ([n0 v0] & Ek0 & Hk). cbn in Ek0. apply in_split in Hk as (l3 & l4 & ->).
  apply map_eq_app in Ha as (a1 & a2 & Ea & Ea1 & Ea2).
  apply map_eq_app in Ea1 as (c1 & c2 & -> & _ & Ec2). destruct c2 as [|[n1 x1] c2]; [discriminate|]. injection Ec2 as -> <- Ec2.
  destruct a2 as [|[n2 x2] a2]; [discriminate|]. injection Ea2 as -> -> Ea2.
  rewrite <- app_assoc in Ea. cbn in Ea. apply attributes_split in Ea as (b1 & b2 & -> & _ & Ea). apply attributes_split in Ea as (b3 & b4 & -> & _ & _).
  exists b1, n0, x1, b3, n, x, b4. auto.
Qed.

(** The keys handed out are distinct. *)
Definition step_keys (l : list mstep) : list str := flat_map (fun st => match st with MEntry c _ => [cow_str c] | _ => [] end) l.
Lemma object_steps_keys l : forall seen, NoDup (step_keys (object_steps seen l)) /\ (forall k, In k (step_keys (object_steps seen l)) -> ~ In k seen).
Proof.
  induction l as [|[[i|x] v] l IH]; intros seen; cbn; [split; [constructor|intros ? []]| |split; [constructor|intros ? []]].
  destruct (seen_mem (cow_str i) seen) eqn:E; cbn; [split; [constructor|intros ? []]|]. apply seen_mem_out in E.
  destruct (IH (cow_str i :: seen)) as [H1 H2]. split.
  - constructor; [|exact H1]. intros Hi. apply (H2 _ Hi). left. reflexivity.
  - intros k [<-|Hk]; [exact E|]. intros Hs. apply (H2 _ Hk). right. exact Hs.
Qed.
Lemma body_steps_keys l : forall seen, NoDup (step_keys (body_steps seen l)) /\ (forall k, In k (step_keys (body_steps seen l)) -> ~ In k seen).
Proof.
  induction l as [|[n [x|x]] l IH]; intros seen; cbn; [split; [constructor|intros ? []]| |];
    (destruct (seen_mem (cow_str n) seen) eqn:E; cbn; [split; [constructor|intros ? []]|]); apply seen_mem_out in E;
    (destruct (IH (cow_str n :: seen)) as [H1 H2]; split;
     [constructor; [|exact H1]; intros Hi; apply (H2 _ Hi); left; reflexivity
     |intros k [<-|Hk]; [exact E|]; intros Hs; apply (H2 _ Hk); right; exact Hs]).
Qed.
Lemma map_source_keys s l : map_source s l -> NoDup (step_keys l).
Proof. intros [(lo & _ & ->)|(b & _ & ->)]; [apply object_steps_keys|apply body_steps_keys]. Qed.

Definition all_entries (l : list mstep) : Prop := forall st, In st l -> exists c s, st = MEntry c s.
Lemma object_steps_all l : forall seen, all_entries (object_steps seen l) ->
  forall i e, In (KIdent i, e) l -> In (cow_str i) (step_keys (object_steps seen l)).
Proof.
  induction l as [|[[i0|x] v] l IH]; intros seen H i e; cbn in *; [intros []| |].
  - destruct (seen_mem (cow_str i0) seen); [destruct (H _ (or_introl eq_refl)) as (? & ? & ?); discriminate|].
    intros [[= <- <-]|Hi]; [left; reflexivity|]. right. eapply IH; [|exact Hi]. intros st Hst. apply H. right. exact Hst.
  - destruct (H _ (or_introl eq_refl)) as (? & ? & ?). discriminate.
Qed.
Lemma body_steps_all l : forall seen, all_entries (body_steps seen l) -> step_keys (body_steps seen l) = keys_of l.
Proof.
  induction l as [|[n [x|x]] l IH]; intros seen H; cbn in *; [reflexivity| |];
    (destruct (seen_mem (cow_str n) seen); [destruct (H _ (or_introl eq_refl)) as (? & ? & ?); discriminate|]); cbn; f_equal; apply IH;
    intros st Hst; apply H; right; exact Hst.
Qed.
Lemma map_source_lacks s l f : map_source s l -> all_entries l -> ~ In f (step_keys l) -> LacksKey f s.
Proof.
  intros [(lo & -> & ->)|(b & HP & ->)] Hall Hf.
  - left. exists lo. split; [repeat constructor|]. intros i e Hi <-. apply Hf. eapply object_steps_all; eassumption.
  - right. exists b. split; [apply HP; constructor|]. rewrite body_steps_all, keys_build in Hf by exact Hall. split.
    + intros n e Hi <-. apply Hf, in_app_iff. left. apply in_map_iff. exists (cow_str n, e). split; [reflexivity|]. apply attr_list_in. eauto.
    + intros t ls bd Hi <-. apply Hf, in_app_iff. right. apply (ord_keys ord _ _ Ho). exists (mk_block t ls bd).
      split; [apply block_list_in; exact Hi|reflexivity].
Qed.

(** ** Where an error of [visit] comes from *)
Inductive PartT : ty -> ty -> Prop :=
| PT_leaf t t' : In t' [TIgnored; TAny; TInt U8] -> PartT t' t
| PT_option t : PartT t (TOption t)
| PT_newtype t : PartT t (TNewtype t)
| PT_seq t : PartT t (TSeq t)
| PT_tuple t l : In t l -> PartT t (TTuple l)
| PT_map k t : PartT t (TMap k t)
| PT_struct t l : In t (map snd l) -> PartT t (TStruct l).
Definition mentions (s' : src) (t' t : ty) (ev : event) : Prop :=
  match ev with
  | VSome x => x = s' /\ t = TOption t'
  | VNewtype x => x = s' /\ t = TNewtype t'
  | VSeq l => In s' l /\ PartT t' t
  | VMap l => (exists c, In (MEntry c s') l) /\ PartT t' t
  | _ => False
  end.
Definition custom_cause (c : custom) (t : ty) (ev : event) : Prop :=
  match c with
  | CMissingField f => exists fs t' l, t = TStruct fs /\ In (f, t') fs /\ (forall t'', t' <> TOption t'') /\
      ev = VMap l /\ all_entries l /\ ~ In f (step_keys l)
  | CDuplicateField f => exists l, ev = VMap l /\ ~ NoDup (step_keys l)
  | _ => True
  end.
Definition err_from (rec : ty -> src -> dres data) (t : ty) (ev : event) (e : de_error) : Prop :=
  ev = VErr e \/ (exists l, ev = VMap l /\ In (MDuplicate e) l) \/
  (exists t' s', mentions s' t' t ev /\ rec t' s' = DeErr e) \/
  (exists c, e = ECustom c /\ custom_cause c t ev).
Lemma dbind_err {A B} (r : dres A) (f : A -> dres B) e : dbind r f = DeErr e -> r = DeErr e \/ exists x, r = DeOk x /\ f x = DeErr e.
Proof. destruct r; cbn; intros H; try discriminate; [eauto|left; congruence]. Qed.
Lemma dmap_err {A B} (f : A -> B) (r : dres A) e : dmap f r = DeErr e -> r = DeErr e.
Proof. destruct r; cbn; intros H; congruence. Qed.
Lemma seq_all_err rec t l e : seq_all rec t l = DeErr e -> exists s, In s l /\ rec t s = DeErr e.
Proof.
  induction l as [|s l IH]; cbn; [discriminate|]. intros H. apply dbind_err in H as [H|(x & _ & H)]; [eauto|].
  apply dmap_err in H. destruct (IH H) as (s' & ? & ?). eauto.
Qed.
Lemma seq_types_err rec ts : forall l e, seq_types rec ts l = DeErr e ->
  e = ECustom CInvalidLength \/ exists t s, In t ts /\ In s l /\ rec t s = DeErr e.
Proof.
  induction ts as [|t ts IH]; intros [|s l] e; cbn; try discriminate; [intros [= <-]; auto|]. intros H.
  apply dbind_err in H as [H|(x & _ & H)]; [right; exists t, s; auto|]. apply dmap_err in H.
  destruct (IH l e H) as [?|(t' & s' & ? & ? & ?)]; [auto|]. right. exists t', s'. auto.
Qed.
Lemma map_all_err rec k t l e : map_all rec k t l = DeErr e ->
  In (MDuplicate e) l \/ (exists c s, In (MEntry c s) l /\ rec t s = DeErr e) \/ e = ECustom CInvalidType \/ e = ECustom CInvalidValue.
Proof.
  induction l as [|[c s|e0|] l IH]; cbn; try discriminate.
  - destruct (key_ok k c).
    + intros H. apply dbind_err in H as [H|(x & _ & H)]; [right; left; exists c, s; auto|]. apply dmap_err in H.
      destruct (IH H) as [?|[(c' & s' & ? & ?)|?]]; [auto|right; left; exists c', s'; auto|auto].
    + intros [= <-]. destruct k; auto.
  - intros [= <-]. auto.
Qed.
Lemma ignore_seq_err rec l e : ignore_seq rec l = DeErr e -> exists s, In s l /\ rec TIgnored s = DeErr e.
Proof.
  induction l as [|s l IH]; cbn; [discriminate|]. intros H. apply dbind_err in H as [H|(x & _ & H)]; [eauto|].
  destruct (IH H) as (s' & ? & ?). eauto.
Qed.
Lemma ignore_map_err rec l e : ignore_map rec l = DeErr e ->
  In (MDuplicate e) l \/ (exists c s, In (MEntry c s) l /\ rec TIgnored s = DeErr e).
Proof.
  induction l as [|[c s|e0|] l IH]; cbn; try discriminate.
  - intros H. apply dbind_err in H as [H|(x & _ & H)]; [right; exists c, s; auto|].
    destruct (IH H) as [?|(c' & s' & ? & ?)]; [auto|right; exists c', s'; auto].
  - intros [= <-]. auto.
Qed.
Lemma struct_map_err rec fs l : forall acc e, struct_map rec fs acc l = DeErr e ->
  In (MDuplicate e) l \/ (exists t c s, (t = TIgnored \/ In t (map snd fs)) /\ In (MEntry c s) l /\ rec t s = DeErr e) \/
  (exists f, e = ECustom (CDuplicateField f) /\ In f (step_keys l) /\ (In f (map fst acc) \/ ~ NoDup (step_keys l))).
Proof.
  induction l as [|[c s|e0|] l IH]; intros acc e; cbn; try discriminate.
  2:{ intros [= <-]. auto. }
  destruct (field_get (cow_str c) fs) as [t|] eqn:E.
  - destruct (field_get (cow_str c) acc) eqn:Ea.
    + intros [= <-]. right. right. exists (cow_str c). split; [reflexivity|]. split; [left; reflexivity|]. left.
      apply field_get_in in Ea. apply (in_map fst) in Ea. exact Ea.
    + intros H. apply dbind_err in H as [H|(d & _ & H)].
      * right. left. exists t, c, s. split; [right; apply field_get_in in E; apply (in_map snd) in E; exact E|]. auto.
      * destruct (IH _ _ H) as [?|[(t' & c' & s' & ? & ? & ?)|(f & -> & Hf & [[Hf'|Hf']|Hf'])]]; [auto|right; left; exists t', c', s'; auto| | |].
        -- right. right. exists f. split; [reflexivity|]. split; [right; exact Hf|]. right. intros HN. inversion HN; subst. cbn in *. contradiction.
        -- right. right. exists f. auto.
        -- right. right. exists f. split; [reflexivity|]. split; [auto|]. right. intros HN. inversion HN; subst. contradiction.
  - intros H. apply dbind_err in H as [H|(d & _ & H)].
    + right. left. exists TIgnored, c, s. auto.
    + destruct (IH _ _ H) as [?|[(t' & c' & s' & ? & ? & ?)|(f & -> & Hf & [Hf'|Hf'])]]; [auto|right; left; exists t', c', s'; auto| |].
      * right. right. exists f. auto.
      * right. right. exists f. split; [reflexivity|]. split; [auto|]. right. intros HN. inversion HN; subst. contradiction.
Qed.
Lemma struct_map_done rec fs l : forall acc acc', struct_map rec fs acc l = DeOk acc' -> all_entries l /\
  (forall f, In f (map fst acc) -> In f (map fst acc')) /\ (forall f, In f (map fst fs) -> In f (step_keys l) -> In f (map fst acc')).
Proof.
  induction l as [|[c s|e0|] l IH]; intros acc acc'; cbn; try discriminate.
  - intros [= <-]. split; [intros ? []|]. split; [auto|intros f _ []].
  - destruct (field_get (cow_str c) fs) as [t|] eqn:E.
    + destruct (field_get (cow_str c) acc) eqn:Ea; [discriminate|]. intros H. apply dbind_ok in H as (d & _ & H).
      destruct (IH _ _ H) as (H1 & H2 & H3). split; [intros st [<-|Hst]; eauto|]. split; [intros f Hf; apply H2; right; exact Hf|].
      intros f Hf [<-|Hk]; [apply H2; left; reflexivity|apply H3; assumption].
    + intros H. apply dbind_ok in H as (d & _ & H). destruct (IH _ _ H) as (H1 & H2 & H3). split; [intros st [<-|Hst]; eauto|]. split; [exact H2|].
      intros f Hf [<-|Hk]; [|apply H3; assumption]. exfalso. apply in_map_iff in Hf as ([f t] & Ef & Hf). cbn in Ef. subst f.
      apply field_get_none in E. apply E. apply (in_map fst) in Hf. exact Hf.
Qed.
Lemma struct_finish_err fs acc e : struct_finish fs acc = DeErr e ->
  exists f t, e = ECustom (CMissingField f) /\ In (f, t) fs /\ (forall t', t <> TOption t') /\ ~ In f (map fst acc).
Proof.
  induction fs as [|[f t] fs IH]; cbn; [discriminate|]. destruct (field_get f acc) eqn:E.
  - intros H. apply dmap_err in H. destruct (IH H) as (f' & t' & ? & ? & ?). eauto 6.
  - apply field_get_none in E.
    assert (Ho' : (exists t', t = TOption t') \/ (forall t', t <> TOption t')) by (destruct t; try (right; discriminate); eauto).
    destruct Ho' as [[t' ->]|Hn].
    + intros H. apply dmap_err in H. destruct (IH H) as (f' & t'' & ? & ? & ?). eauto 6.
    + intros H. assert (He : e = ECustom (CMissingField f)) by (destruct t; try congruence; exfalso; eapply Hn; reflexivity).
      exists f, t. auto.
Qed.
Lemma visit_err rec t ev e : visit rec t ev = DeErr e -> err_from rec t ev e.
Proof.
  intros H. unfold err_from.
  assert (Hinv : forall c, DeErr (A := data) (ECustom c) = DeErr e -> custom_cause c t ev -> err_from rec t ev e).
  { intros c [= <-] Hc. right. right. right. eauto. }
  destruct ev as [|b|z|f|s1|s1| |s1|s1|l|l|e0|]; cbn in H; try (destruct t; discriminate);
    try (destruct t; try discriminate; (eapply Hinv; [exact H|exact I])).
  - destruct t; try discriminate; try (eapply Hinv; [exact H|exact I]). destruct (checked t z); [discriminate|]. eapply Hinv; [exact H|exact I].
  - destruct t; try discriminate; try (eapply Hinv; [exact H|exact I]). destruct s1 as [|? [|? ?]]; try discriminate; eapply Hinv; [exact H|exact I|exact H|exact I].
  - destruct t; try discriminate; try (eapply Hinv; [exact H|exact I]). destruct s1 as [|? [|? ?]]; try discriminate; eapply Hinv; [exact H|exact I|exact H|exact I].
  - destruct t; try discriminate; try (eapply Hinv; [exact H|exact I]). apply dmap_err in H. right. right. left. exists t, s1. cbn. auto.
  - destruct t; try discriminate; try (eapply Hinv; [exact H|exact I]). right. right. left. exists t, s1. cbn. auto.
  - destruct t; try discriminate; try (eapply Hinv; [exact H|exact I]).
    + destruct l as [|s l]; [eapply Hinv; [exact H|exact I]|]. right. right. left. exists t, s. split; [|exact H]. split; [left; reflexivity|apply PT_newtype].
    + apply dmap_err, seq_all_err in H as (s & Hs & H). right. right. left. exists t, s. split; [|exact H]. split; [exact Hs|apply PT_seq].
    + apply dmap_err, seq_types_err in H as [->|(t & s & Ht & Hs & H)]; [eapply Hinv; [reflexivity|exact I]|].
      right. right. left. exists t, s. split; [|exact H]. split; [exact Hs|]. apply PT_tuple, Ht.
    + apply dmap_err, seq_types_err in H as [->|(t & s & Ht & Hs & H)]; [eapply Hinv; [reflexivity|exact I]|].
      right. right. left. exists t, s. split; [|exact H]. split; [exact Hs|]. apply PT_struct, Ht.
    + apply dmap_err, seq_all_err in H as (s & Hs & H). right. right. left. exists (TInt U8), s. split; [|exact H]. split; [exact Hs|]. apply PT_leaf. cbn. auto.
    + apply dmap_err, ignore_seq_err in H as (s & Hs & H). right. right. left. exists TIgnored, s. split; [|exact H]. split; [exact Hs|]. apply PT_leaf. cbn. auto.
    + apply dmap_err, seq_all_err in H as (s & Hs & H). right. right. left. exists TAny, s. split; [|exact H]. split; [exact Hs|]. apply PT_leaf. cbn. auto.
  - destruct t; try discriminate; try (eapply Hinv; [exact H|exact I]).
    + apply dmap_err, map_all_err in H as [H|[(c & s & Hs & H)|[->| ->]]]; [eauto| |eapply Hinv; [reflexivity|exact I]|eapply Hinv; [reflexivity|exact I]].
      right. right. left. exists t, s. split; [|exact H]. split; [eauto|apply PT_map].
    + apply dmap_err, dbind_err in H as [H|(acc & Ha & H)].
      * apply struct_map_err in H as [H|[(t & c & s & Ht & Hs & H)|(f & -> & Hf & [[]|Hn])]]; [eauto| |].
        -- right. right. left. exists t, s. split; [|exact H]. split; [eauto|]. destruct Ht as [->|Ht]; [apply PT_leaf; cbn; auto|apply PT_struct, Ht].
        -- eapply Hinv; [reflexivity|]. cbn. eauto.
      * apply struct_finish_err in H as (f & t & -> & Hf & Hn & Hacc). apply struct_map_done in Ha as (H1 & _ & H3).
        eapply Hinv; [reflexivity|]. cbn. exists fields, t, l. repeat split; auto. intros Hk. apply Hacc. apply H3; [apply (in_map fst) in Hf; exact Hf|exact Hk].
    + apply dmap_err, ignore_map_err in H as [H|(c & s & Hs & H)]; [eauto|]. right. right. left. exists TIgnored, s. split; [|exact H]. split; [eauto|]. apply PT_leaf. cbn. auto.
    + apply dmap_err, map_all_err in H as [H|[(c & s & Hs & H)|[->| ->]]]; [eauto| |eapply Hinv; [reflexivity|exact I]|eapply Hinv; [reflexivity|exact I]].
      right. right. left. exists TAny, s. split; [|exact H]. split; [eauto|]. apply PT_leaf. cbn. auto.
  - left. congruence.
Qed.

(** ** The cause of every error *)
Lemma lacks_key_part f s' s : PartS s' s -> LacksKey f s' -> LacksKey f s.
Proof. intros [H1 H2] [(l & Hl & H)|(b & Hb & H)]; [left; exists l; auto|right; exists b; auto]. Qed.
Lemma Cause_mono e t t' s s' : PartS s' s -> (forall x, SubTy x t' -> (exists ts, x = TTuple ts) \/ (exists fs, x = TStruct fs) -> SubTy x t) -> Cause e t' s' -> Cause e t s.
Proof.
  intros HP HT. destruct e as [e| | |k k'|k|k|[| | |f|f]]; cbn; auto.
  - intros (n & H & R). exists n. split; [apply HP, H|exact R].
  - intros (n & H & R). exists n. split; [apply HP, H|exact R].
  - intros (Hk & ts & l & H1 & H2 & H3 & H4). split; [exact Hk|]. exists ts, l. split; [apply HT; eauto|]. split; [exact H2|]. split; [apply HP, H3|exact H4].
  - intros (l & H & R). exists l. split; [apply HP, H|exact R].
  - intros (b & H & R). exists b. split; [apply HP, H|exact R].
  - intros (Hl & fs & t0 & H & R). split; [eapply lacks_key_part; eassumption|]. exists fs, t0. split; [apply HT; eauto|exact R].
Qed.
Lemma PartT_sub t' t : PartT t' t -> forall x, SubTy x t' -> (exists ts, x = TTuple ts) \/ (exists fs, x = TStruct fs) -> SubTy x t.
Proof.
  intros H x Hx Hs. destruct H as [t t' Hi|t|t|t|t l Hi|k t|t l Hi].
  - exfalso. destruct Hi as [<-|[<-|[<-|[]]]]; inversion Hx; subst; destruct Hs as [[? ?]|[? ?]]; discriminate.
  - apply ST_option, Hx.
  - apply ST_newtype, Hx.
  - apply ST_seq, Hx.
  - eapply ST_tuple; eassumption.
  - apply ST_map, Hx.
  - apply in_map_iff in Hi as ([f t'] & <- & Hi). eapply ST_struct; eassumption.
Qed.
Lemma PartT_depth t' t : PartT t' t -> ty_depth t' <= ty_depth t.
Proof.
  intros [t0 t0' Hi|t0|t0|t0|t0 l Hi|k t0|t0 l Hi]; cbn; try lia.
  - destruct Hi as [<-|[<-|[<-|[]]]]; apply ty_depth_pos.
  - pose proof (list_max_map_in ty_depth _ _ Hi). lia.
  - apply in_map_iff in Hi as (ft & <- & Hi). pose proof (list_max_map_in (fun ft => ty_depth (snd ft)) _ _ Hi). cbn in *. lia.
Qed.
Theorem error_cause : forall n t s e, ty_depth t + src_depth s <= n -> deserialize ord t s = DeErr e -> Cause e t s.
Proof.
  induction n as [|n IH]; intros t s e Hn H; [pose proof (ty_depth_pos t); lia|].
  rewrite deserialize_eq in H by exact Ho. apply visit_err in H.
  pose proof (call_shape s (method_of t)) as HS. pose proof (call_ok ord Ho s (method_of t)) as HK.
  destruct H as [E|[(l & E & Hd)|[(t' & s' & Hm & Hr)|(c & -> & Hc)]]].
  - rewrite E in HS. cbn in HS. destruct e as [e| | |k k'|k|k|c]; cbn in HS; try contradiction.
    + destruct HS as (x & -> & R). exists x. split; [repeat constructor|exact R].
    + destruct HS as (x & -> & R). exists x. split; [repeat constructor|exact R].
    + destruct HS as (Hk & Em & l & -> & El). split; [exact Hk|]. destruct t; try discriminate. injection Em as <-.
      exists l0, l. split; [constructor|]. split; [reflexivity|]. split; [repeat constructor|exact El].
  - rewrite E in HS. cbn in HS. destruct HS as [(lo & -> & ->)|(b & HP & ->)].
    + apply object_steps_dup in Hd as (k & -> & [[[] _]|HR]). exists lo. split; [repeat constructor|exact HR].
    + apply body_dup in Hd as (k & -> & HR). exists b. split; [apply HP; constructor|exact HR].
  - destruct (call ord s (method_of t)) as [| | | | | | |x|x|l|l| |]; cbn in Hm, HS, HK; try contradiction.
    + destruct Hm as [-> ->]. subst s'. eapply Cause_mono; [apply PartS_refl| |eapply (IH t' s e); [cbn in Hn; lia|exact Hr]].
      apply PartT_sub, PT_option.
    + destruct Hm as [-> ->]. subst s'. eapply Cause_mono; [apply PartS_refl| |eapply (IH t' s e); [cbn in Hn; lia|exact Hr]].
      apply PartT_sub, PT_newtype.
    + destruct Hm as [Hi HT]. eapply Cause_mono; [apply HS, Hi|apply PartT_sub, HT|]. eapply IH; [|exact Hr].
      specialize (HK _ Hi). apply PartT_depth in HT. lia.
    + destruct Hm as [(c & Hi) HT]. eapply Cause_mono; [eapply map_source_part; eassumption|apply PartT_sub, HT|]. eapply IH; [|exact Hr].
      specialize (HK _ _ Hi). apply PartT_depth in HT. lia.
  - destruct c as [| | |f|f]; cbn in Hc |- *; auto.
    + destruct Hc as (fs & t' & l & -> & Hf & Hn' & E & Hall & Hk). rewrite E in HS. split; [eapply map_source_lacks; eassumption|].
      exists fs, t'. split; [constructor|]. auto.
    + destruct Hc as (l & E & Hd). rewrite E in HS. apply Hd. eapply map_source_keys, HS.
Qed.
End Order.
