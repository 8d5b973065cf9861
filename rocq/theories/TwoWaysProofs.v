(** * TwoWaysProofs: the deserialiser and [value::from_str] with merging agree *)
From Coq Require Import Permutation ZArith Lia.
From Verif Require Import Base Ast Grammar NomFacts Blocks NumConv NumSpec NumProofs PropNum FloatConv FloatSpec IoSpec Kvp PropKvp Value ValueSpec ValueProofs
  MoreProofs OldGrammar AgreeSpec Serde SerdeSpec SerdeProofs DenSpec DenProofs TwoWaysSpec.
Close Scope Z_scope.
Open Scope N_scope.
Open Scope list_scope.

Definition is_type (x : str) (c : block_t) : bool := str_eqb (cow_str (b_type c)) x.
Definition is_named (x : str) (el : element) : bool :=
  str_eqb (match el with Attr n _ => cow_str n | Blk t _ _ => cow_str t end) x.
Definition blk_of (c : block_t) : element := Blk (b_type c) (b_labels c) (b_body c).

(** ** The last run is all of them *)
Lemma filter_none {A} (f : A -> bool) l : (forall x, In x l -> f x = false) -> filter f l = [].
Proof. induction l as [|a l IH]; intros H; cbn; [reflexivity|]. rewrite (H a (or_introl eq_refl)). apply IH. intros x Hx. apply H. right. exact Hx. Qed.
Lemma filter_all {A} (f : A -> bool) l : (forall x, In x l -> f x = true) -> filter f l = l.
Proof. induction l as [|a l IH]; intros H; cbn; [reflexivity|]. rewrite (H a (or_introl eq_refl)). f_equal. apply IH. intros x Hx. apply H. right. exact Hx. Qed.
Lemma lastrun_all b x r : Consecutive b -> LastRun x (block_list b) r -> r = filter (is_type x) (block_list b).
Proof.
  intros HC [l1 l2 E Hr Ha Hb Hc]. inversion HC as [b0 H _]; subst b0. rewrite E, !filter_app.
  rewrite (filter_all _ r), (filter_none _ l2), (filter_none _ l1), app_nil_r; [reflexivity| | |].
  - intros c Hi. destruct (is_type x c) eqn:Et; [|reflexivity]. exfalso. apply str_eqb_eq in Et.
    apply in_split in Hi as (la & lb & ->). destruct r as [|c' r]; [congruence|].
    assert (Hb2 : forall y, In y lb -> cow_str (b_type y) = x).
    { intros y Hy. rewrite <- Et. apply (H la c lb c' (r ++ l2)); [rewrite E, <- app_assoc; reflexivity| |exact Hy]. rewrite Et, (Ha c' (or_introl eq_refl)). reflexivity. }
    destruct lb as [|y lb] using rev_ind.
    + apply (Hc la c); [reflexivity|exact Et].
    + apply (Hc (la ++ c :: lb) y); [rewrite <- app_assoc; reflexivity|]. apply Hb2. apply in_or_app. right. left. reflexivity.
  - intros c Hi. apply str_eqb_neq. apply Hb, Hi.
  - intros c Hi. apply str_eqb_eq. apply Ha, Hi.
Qed.

(** ** The elements with one name *)
Lemma attr_list_named x b : attr_list (filter (is_named x) b) = filter (fun a => str_eqb (fst a) x) (attr_list b).
Proof.
  unfold attr_list. induction b as [|[n e|t ls bd] b IH]; [reflexivity| |]; cbn [filter flat_map app fst]; unfold is_named at 1.
  - destruct (str_eqb (cow_str n) x); cbn [flat_map app]; [f_equal; exact IH|exact IH].
  - destruct (str_eqb (cow_str t) x); cbn [flat_map app]; exact IH.
Qed.
Lemma block_list_named x b : block_list (filter (is_named x) b) = filter (is_type x) (block_list b).
Proof.
  unfold block_list. induction b as [|[n e|t ls bd] b IH]; [reflexivity| |]; cbn [filter flat_map app]; unfold is_named at 1.
  - destruct (str_eqb (cow_str n) x); cbn [flat_map app]; exact IH.
  - unfold is_type at 1. cbn [b_type]. destruct (str_eqb (cow_str t) x); cbn [flat_map app]; [f_equal; exact IH|exact IH].
Qed.
Lemma only_blocks f : attr_list f = [] -> f = map blk_of (block_list f).
Proof.
  induction f as [|[n e|t ls bd] f IH]; [reflexivity|discriminate|]. cbn [attr_list flat_map app]. fold (attr_list f). intros H.
  cbn [block_list flat_map app map]. fold (block_list f). rewrite <- (IH H). reflexivity.
Qed.
Lemma one_attr f x e : block_list f = [] -> attr_list f = [(x, e)] -> exists i, f = [Attr i e] /\ cow_str i = x.
Proof.
  destruct f as [|[n e'|t ls bd] f]; [discriminate| |discriminate]. cbn [attr_list flat_map app block_list]. fold (attr_list f) (block_list f).
  intros Hb [= <- -> Ha]. exists n. split; [|reflexivity]. f_equal. rewrite (only_blocks f Ha), Hb. reflexivity.
Qed.
Lemma filter_unique {A} x (e : A) l : NoDup (map fst l) -> In (x, e) l -> filter (fun a => str_eqb (fst a) x) l = [(x, e)].
Proof.
  induction l as [|[y z] l IH]; intros HD Hi; [contradiction|]. cbn in HD. inversion HD as [|? ? Hn HD']; subst. cbn [filter fst].
  destruct Hi as [[= -> ->]|Hi].
  - rewrite str_eqb_refl. f_equal. apply filter_none. intros [y' z'] Hy. apply str_eqb_neq. cbn. intros ->. apply Hn. apply (in_map fst) in Hy. exact Hy.
  - replace (str_eqb y x) with false; [apply IH; assumption|]. symmetry. apply str_eqb_neq. intros ->. apply Hn. apply (in_map fst) in Hi. exact Hi.
Qed.
Lemma NoDup_app_l {A} (l l' : list A) : NoDup (l ++ l') -> NoDup l.
Proof. induction l as [|a l IH]; cbn; intros H; [constructor|]. inversion H as [|? ? Hn HN]; subst. constructor; [intros Hi; apply Hn; apply in_or_app; left; exact Hi|auto]. Qed.
Lemma NoDup_app_apart {A} (l l' : list A) x : NoDup (l ++ l') -> In x l -> In x l' -> False.
Proof.
  induction l as [|a l IH]; cbn; intros H Hi Hj; [contradiction|]. inversion H as [|? ? Hn HN]; subst. destruct Hi as [->|Hi]; [apply Hn, in_or_app; auto|auto].
Qed.

(** ** Entries under one key *)
Lemma doc_values x b l : DocAs b l ->
  Forall2 (fun el v => ElemAs el (KeyIdent x, v)) (filter (is_named x) b) (values_of (KeyIdent x) l).
Proof.
  induction 1 as [|el [k v] b l H _ IH]; [constructor|]. cbn [filter]. unfold values_of in *. cbn [filter fst].
  assert (E : exists y, k = KeyIdent y /\ is_named x el = str_eqb y x) by (inversion H; subst; eexists; split; reflexivity).
  destruct E as (y & -> & ->). assert (key_eqb (KeyIdent y) (KeyIdent x) = str_eqb y x) as E.
  { destruct (str_eqb y x) eqn:E; [apply str_eqb_eq in E; subst; apply key_eqb_refl|]. apply key_eqb_neq. intros [= ->]. rewrite str_eqb_refl in E. discriminate. }
  rewrite E. destruct (str_eqb y x) eqn:Ey; cbn [map snd]; [|exact IH]. apply str_eqb_eq in Ey. subst y. constructor; [exact H|exact IH].
Qed.
Lemma doc_keys b l : DocAs b l -> forall k, In k (map fst l) ->
  exists x, k = KeyIdent x /\ (In x (map fst (attr_list b)) \/ exists c, In c (block_list b) /\ cow_str (b_type c) = x).
Proof.
  induction 1 as [|el [k v] b l H _ IH]; intros k' Hk; [contradiction|]. cbn [map fst] in Hk. destruct Hk as [<-|Hk].
  - inversion H; subst; eexists; (split; [reflexivity|]).
    + left. left. reflexivity.
    + right. eexists. split; [left; reflexivity|reflexivity].
    + right. eexists. split; [left; reflexivity|reflexivity].
  - apply IH in Hk as (x & -> & Hx). exists x. split; [reflexivity|]. destruct el; cbn; destruct Hx as [Hx|(c & Hc & Hx)]; eauto.
Qed.
(** lists of related values, one for each key, are the values of a list of entries *)
Lemma demux (R : Value.value -> Value.value -> Prop) l : forall F : key -> list Value.value, (forall k, Forall2 R (values_of k l) (F k)) ->
  exists l', Forall2 (fun a b => fst b = fst a /\ R (snd a) (snd b)) l l' /\ forall k, values_of k l' = F k.
Proof.
  induction l as [|[k0 v0] l IH]; intros F HF.
  - exists []. split; [constructor|]. intros k. specialize (HF k). inversion HF. reflexivity.
  - assert (H0 := HF k0). unfold values_of in H0. cbn [filter fst] in H0. rewrite key_eqb_refl in H0. cbn [map snd] in H0. remember (v0 :: map snd (filter (fun kv => key_eqb (fst kv) k0) l)) as lx eqn:Ex in H0.
    remember (F k0) as f0 eqn:EF. destruct H0 as [|v0x v0' l0 rest Hv Hr]; [discriminate|]. injection Ex as -> ->.
    destruct (IH (fun k => if key_eqb k0 k then rest else F k)) as (l' & HF2 & HV).
    + intros k. specialize (HF k). unfold values_of in HF. cbn [filter fst] in HF. destruct (key_eqb k0 k) eqn:E; [|exact HF].
      apply key_eqb_eq in E. subst k. exact Hr.
    + exists ((k0, v0') :: l'). split; [constructor; [split; [reflexivity|exact Hv]|exact HF2]|].
      intros k. specialize (HV k). unfold values_of in *. cbn [filter fst]. destruct (key_eqb k0 k) eqn:E; cbn [map snd]; rewrite HV; [|reflexivity].
      apply key_eqb_eq in E. subst k. exact EF.
Qed.

(** ** Expressions *)
Lemma number_data n v d : NumberValue (cow_str (num_input n)) v -> Den TAny (Expr (ENumber n)) d -> DataOf v d.
Proof.
  intros Hv Hd. inversion Hd; subst; try match goal with H : Items _ _ |- _ => inversion H end; try match goal with H : Members _ _ |- _ => inversion H end.
  - match goal with H : IntLit n _ |- _ => destruct H as (t & Hn & Hz & Hr) end. pose proof (NumLit_input n t Hn) as E. rewrite E in Hv.
    inversion Hv as [t2 z2 Hz2 Hr2|t2 f2 Hn2 Hf2]; subst.
    + rewrite (C14_value_unique _ _ _ Hz Hz2). constructor.
    + elim (Hn2 z Hz Hr).
  - match goal with H : FloatLit n _ |- _ => pose proof (number_float n f H) as E; destruct H as (t & neg & v0 & Hn & Hno & _) end.
    pose proof (NumLit_input n t Hn) as Et. rewrite Et in Hv.
    inversion Hv as [t2 z2 Hz2 Hr2|t2 f2 Hn2 Hf2]; subst; [elim (Hno _ Hz2)|].
    assert (as_f64 n = Some f2) as Ef by (exact Hf2).
    unfold number_event in E. destruct (is_float n).
    + rewrite Ef in E. injection E as ->. constructor.
    + destruct (is_signed n); destruct (as_int _ n); discriminate.
Qed.
Lemma any_tuple l d : Den TAny (Expr (ETuple l)) d -> exists ds, d = DSeq ds /\ Forall2 (fun y d => Den TAny y d) (map Expr l) ds.
Proof.
  intros HD. inversion HD; subst; [|match goal with H : Members _ _ |- _ => inversion H end].
  match goal with H1 : Items _ ?m1, H2 : Forall2 _ ?m1 ?ds |- _ => exists ds; inversion H1; subst; auto end.
Qed.
Lemma any_blocks b b' bs d : Den TAny (Group (b :: b' :: bs)) d -> exists ds, d = DSeq ds /\ Forall2 (fun y d => Den TAny y d) (map Body (b :: b' :: bs)) ds.
Proof.
  intros HD. inversion HD; subst; [|match goal with H : Members _ _ |- _ => inversion H end].
  match goal with H1 : Items _ ?m1, H2 : Forall2 _ ?m1 ?ds |- _ => exists ds; inversion H1; subst; auto end.
Qed.
Lemma any_block b d : Den TAny (Group [b]) d -> Den TAny (Body b) d.
Proof.
  intros HD. inversion HD; subst; [match goal with H : Items _ _ |- _ => inversion H end|].
  match goal with H : Members _ _ |- _ => inversion H; subst end. eapply D_any_members; eassumption.
Qed.
Lemma any_object l d : Den TAny (Expr (EObject l)) d -> exists ms es, d = DMap es /\ Members (Expr (EObject l)) ms /\
  Forall2 (fun m e => fst e = fst m /\ Den TAny (snd m) (snd e)) ms es.
Proof. intros HD. inversion HD; subst; [match goal with H : Items _ _ |- _ => inversion H end|eauto]. Qed.
Lemma any_body l d : Den TAny (Body l) d -> exists ms es, d = DMap es /\ Members (Body l) ms /\
  Forall2 (fun m e => fst e = fst m /\ Den TAny (snd m) (snd e)) ms es.
Proof. intros HD. inversion HD; subst; [match goal with H : Items _ _ |- _ => inversion H end|eauto]. Qed.
Lemma expr_two e : forall v d, ExprAs e v -> Den TAny (Expr e) d -> exists v', MergesTo v v' /\ DataOf v' d.
Proof.
  induction e as [|n|b|c|l IH|l IH] using expr_ind'; intros v d Hv Hd.
  - inversion Hv; subst. inversion Hd; subst; try match goal with H : Items _ _ |- _ => inversion H end; try match goal with H : Members _ _ |- _ => inversion H end.
    exists VNull. split; constructor.
  - inversion Hv; subst. exists v. split; [|eapply number_data; eassumption]. apply MT_scalar.
    match goal with H : NumberValue _ _ |- _ => inversion H; reflexivity end.
  - inversion Hv; subst. inversion Hd; subst; try match goal with H : Items _ _ |- _ => inversion H end; try match goal with H : Members _ _ |- _ => inversion H end.
    exists (VBoolean b). split; [apply MT_scalar; reflexivity|constructor].
  - inversion Hv; subst. inversion Hd; subst; try match goal with H : Items _ _ |- _ => inversion H end; try match goal with H : Members _ _ |- _ => inversion H end.
    exists (Value.VString (cow_str c)). split; [apply MT_scalar; reflexivity|constructor].
  - inversion Hv as [| | | |? l' HF|]; subst. apply any_tuple in Hd as (ds & -> & HD). assert (exists l2, Forall2 MergesTo l' l2 /\ Forall2 DataOf l2 ds) as (l2 & H1 & H2).
    { clear Hv. revert l' ds HF HD. induction IH as [|e l He _ IHl]; intros l' ds HF HD; inversion HF as [|? v ? l1 Hv Hl]; subst; cbn [map] in HD; inversion HD as [|? d ? ds1 Hd1 Hds]; subst.
      - exists []. split; constructor.
      - destruct (He _ _ Hv Hd1) as (v' & M1 & M2). destruct (IHl _ _ Hl Hds) as (l2 & M3 & M4). exists (v' :: l2). split; constructor; assumption. }
    exists (VList l2). split; constructor; assumption.
  - inversion Hv as [| | | | |? l' HF]; subst. apply any_object in Hd as (ms & es & -> & HM & HD).
    inversion HM as [l0 ms0 HFm HN| |]; subst.
    assert (exists l2, Forall2 (fun a b => fst b = fst a /\ MergesTo (snd a) (snd b)) l' l2 /\
      Forall2 (fun kv e => fst e = key_str (fst kv) /\ DataOf (snd kv) (snd e)) l2 es /\ map fst l2 = map KeyIdent (map fst ms)) as (l2 & H1 & H2 & H3).
    { clear Hv HM HN. revert l' ms es HF HFm HD. induction IH as [|[k e] l He _ IHl]; intros l' ms es HF HFm HD; inversion HF as [|? [k' v] ? l1 [Hk Hv] Hl]; subst; inversion HFm as [|? m ? ms1 (i & Ei & Em) Hms]; subst; inversion HD as [|? [x d] ? es1 [Ex Hd1] Hes]; subst; cbn [fst snd] in *.
      - exists []. repeat split; constructor.
      - subst k x. inversion Hk; subst. destruct (He _ _ Hv Hd1) as (v' & M1 & M2). destruct (IHl _ _ _ Hl Hms Hes) as (l2 & M3 & M4 & M5).
        exists ((KeyIdent (cow_str i), v') :: l2). split; [constructor; [split; [reflexivity|exact M1]|exact M3]|]. split; [constructor; [split; [reflexivity|exact M2]|exact M4]|]. cbn. rewrite M5. reflexivity. }
    assert (HN2 : NoDup (map fst l2)).
    { rewrite H3. clear - HN. induction HN as [|x l Hn _ IH]; cbn; constructor; [|exact IH]. intros Hi. apply in_map_iff in Hi as (y & [= ->] & Hy). contradiction. }
    exists (VObject [Merged l2]). split; [|constructor; constructor; exact H2]. constructor. constructor; [|constructor]. econstructor; [exact H1|exact HN2| |].
    + intros k. rewrite <- (Forall2_keys MergesTo l' l2 H1). reflexivity.
    + intros k v Hi. replace (values_of k l2) with [v]; [constructor|]. clear - HN2 Hi. unfold values_of. induction l2 as [|[k1 v1] l2 IH]; [contradiction|].
      cbn in HN2. inversion HN2 as [|? ? Hn HD]; subst. cbn [filter fst]. destruct Hi as [[= -> ->]|Hi].
      * rewrite key_eqb_refl. cbn [map snd]. f_equal. pose proof (proj1 (values_of_none k l2) Hn) as E. unfold values_of in E. rewrite E. reflexivity.
      * replace (key_eqb k1 k) with false; [apply IH; assumption|]. symmetry. apply key_eqb_neq. intros ->. apply Hn. apply (in_map fst) in Hi. exact Hi.
Qed.

(** ** Bodies *)
Definition TwoBody (b : body_t) : Prop :=
  forall l d, Consecutive b -> DocAs b l -> Den TAny (Body b) d -> exists m, MapMergesTo (Unmerged l) (Merged m) /\ MapData (Merged m) d.
Definition KeyOk (l : list (key * Value.value)) (x : str) (d : data) (vs : list Value.value) (v : Value.value) : Prop :=
  Forall2 MergesTo (values_of (KeyIdent x) l) vs /\ Combined vs v /\ DataOf v d.
Lemma merges_objects bodies lbs ds :
  Forall TwoBody bodies -> Forall Consecutive bodies -> Forall2 DocAs bodies lbs -> Forall2 (fun y d => Den TAny y d) (map Body bodies) ds ->
  exists ms, Forall2 MergesTo (map (fun lb => VObject [Unmerged lb]) lbs) (map (fun m => VObject [Merged m]) ms) /\
    Forall2 MapData (map (@Merged _ _) ms) ds.
Proof.
  revert lbs ds. induction bodies as [|b bodies IH]; intros lbs ds HT HC HA HD; cbn [map] in HD; inversion HA as [|? lb ? lbs' Hb Hl]; subst; inversion HD as [|? d ? ds' Hd Hds]; subst.
  - exists []. split; constructor.
  - inversion HT as [|? ? HT1 HT2]; subst. inversion HC as [|? ? HC1 HC2]; subst. destruct (HT1 lb d HC1 Hb Hd) as (m & Hm & Hmd).
    destruct (IH _ _ HT2 HC2 Hl Hds) as (ms & H1 & H2). exists (m :: ms). cbn [map]. split; constructor; try assumption. constructor. constructor; [exact Hm|constructor].
Qed.
Lemma combined_objects ms v : Combined (map (fun m => VObject [Merged m]) ms) v -> v = VObject (map (@Merged _ _) ms).
Proof.
  intros H. remember (map (fun m => VObject [Merged m]) ms) as vs eqn:E. destruct H as [v|l1 l2 ls|b1 b2 bs m HT].
  - destruct ms as [|m [|]]; try discriminate. injection E as ->. reflexivity.
  - assert (E2 : (l1 :: l2 :: ls) = map (fun m => [Merged m]) ms).
    { revert E. generalize (l1 :: l2 :: ls). clear. intros l. revert l. induction ms as [|m ms IH]; intros [|x l] E; try discriminate; [reflexivity|]. cbn in *. injection E as -> E. f_equal. apply IH, E. }
    rewrite E2. f_equal. clear. induction ms as [|m ms IH]; [reflexivity|]. cbn. f_equal. exact IH.
  - destruct ms; discriminate.
Qed.
Lemma combine_objects ms : ms <> [] -> Combined (map (fun m => VObject [Merged m]) ms) (VObject (map (@Merged _ _) ms)).
Proof.
  destruct ms as [|m0 [|m1 ms]]; [congruence|constructor|]. intros _.
  replace (map (fun m => VObject [Merged m]) (m0 :: m1 :: ms)) with (map VObject ([Merged m0] :: [Merged m1] :: map (fun m => [Merged m]) ms)) by (cbn [map]; rewrite map_map; reflexivity).
  replace (map (@Merged _ _) (m0 :: m1 :: ms)) with (concat ([Merged m0] :: [Merged m1] :: map (fun m => [Merged m]) ms)); [constructor|].
  cbn. do 2 f_equal. induction ms as [|m ms IH]; [reflexivity|]. cbn. f_equal. exact IH.
Qed.
Lemma in_block_list c b : In c (block_list b) -> In (blk_of c) b.
Proof. unfold block_list. intros H. apply in_flat_map in H as ([n e|t ls bd] & Hi & Hc); [contradiction|]. destruct Hc as [<-|[]]. exact Hi. Qed.
Lemma block_group x b l c0 d : Consecutive b -> DocAs b l -> (forall t ls bd, In (Blk t ls bd) b -> TwoBody bd) ->
  (forall n e, In (n, e) (attr_list b) -> n <> x) ->
  In c0 (block_list b) -> cow_str (b_type c0) = x ->
  (forall c, In c (filter (is_type x) (block_list b)) -> b_labels c = []) ->
  Den TAny (Group (map b_body (filter (is_type x) (block_list b)))) d ->
  exists vs v, KeyOk l x d vs v.
Proof.
  intros HC HA HT Hna Hc0 Ht0 Hls HD. pose proof (doc_values x b l HA) as HV.
  assert (Ef : filter (is_named x) b = map blk_of (filter (is_type x) (block_list b))).
  { rewrite <- block_list_named. apply only_blocks. rewrite attr_list_named. apply filter_none. intros [n e] Hi. apply str_eqb_neq. apply (Hna n e Hi). }
  rewrite Ef in HV. assert (Hin : forall c, In c (filter (is_type x) (block_list b)) -> In (blk_of c) b).
  { intros c Hc. apply in_block_list. apply filter_In in Hc. apply Hc. }
  assert (Hne : filter (is_type x) (block_list b) <> []).
  { intros E. assert (Hi : In c0 (filter (is_type x) (block_list b))) by (apply filter_In; split; [exact Hc0|apply str_eqb_eq, Ht0]). rewrite E in Hi. contradiction. }
  remember (filter (is_type x) (block_list b)) as cs eqn:Ecs. clear Ecs Ef.
  assert (HB : Forall TwoBody (map b_body cs) /\ Forall Consecutive (map b_body cs)).
  { split; apply Forall_forall; intros bd Hbd; apply in_map_iff in Hbd as (c & <- & Hc); apply Hin in Hc; [apply (HT _ _ _ Hc)|inversion HC as [? _ HC2]; subst; apply (HC2 _ _ _ Hc)]. }
  assert (HL : exists lbs, Forall2 DocAs (map b_body cs) lbs /\ values_of (KeyIdent x) l = map (fun lb => VObject [Unmerged lb]) lbs).
  { revert HV Hls. clear. generalize (values_of (KeyIdent x) l). induction cs as [|c cs IH]; intros vs HV Hls; cbn [map] in HV; inversion HV as [|? v ? vs' Hv Hl]; subst.
    - exists []. split; [constructor|reflexivity].
    - destruct (IH _ Hl (fun c' Hc' => Hls c' (or_intror Hc'))) as (lbs & H1 & H2). pose proof (Hls c (or_introl eq_refl)) as E. unfold blk_of in Hv. rewrite E in Hv.
      inversion Hv as [|? ? lb Hb|? ls ? lb Hne Hb E1 E2]; subst.
      + exists (lb :: lbs). split; [constructor; assumption|]. cbn [map]. first [reflexivity|rewrite H2; reflexivity|congruence].
      + destruct ls; [congruence|discriminate]. }
  destruct HL as (lbs & HA2 & EV). destruct HB as [HB1 HB2]. unfold KeyOk. rewrite EV.
  assert (HDs : (exists dd, Forall2 (fun y d => Den TAny y d) (map Body (map b_body cs)) [dd] /\ d = dd /\ length cs = 1%nat) \/
    (exists ds, Forall2 (fun y d => Den TAny y d) (map Body (map b_body cs)) ds /\ d = DSeq ds /\ (2 <= length cs)%nat)).
  { destruct cs as [|c [|c' cs]]; [congruence| |]; cbn [map] in *.
    - left. exists d. split; [constructor; [apply any_block, HD|constructor]|]. split; reflexivity.
    - right. apply any_blocks in HD as (ds & -> & HD). exists ds. split; [exact HD|]. split; [reflexivity|cbn; lia]. }
  destruct HDs as [(dd & HD1 & -> & Hlen)|(ds & HD1 & -> & Hlen)]; destruct (merges_objects _ _ _ HB1 HB2 HA2 HD1) as (ms & H1 & H2);
    (assert (Hms : ms <> []) by (intros ->; cbn in H2; inversion H2; subst; destruct cs as [|c1 cs1]; first [cbn in Hlen; lia|inversion HD1]));
    exists (map (fun m => VObject [Merged m]) ms), (VObject (map (@Merged _ _) ms)); (split; [exact H1|]); (split; [apply combine_objects, Hms|]).
  - inversion H2 as [|p ? ps ? Hp Hps E]; subst. inversion Hps; subst. constructor. exact Hp.
  - assert (length (map (@Merged key Value.value) ms) = length ds /\ length ds = length cs) as [L1 L2].
    { split; [clear - H2; induction H2; cbn; congruence|]. rewrite <- (map_length b_body cs), <- (map_length Body). clear - HD1. induction HD1; cbn; congruence. }
    destruct (map (@Merged key Value.value) ms) as [|p [|q ps]]; cbn in L1; [lia|lia|]. constructor. exact H2.
Qed.
Lemma attr_one x e b l d : DocAs b l -> NoDup (map fst (attr_list b)) -> In (x, e) (attr_list b) ->
  (forall c, In c (block_list b) -> cow_str (b_type c) <> x) -> Den TAny (Expr e) d -> exists vs v, KeyOk l x d vs v.
Proof.
  intros HA HN Hi Hnb HD. pose proof (doc_values x b l HA) as HV.
  destruct (one_attr (filter (is_named x) b) x e) as (i & Ef & Ei).
  - rewrite block_list_named. apply filter_none. intros c Hc. apply str_eqb_neq, Hnb, Hc.
  - rewrite attr_list_named. apply filter_unique; assumption.
  - rewrite Ef in HV. inversion HV as [|? v ? ? Hv Hl E1 E2]; subst. inversion Hl; subst. inversion Hv as [? ? ? He| |]; subst.
    destruct (expr_two e v d He HD) as (v' & H1 & H2). exists [v'], v'. unfold KeyOk. rewrite <- E2. split; [constructor; [exact H1|constructor]|]. split; [constructor|exact H2].
Qed.
Lemma Forall2_choice {A B C} (R : A -> B -> C -> Prop) l l' : Forall2 (fun a b => exists c, R a b c) l l' ->
  exists cs, Forall3 R l l' cs.
Proof. induction 1 as [|a b l l' (c & Hc) _ (cs & IH)]; [exists []; constructor|exists (c :: cs); constructor; assumption]. Qed.
Lemma body_two b : (forall t ls bd, In (Blk t ls bd) b -> TwoBody bd) -> TwoBody b.
Proof.
  intros HT l d HC HA Hd. apply any_body in Hd as (ms & es & -> & HM & HE). inversion HM as [|? groups ? Hg HFg Ems HN|]; subst.
  set (ms := map (fun a => (fst a, Expr (snd a))) (attr_list b) ++ groups) in *.
  assert (HNa : NoDup (map fst (attr_list b)) /\ forall n, In n (map fst (attr_list b)) -> In n (map fst groups) -> False).
  { unfold ms in HN. rewrite map_app, map_map in HN. cbn in HN. split; [apply NoDup_app_l in HN; exact HN|]. intros n H1 H2. exact (NoDup_app_apart _ _ n HN H1 H2). }
  destruct HNa as [HNa Hap].
  assert (HK : Forall2 (fun m e => exists c, fst e = fst m /\ KeyOk l (fst m) (snd e) (fst c) (snd c)) ms es).
  { assert (HI : Forall (fun m => forall d, Den TAny (snd m) d -> exists c, KeyOk l (fst m) d (fst c) (snd c)) ms).
    { apply Forall_forall. intros [x y] Hi d HD. cbn [fst snd] in *. apply in_app_or in Hi as [Hi|Hi].
      - apply in_map_iff in Hi as ([x' e] & [= -> <-] & Hi). destruct (attr_one x e b l d HA HNa Hi) as (vs & v & H); [|exact HD|exists (vs, v); exact H].
        intros c Hc Ec. apply (Hap x); [apply (in_map fst) in Hi; exact Hi|]. apply Hg. eauto.
      - rewrite Forall_forall in HFg. destruct (HFg _ Hi) as (r & HL & Hu & Ey). cbn [fst snd] in *. subst y. pose proof (lastrun_all b x r HC HL) as ->.
        destruct (proj1 (Hg x)) as (c0 & Hc0 & Et); [apply (in_map fst) in Hi; exact Hi|].
        destruct (block_group x b l c0 d HC HA HT) as (vs & v & H); try assumption; [|exists (vs, v); exact H].
        intros n e Hn ->. apply (Hap x); [apply (in_map fst) in Hn; exact Hn|apply (in_map fst) in Hi; exact Hi]. }
    clear - HI HE. induction HE as [|m e ms es [E HD] _ IH]; [constructor|]. inversion HI as [|? ? H1 H2]; subst. constructor; [|apply IH, H2].
    destruct (H1 _ HD) as (c & Hc). exists c. split; [exact E|exact Hc]. }
  apply Forall2_choice in HK as (cs & HK). clear HE.
  (* the values under each key *)
  set (F := fun k : key => match find (fun mc => key_eqb (KeyIdent (fst mc)) k) (combine (map fst ms) cs) with Some (_, c) => fst c | None => [] end).
  assert (HFk : forall k, Forall2 MergesTo (values_of k l) (F k)).
  { intros k. unfold F. destruct (find _ _) as [[x c]|] eqn:E.
    - apply find_some in E as [Hi Ek]. cbn [fst] in Ek. apply key_eqb_eq in Ek. subst k.
      clear - HK Hi. induction HK as [|m e c0 ms0 es cs [E HO] _ IH]; [contradiction|]. cbn in Hi. destruct Hi as [[= <- <-]|Hi]; [apply HO|apply IH, Hi].
    - replace (values_of k l) with (@nil Value.value); [constructor|]. symmetry. apply values_of_none. intros Hk.
      destruct (doc_keys b l HA k Hk) as (x & -> & Hx).
      assert (Hin : In x (map fst ms)).
      { unfold ms. rewrite map_app, map_map. cbn. apply in_or_app. destruct Hx as [Hx|Hx]; [left; exact Hx|right; apply Hg, Hx]. }
      assert (Hc : exists c, In (x, c) (combine (map fst ms) cs)).
      { clear - HK Hin. induction HK as [|m e c ms0 es cs _ _ IH]; [contradiction|]. cbn in Hin. cbn. destruct Hin as [<-|Hin]; [eauto|]. destruct (IH Hin) as (c' & Hc'). eauto. }
      destruct Hc as (c & Hc). pose proof (find_none _ _ E _ Hc) as Hno. cbn [fst] in Hno. rewrite key_eqb_refl in Hno. discriminate. }
  destruct (demux MergesTo l F HFk) as (l' & HF2 & HVo).
  set (m := map (fun mc => (KeyIdent (fst mc), snd (snd mc))) (combine (map fst ms) cs)).
  assert (Elen : length (map fst ms) = length cs) by (rewrite map_length; clear - HK; induction HK; cbn; congruence).
  assert (Em : map fst m = map KeyIdent (map fst ms)).
  { unfold m. rewrite map_map. cbn. rewrite <- (map_map fst KeyIdent). f_equal. clear - Elen. revert cs Elen. induction (map fst ms) as [|x xs IH]; intros [|c cs] E; try discriminate; [reflexivity|]. cbn. f_equal. apply IH. injection E as E. exact E. }
  assert (HNm : NoDup (map fst m)).
  { rewrite Em. clear - HN. induction HN as [|x xs Hn _ IH]; cbn; constructor; [|exact IH]. intros Hi. apply in_map_iff in Hi as (y & [= ->] & Hy). contradiction. }
  exists m. split.
  - econstructor; [exact HF2|exact HNm| |].
    + intros k. rewrite Em. split.
      * intros Hk. apply in_map_iff in Hk as (x & <- & Hx). unfold ms in Hx. rewrite map_app, map_map in Hx. cbn in Hx.
        assert (Hf : filter (is_named x) b <> []).
        { apply in_app_or in Hx as [Hx|Hx].
          - apply in_map_iff in Hx as ([x' e] & E & Hx). cbn in E. subst x'. intros Ef. pose proof (attr_list_named x b) as Ea. rewrite Ef in Ea. cbn in Ea.
            assert (In (x, e) (filter (fun a => str_eqb (fst a) x) (attr_list b))) as Hi by (apply filter_In; split; [exact Hx|apply str_eqb_refl]). rewrite <- Ea in Hi. contradiction.
          - apply Hg in Hx as (c & Hc & Et). intros Ef. pose proof (block_list_named x b) as Ea. rewrite Ef in Ea. cbn in Ea.
            assert (In c (filter (is_type x) (block_list b))) as Hi by (apply filter_In; split; [exact Hc|apply str_eqb_eq, Et]). rewrite <- Ea in Hi. contradiction. }
        pose proof (doc_values x b l HA) as HV. destruct (in_dec (list_eq_dec N.eq_dec) x []) as [[]|_].
        destruct (values_of (KeyIdent x) l) as [|v vs] eqn:Ev; [inversion HV; subst; congruence|].
        assert (In v (values_of (KeyIdent x) l)) as Hi by (rewrite Ev; left; reflexivity). apply values_of_in in Hi. apply (in_map fst) in Hi. exact Hi.
      * intros Hk. destruct (doc_keys b l HA k Hk) as (x & -> & Hx). apply in_map. unfold ms. rewrite map_app, map_map. cbn. apply in_or_app.
        destruct Hx as [Hx|Hx]; [left; exact Hx|right; apply Hg, Hx].
    + intros k v Hi. rewrite HVo. unfold m in Hi. apply in_map_iff in Hi as ([x [vs v']] & [= <- <-] & Hi). cbn [fst snd] in *.
      assert (EF : F (KeyIdent x) = vs).
      { unfold F. assert (HN2 : NoDup (map fst (combine (map fst ms) cs))).
        { unfold m in HNm. rewrite map_map in HNm. cbn in HNm. rewrite <- (map_map fst KeyIdent) in HNm. apply NoDup_map_inv in HNm. exact HNm. }
        clear - Hi HN2. induction (combine (map fst ms) cs) as [|[y c] ps IH]; [contradiction|]. cbn in HN2. inversion HN2 as [|? ? Hn HD]; subst. cbn [find fst]. destruct Hi as [[= -> ->]|Hi].
        - rewrite key_eqb_refl. reflexivity.
        - replace (key_eqb (KeyIdent y) (KeyIdent x)) with false; [apply IH; assumption|]. symmetry. apply key_eqb_neq. intros [= ->]. apply Hn. apply (in_map fst) in Hi. exact Hi. }
      rewrite EF. clear - HK Hi. induction HK as [|m e c0 ms0 es cs [E HO] _ IH]; [contradiction|]. cbn in Hi. destruct Hi as [[= <- ->]|Hi]; [apply HO|apply IH, Hi].
  - constructor. cbn [entries]. unfold m. clear - HK. induction HK as [|m e c0 ms0 es cs [E HO] _ IH]; [constructor|]. cbn. constructor; [|exact IH].
    cbn. split; [exact E|apply HO].
Qed.
Theorem bodies_two : forall b, TwoBody b.
Proof.
  assert (H : forall el, match el with Blk _ _ bd => TwoBody bd | Attr _ _ => True end).
  { induction el as [n e|t ls b IH] using element_ind'; [exact I|]. apply body_two. intros t' ls' bd Hi. rewrite Forall_forall in IH. apply (IH _ Hi). }
  intros b. apply body_two. intros t ls bd _. exact (H (Blk t ls bd)).
Qed.

(** A test for [Consecutive], for examples. *)
Fixpoint cons_ok (cs : list block_t) : bool :=
  match cs with
  | [] => true
  | c :: r => match r with [] => true | c2 :: _ => negb (existsb (is_type (cow_str (b_type c))) r) || is_type (cow_str (b_type c)) c2 end && cons_ok r
  end.
Lemma cons_ok_spec cs : cons_ok cs = true -> forall l1 c l2 c' l3, cs = l1 ++ c :: l2 ++ c' :: l3 -> cow_str (b_type c) = cow_str (b_type c') ->
  forall x, In x l2 -> cow_str (b_type x) = cow_str (b_type c).
Proof.
  induction cs as [|c0 r IH]; intros H l1 c l2 c' l3 E Et x Hx; [destruct l1; discriminate|]. cbn [cons_ok] in H. apply andb_prop in H as [H1 H2].
  destruct l1 as [|y l1]; [|injection E as -> ->; eapply (IH H2); [reflexivity|exact Et|exact Hx]]. injection E as -> ->.
  destruct l2 as [|z l2]; [contradiction|]. cbn [app] in H1. apply Bool.orb_prop in H1 as [H1|H1].
  - exfalso. apply Bool.negb_true_iff in H1. assert (existsb (is_type (cow_str (b_type c))) (z :: l2 ++ c' :: l3) = true) as E.
    { apply existsb_exists. exists c'. split; [right; apply in_or_app; right; left; reflexivity|]. apply str_eqb_eq. congruence. }
    congruence.
  - apply str_eqb_eq in H1. destruct Hx as [->|Hx]; [exact H1|]. rewrite <- H1. apply (IH H2 [] z l2 c' l3); [reflexivity|congruence|exact Hx].
Qed.
Lemma cons_ok_body b : cons_ok (block_list b) = true -> Forall (fun el => match el with Blk _ _ bd => Consecutive bd | Attr _ _ => True end) b -> Consecutive b.
Proof. intros H HF. constructor; [apply cons_ok_spec, H|]. intros t ls bd Hi. rewrite Forall_forall in HF. exact (HF _ Hi). Qed.
