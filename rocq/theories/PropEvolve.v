(** * PropEvolve: C129 documents and types that evolve *)
From Coq Require Import Permutation ZArith Lia.
From Verif Require Import Base Nom Ast Grammar Parser Blocks NumConv IoSpec PropSyntax Serde SerdeSpec SerdeProofs PropSerde DenSpec DenProofs PropDen MoveProofs PropMove EvolveSpec EvolveProofs.
Close Scope Z_scope.
Open Scope N_scope.
Open Scope list_scope.

(** C129: two documents that are the same for a type (any type, at any depth) give the same value of it. *)
Theorem C129_same_for : forall U ord ord' t s s' b b' d, Order ord -> Order ord' -> GoodTy t ->
  parse_str U s = OkR b -> parse_str U s' = OkR b' -> SameFor t (Body b) (Body b') ->
  from_str U ord t s = DeOk d -> exists d', from_str U ord' t s' = DeOk d' /\ Same d d' /\ (Ordered t -> d' = d).
Proof.
  intros U ord ord' t s s' b b' d Ho Ho' HG Hs Hs' HS H.
  destruct (C102_sound U ord Ho t HG s d H) as (b0 & Hb & Hd). apply C01_parse_str_grammar in Hb. rewrite Hs in Hb. injection Hb as <-.
  destruct (den_same _ _ _ _ HS Hd) as (d1 & Hd1 & HS1 & HO1). apply C01_parse_str_grammar in Hs'.
  destruct (C102_complete U ord' Ho' t HG s' b' d1 Hs' Hd1) as (d' & E & HS' & HO'). exists d'. split; [exact E|].
  split; [eapply Same_trans; eassumption|]. intros O. rewrite HO' by exact O. apply HO1, O.
Qed.
Print Assumptions C129_same_for.
Theorem C129_accepted : forall U ord ord' t s s' b b', Order ord -> Order ord' -> GoodTy t ->
  parse_str U s = OkR b -> parse_str U s' = OkR b' -> SameFor t (Body b) (Body b') ->
  (exists d, from_str U ord t s = DeOk d) <-> (exists d', from_str U ord' t s' = DeOk d').
Proof.
  intros U ord ord' t s s' b b' Ho Ho' HG Hs Hs' HS. split; intros (d & H).
  - destruct (C129_same_for U ord ord' t s s' b b' d Ho Ho' HG Hs Hs' HS H) as (d' & E & _). eauto.
  - destruct (C129_same_for U ord' ord t s' s b' b d Ho' Ho HG Hs' Hs (SameFor_sym _ _ _ HS) H) as (d' & E & _). eauto.
Qed.
Print Assumptions C129_accepted.

(** ** An attribute that is not a field, anywhere in a document *)
Definition Names (b : body_t) (n : str) : Prop := In n (map fst (attr_list b)) \/ exists c, In c (block_list b) /\ cow_str (b_type c) = n.
Definition on_attr (a : str * expr) : str * node := (fst a, Expr (snd a)).
Lemma attrs_insert b1 b2 i e (groups : list (str * node)) :
  Permutation (map on_attr (attr_list (b1 ++ Attr i e :: b2)) ++ groups) ((cow_str i, Expr e) :: map on_attr (attr_list (b1 ++ b2)) ++ groups).
Proof.
  rewrite !attr_list_app, !map_app. change (attr_list (Attr i e :: b2)) with ((cow_str i, e) :: attr_list b2). cbn [map].
  change (on_attr (cow_str i, e)) with (cow_str i, Expr e). rewrite <- !app_assoc. cbn [app]. apply Permutation_sym, Permutation_middle.
Qed.
Lemma blocks_insert b1 b2 i e : block_list (b1 ++ Attr i e :: b2) = block_list (b1 ++ b2).
Proof. rewrite !block_list_app. reflexivity. Qed.
Lemma members_attr b1 b2 i e : ~ Names (b1 ++ b2) (cow_str i) -> forall ms, Members (Body (b1 ++ b2)) ms ->
  exists ms', Members (Body (b1 ++ Attr i e :: b2)) ms' /\ Permutation ms' ((cow_str i, Expr e) :: ms).
Proof.
  intros Hno ms HM. inversion HM as [|? groups ? Hg HF Ems HN|]; subst. change (fun a : str * expr => (fst a, Expr (snd a))) with on_attr in *.
  exists (map on_attr (attr_list (b1 ++ Attr i e :: b2)) ++ groups). pose proof (attrs_insert b1 b2 i e groups) as HP.
  split; [|exact HP]. apply (Mem_body _ groups).
  - rewrite blocks_insert. exact Hg.
  - rewrite blocks_insert. exact HF.
  - reflexivity.
  - eapply Permutation_NoDup; [apply Permutation_sym, Permutation_map, HP|]. cbn [map fst]. constructor; [|exact HN].
    intros Hi. apply Hno. rewrite map_app in Hi. apply in_app_iff in Hi as [Hi|Hi]; [left|right; apply Hg, Hi].
    rewrite map_map in Hi. exact Hi.
Qed.
Lemma members_attr' b1 b2 i e ms' : Members (Body (b1 ++ Attr i e :: b2)) ms' -> exists ms, Members (Body (b1 ++ b2)) ms.
Proof.
  intros HM. inversion HM as [|? groups ? Hg HF Ems HN|]; subst. change (fun a : str * expr => (fst a, Expr (snd a))) with on_attr in *.
  exists (map on_attr (attr_list (b1 ++ b2)) ++ groups). rewrite blocks_insert in *. apply (Mem_body _ groups); [exact Hg|exact HF|reflexivity|].
  eapply Permutation_NoDup in HN; [|apply Permutation_map, attrs_insert]. cbn [map] in HN. inversion HN; assumption.
Qed.
Lemma one_value {A B} (l : list (A * B)) n y y' : NoDup (map fst l) -> In (n, y) l -> In (n, y') l -> y = y'.
Proof.
  induction l as [|[m z] l IH]; cbn; intros HN H H'; [destruct H|]. inversion HN as [|? ? Hno HN']; subst.
  destruct H as [E|H], H' as [E'|H'].
  - congruence.
  - exfalso. apply Hno. injection E as -> ->. apply (in_map fst) in H'. exact H'.
  - exfalso. apply Hno. injection E' as -> ->. apply (in_map fst) in H. exact H.
  - exact (IH HN' H H').
Qed.
Lemma same_for_extra fs x x' ms ms' extra : Members x ms -> Members x' ms' -> Permutation ms' (extra ++ ms) ->
  (forall n y, In (n, y) extra -> ~ In n (map fst fs) /\ Readable y) ->
  (forall n y, In (n, y) ms -> ~ In n (map fst fs) -> Readable y) -> SameFor (TStruct fs) x x'.
Proof.
  intros HM HM' HP He Hr. apply (SF_struct fs x x' ms ms' HM HM').
  - intros n Hn. split; intros Hi; apply in_map_iff in Hi as ([n' y] & E & Hi); cbn in E; subst n'; apply in_map_iff; exists (n, y); (split; [reflexivity|]).
    + eapply Permutation_in; [apply Permutation_sym, HP|]. apply in_or_app. right. exact Hi.
    + eapply Permutation_in in Hi; [|exact HP]. apply in_app_or in Hi as [Hi|Hi]; [|exact Hi]. apply He in Hi. tauto.
  - intros n t y y' Hft Hy Hy'. assert (Hy2 : In (n, y) ms') by (eapply Permutation_in; [apply Permutation_sym, HP|]; apply in_or_app; right; exact Hy).
    rewrite (one_value ms' n y' y (Members_nodup _ _ HM') Hy' Hy2). constructor.
  - intros n y [Hi|Hi] Hno; [exact (Hr n y Hi Hno)|]. eapply Permutation_in in Hi; [|exact HP]. apply in_app_or in Hi as [Hi|Hi]; [apply He in Hi; tauto|exact (Hr n y Hi Hno)].
Qed.
(** It can be added and removed. *)
Theorem C129_attribute : forall U ord ord' fs s s' b1 b2 i e, Order ord -> Order ord' -> GoodTy (TStruct fs) ->
  parse_str U s = OkR (b1 ++ b2) -> parse_str U s' = OkR (b1 ++ Attr i e :: b2) ->
  ~ Names (b1 ++ b2) (cow_str i) -> ~ In (cow_str i) (map fst fs) -> Readable (Expr e) ->
  (forall d, from_str U ord (TStruct fs) s = DeOk d -> exists d', from_str U ord' (TStruct fs) s' = DeOk d' /\ Same d d' /\ (Ordered (TStruct fs) -> d' = d)) /\
  (forall d', from_str U ord' (TStruct fs) s' = DeOk d' -> exists d, from_str U ord (TStruct fs) s = DeOk d /\ Same d' d /\ (Ordered (TStruct fs) -> d = d')).
Proof.
  intros U ord ord' fs s s' b1 b2 i e Ho Ho' HG Hs Hs' Hno Hnf He.
  assert (HB : forall ms, Members (Body (b1 ++ b2)) ms -> (forall n y, In (n, y) ms -> ~ In n (map fst fs) -> Readable y) -> SameFor (TStruct fs) (Body (b1 ++ b2)) (Body (b1 ++ Attr i e :: b2))).
  { intros ms HM Hr. destruct (members_attr b1 b2 i e Hno ms HM) as (ms' & HM' & HP). apply (same_for_extra fs _ _ ms ms' [(cow_str i, Expr e)] HM HM' HP); [|exact Hr].
    intros n y [[= <- <-]|[]]. auto. }
  split.
  - intros d H. destruct (C102_sound U ord Ho _ HG s d H) as (b0 & Hb & Hd). apply C01_parse_str_grammar in Hb. rewrite Hs in Hb. injection Hb as <-.
    apply (C129_same_for U ord ord' (TStruct fs) s s' _ _ d Ho Ho' HG Hs Hs'); [|exact H].
    assert (HX : exists ms, Members (Body (b1 ++ b2)) ms) by (inversion Hd; subst; [eauto|match goal with H : Items _ _ |- _ => inversion H end]).
    destruct HX as [ms HM]. apply (HB ms HM). destruct (Den_struct_members _ _ _ _ HM Hd) as (_ & _ & _ & Hr). exact Hr.
  - intros d' H. destruct (C102_sound U ord' Ho' _ HG s' d' H) as (b0 & Hb & Hd). apply C01_parse_str_grammar in Hb. rewrite Hs' in Hb. injection Hb as <-.
    apply (C129_same_for U ord' ord (TStruct fs) s' s _ _ d' Ho' Ho HG Hs' Hs); [|exact H]. apply SameFor_sym.
    assert (HX : exists ms, Members (Body (b1 ++ Attr i e :: b2)) ms) by (inversion Hd; subst; [eauto|match goal with H : Items _ _ |- _ => inversion H end]).
    destruct HX as [ms1 HM1]. destruct (members_attr' _ _ _ _ _ HM1) as (ms & HM). apply (HB ms HM).
    destruct (members_attr b1 b2 i e Hno ms HM) as (ms' & HM' & HP). destruct (Den_struct_members _ _ _ _ HM' Hd) as (_ & _ & _ & Hr).
    intros n y Hi. apply Hr. eapply Permutation_in; [apply Permutation_sym, HP|]. right. exact Hi.
Qed.
Print Assumptions C129_attribute.
(** As text: a line with it between any two parts of the document *)
Theorem C129_line : forall U ord ord' fs d1 d2 a n n' n2 b1 b2 i e d, Order ord -> Order ord' -> GoodTy (TStruct fs) ->
  parse_str U d1 = OkR b1 -> parse_str U d2 = OkR b2 -> parse_str U a = OkR [Attr i e] -> LineEnd n -> LineEnd n' -> LineEnd n2 ->
  ~ Names (b1 ++ b2) (cow_str i) -> ~ In (cow_str i) (map fst fs) -> Readable (Expr e) ->
  from_str U ord (TStruct fs) (d1 ++ n ++ d2) = DeOk d ->
  exists d', from_str U ord' (TStruct fs) (d1 ++ n' ++ a ++ n2 ++ d2) = DeOk d' /\ Same d d' /\ (Ordered (TStruct fs) -> d' = d).
Proof.
  intros U ord ord' fs d1 d2 a n n' n2 b1 b2 i e d Ho Ho' HG H1 H2 Ha Hn Hn' Hn2 Hno Hnf He H.
  apply (C129_attribute U ord ord' fs (d1 ++ n ++ d2) (d1 ++ n' ++ a ++ n2 ++ d2) b1 b2 i e Ho Ho' HG); try assumption.
  - apply C06_concatenation; assumption.
  - apply (C06_concatenation U d1 (a ++ n2 ++ d2) b1 (Attr i e :: b2) n'); [exact H1| |exact Hn'].
    apply (C06_concatenation U a d2 [Attr i e] b2 n2); assumption.
Qed.
Print Assumptions C129_line.

(** ** Blocks of a type that is not a field, at the end of a document (between two blocks of one type they would not be
    without effect: C63) *)
Lemma LastRun_end t l r c : cow_str (b_type c) <> t -> (LastRun t (l ++ [c]) r <-> LastRun t l r).
Proof.
  intros Hc. split; intros [l1 l2 E Hne Hr H2 H1].
  - destruct l2 as [|x l2] using rev_ind.
    + exfalso. rewrite app_nil_r in E. destruct r as [|y r] using rev_ind; [congruence|]. rewrite app_assoc in E. apply app_inj_tail in E as [_ ->].
      apply Hc, Hr. apply in_or_app. right. left. reflexivity.
    + clear IHl2. rewrite !app_assoc in E. apply app_inj_tail in E as [-> ->]. apply (LR t _ r l1 l2); [rewrite app_assoc; reflexivity|exact Hne|exact Hr| |exact H1].
      intros b Hb. apply H2. apply in_or_app. left. exact Hb.
  - subst l. apply (LR t _ r l1 (l2 ++ [c])); [rewrite <- !app_assoc; reflexivity|exact Hne|exact Hr| |exact H1].
    intros b Hb. apply in_app_or in Hb as [Hb|[<-|[]]]; [apply H2, Hb|exact Hc].
Qed.
Lemma members_block b t bd : ~ Names b (cow_str t) -> forall ms, Members (Body b) ms ->
  exists ms', Members (Body (b ++ [Blk t [] bd])) ms' /\ Permutation ms' ((cow_str t, Group [bd]) :: ms).
Proof.
  intros Hno ms HM. inversion HM as [|? groups ? Hg HF Ems HN|]; subst. change (fun a : str * expr => (fst a, Expr (snd a))) with on_attr in *.
  assert (Eb : block_list (b ++ [Blk t [] bd]) = block_list b ++ [mk_block t [] bd]) by (rewrite block_list_app; reflexivity).
  assert (Ea : attr_list (b ++ [Blk t [] bd]) = attr_list b) by (rewrite attr_list_app; apply app_nil_r).
  assert (Hng : ~ In (cow_str t) (map fst groups)) by (intros Hi; apply Hno; right; apply Hg, Hi).
  exists (map on_attr (attr_list b) ++ (cow_str t, Group [bd]) :: groups).
  assert (HP : Permutation (map on_attr (attr_list b) ++ (cow_str t, Group [bd]) :: groups) ((cow_str t, Group [bd]) :: map on_attr (attr_list b) ++ groups)) by apply Permutation_sym, Permutation_middle.
  split; [|exact HP]. apply (Mem_body _ ((cow_str t, Group [bd]) :: groups)).
  - intros x. rewrite Eb. cbn [map fst]. split.
    + intros [<-|Hi]; [exists (mk_block t [] bd); split; [apply in_or_app; right; left; reflexivity|reflexivity]|].
      apply Hg in Hi as (c & Hc & E). exists c. split; [apply in_or_app; left; exact Hc|exact E].
    + intros (c & Hc & E). apply in_app_or in Hc as [Hc|[<-|[]]]; [right; apply Hg; eauto|left; exact E].
  - rewrite Eb. constructor.
    + exists [mk_block t [] bd]. cbn [fst snd]. split; [|split; [intros c [<-|[]]; reflexivity|reflexivity]].
      apply (LR _ _ _ (block_list b) []); [reflexivity|discriminate|intros c [<-|[]]; reflexivity|intros c []|].
      intros l0 c E Et. apply Hno. right. exists c. split; [rewrite E; apply in_or_app; right; left; reflexivity|exact Et].
    + rewrite Forall_forall in *. intros g Hi. destruct (HF g Hi) as (r & HL & Hr & E). exists r. split; [|auto]. apply LastRun_end; [|exact HL].
      cbn. intros Et. apply Hng. rewrite Et. apply in_map, Hi.
  - rewrite Ea. reflexivity.
  - eapply Permutation_NoDup; [apply Permutation_sym, Permutation_map, HP|]. cbn [map fst]. constructor; [|exact HN].
    rewrite map_app, in_app_iff. intros [Hi|Hi]; [apply Hno; left|contradiction]. rewrite map_map in Hi. exact Hi.
Qed.
Theorem C129_block : forall U ord ord' fs s s' b t bd d, Order ord -> Order ord' -> GoodTy (TStruct fs) ->
  parse_str U s = OkR b -> parse_str U s' = OkR (b ++ [Blk t [] bd]) -> ~ Names b (cow_str t) -> ~ In (cow_str t) (map fst fs) -> Readable (Group [bd]) ->
  from_str U ord (TStruct fs) s = DeOk d -> exists d', from_str U ord' (TStruct fs) s' = DeOk d' /\ Same d d' /\ (Ordered (TStruct fs) -> d' = d).
Proof.
  intros U ord ord' fs s s' b t bd d Ho Ho' HG Hs Hs' Hno Hnf He H.
  destruct (C102_sound U ord Ho _ HG s d H) as (b0 & Hb & Hd). apply C01_parse_str_grammar in Hb. rewrite Hs in Hb. injection Hb as <-.
  apply (C129_same_for U ord ord' (TStruct fs) s s' _ _ d Ho Ho' HG Hs Hs'); [|exact H].
  assert (HX : exists ms, Members (Body b) ms) by (inversion Hd; subst; [eauto|match goal with H : Items _ _ |- _ => inversion H end]).
  destruct HX as [ms HM]. destruct (members_block b t bd Hno ms HM) as (ms' & HM' & HP). destruct (Den_struct_members _ _ _ _ HM Hd) as (_ & _ & _ & Hr).
  apply (same_for_extra fs _ _ ms ms' [(cow_str t, Group [bd])] HM HM' HP); [|exact Hr]. intros n y [[= <- <-]|[]]. auto.
Qed.
Print Assumptions C129_block.

(** ** A struct is read field by field *)
(** If the document can be read at all, each field is read on its own: as the struct that has only this field. *)
Theorem C129_fields : forall U ord fs s, Order ord -> GoodTy (TStruct fs) -> from_str U ord TIgnored s = DeOk DIgnored ->
  (forall d, from_str U ord (TStruct fs) s = DeOk d -> exists vs, d = DStruct vs /\
     Forall2 (fun ft v => fst v = fst ft /\ exists v', from_str U ord (TStruct [ft]) s = DeOk (DStruct [(fst ft, v')]) /\ Same (snd v) v') fs vs) /\
  (forall vs, Forall2 (fun ft v => from_str U ord (TStruct [ft]) s = DeOk (DStruct [v])) fs vs ->
     exists d, from_str U ord (TStruct fs) s = DeOk d /\ Same (DStruct vs) d).
Proof.
  intros U ord fs s Ho HG HI. destruct (C102_sound U ord Ho TIgnored (GT_leaf TIgnored I) s _ HI) as (b & Hb & Hd).
  assert (Hone : forall ft, In ft fs -> GoodTy (TStruct [ft])).
  { intros ft Hft. inversion HG as [? Hl| | | | | |? ? HF]; subst; [contradiction Hl|]. constructor; [repeat constructor; intros []|]. constructor; [|constructor].
    rewrite Forall_forall in HF. apply HF, Hft. }
  assert (HX : exists ms, Members (Body b) ms /\ Forall (fun m => Readable (snd m)) ms).
  { inversion Hd; subst; [match goal with H : Items _ _ |- _ => inversion H end|eauto]. }
  destruct HX as (ms & HM & Hr). rewrite Forall_forall in Hr.
  assert (Hden : forall t d, GoodTy t -> from_str U ord t s = DeOk d -> Den t (Body b) d).
  { intros t d Ht H. destruct (C102_sound U ord Ho t Ht s d H) as (b' & Hb' & Hd'). apply C01_parse_str_grammar in Hb. apply C01_parse_str_grammar in Hb'. rewrite Hb in Hb'. injection Hb' as <-. exact Hd'. }
  assert (Hread : forall fs vs, GoodTy (TStruct fs) -> Forall2 (Field ms) fs vs -> exists d, from_str U ord (TStruct fs) s = DeOk d /\ Same (DStruct vs) d).
  { intros fs0 vs Ht HF. destruct (C102_complete U ord Ho (TStruct fs0) Ht s b (DStruct vs) Hb) as (d & E & HS & _); [|eauto].
    eapply D_struct; [exact HM| |exact HF]. intros n y Hi _. exact (Hr (n, y) Hi). }
  split.
  - intros d H. apply Hden in H; [|exact HG]. destruct (Den_struct_members _ _ _ _ HM H) as (vs & -> & HF & _). exists vs. split; [reflexivity|].
    revert Hone. clear HG H. induction HF as [|ft v fs vs Hv _ IH]; intros Hone; constructor; [|apply IH; intros; apply Hone; right; assumption].
    split; [apply Hv|]. destruct (Hread [ft] [v]) as (d & E & HS); [apply Hone; left; reflexivity|constructor; [exact Hv|constructor]|].
    apply Same_struct_inv in HS as (l' & -> & HS). inversion HS as [|? v' ? l0 [Ev Hs] Hn]; subst. inversion Hn; subst. exists (snd v'). split; [|exact Hs].
    rewrite E. destruct v' as [n v']. cbn in *. rewrite Ev, (proj1 Hv). reflexivity.
  - intros vs HF. apply Hread; [exact HG|]. revert Hone. clear HG. induction HF as [|ft v fs vs Hv _ IH]; intros Hone; constructor; [|apply IH; intros; apply Hone; right; assumption].
    apply Hden in Hv; [|apply Hone; left; reflexivity]. destruct (Den_struct_members _ _ _ _ HM Hv) as (vs' & [= <-] & HF' & _). inversion HF'; assumption.
Qed.
Print Assumptions C129_fields.
Lemma NoDup_first {A} (l l' : list A) : NoDup (l ++ l') -> NoDup l.
Proof. induction l as [|a l IH]; cbn; intros H; [constructor|]. inversion H as [|? ? Hn HN]; subst. constructor; [intros Hi; apply Hn; apply in_or_app; left; exact Hi|auto]. Qed.
(** So a field that is an option can be added to a struct ... *)
Theorem C129_new_field : forall U ord fs n t s b vs, Order ord -> GoodTy (TStruct (fs ++ [(n, TOption t)])) -> parse_str U s = OkR b -> ~ Names b n ->
  from_str U ord (TStruct fs) s = DeOk (DStruct vs) ->
  exists d, from_str U ord (TStruct (fs ++ [(n, TOption t)])) s = DeOk d /\ Same (DStruct (vs ++ [(n, DNone)])) d.
Proof.
  intros U ord fs n t s b vs Ho HG Hs Hno H.
  assert (HG' : GoodTy (TStruct fs)).
  { inversion HG as [? Hl| | | | | |? HN HF]; subst; [contradiction Hl|]. rewrite map_app in HN. constructor; [exact (NoDup_first _ _ HN)|apply Forall_app in HF; tauto]. }
  destruct (C102_sound U ord Ho _ HG' s _ H) as (b0 & Hb & Hd). pose proof Hb as Hb'. apply C01_parse_str_grammar in Hb'. rewrite Hs in Hb'. injection Hb' as <-.
  assert (HX : exists ms, Members (Body b) ms) by (inversion Hd; subst; [eauto|match goal with H : Items _ _ |- _ => inversion H end]).
  destruct HX as [ms HM]. destruct (Den_struct_members _ _ _ _ HM Hd) as (vs' & [= <-] & HF & Hr).
  destruct (C102_complete U ord Ho _ HG s b (DStruct (vs ++ [(n, DNone)])) Hb) as (d & E & HS & _); [|eauto].
  eapply D_struct; [exact HM| |].
  - intros f y Hi Hn. apply (Hr f y Hi). intros Hn2. apply Hn. rewrite map_app. apply in_or_app. left. exact Hn2.
  - apply Forall2_app; [exact HF|]. constructor; [|constructor]. split; [reflexivity|]. right. cbn. split; [|eauto].
    intros Hi. apply Hno. inversion HM as [|? groups ? Hg HFg Ems HN|]; subst. rewrite map_app in Hi. apply in_app_iff in Hi as [Hi|Hi]; [left|right; apply Hg, Hi].
    rewrite map_map in Hi. exact Hi.
Qed.
Print Assumptions C129_new_field.

(** ** Examples *)
Definition evolve_doc : str := lit "a = 1
r {
  x = [{k = 1}, {k = 2}]
}
".
Definition evolve_doc' : str := lit "version = ""2.0""
a = 1
r {
  x = [{k = 1, new = null}, {k = 2}]
  y = {z = [true]}
}
".
Definition evolve_ty : ty := TStruct [(lit "a", TInt U8); (lit "r", TStruct [(lit "x", TSeq (TStruct [(lit "k", TInt I32)]))])].
Definition ename (s : string) : cow := Borrowed (lit s).
Definition emem (s : string) (e : expr) : okey * expr := (KIdent (ename s), e).
Definition e_item (s : string) (more : list (okey * expr)) : expr := EObject (emem "k" (num1 (lit s)) :: more).
Definition e_inner (more : list (okey * expr)) : expr := ETuple [e_item "1" more; e_item "2" []].
Definition e_new : expr := EObject [emem "z" (ETuple [EBool true])].
Definition e_body : body_t := [Attr (ename "a") (num1 (lit "1")); Blk (ename "r") [] [Attr (ename "x") (e_inner [])]].
Definition e_body' : body_t :=
  [Attr (ename "version") (EString (Owned (lit "2.0"))); Attr (ename "a") (num1 (lit "1"));
   Blk (ename "r") [] [Attr (ename "x") (e_inner [emem "new" ENull]); Attr (ename "y") e_new]].
Ltac nodup := repeat constructor; cbn; intuition discriminate.
Lemma e_obj_members l : NoDup (map (fun ke => match fst ke with KIdent i => cow_str i | _ => [] end) l) -> Forall (fun ke => exists i, fst ke = KIdent i) l ->
  Members (Expr (EObject l)) (map (fun ke : okey * expr => (match fst ke with KIdent i => cow_str i | _ => [] end, Expr (snd ke))) l).
Proof.
  intros HN HF. apply (Mem_object l).
  - clear HN. induction HF as [|[k e] l (i & E) _ IH]; constructor; [|exact IH]. cbn in E. subst k. exists i. auto.
  - rewrite map_map. exact HN.
Qed.
Lemma e_new_readable : Readable (Expr e_new).
Proof.
  eapply D_ignored_members; [apply (e_obj_members [emem "z" (ETuple [EBool true])]); [nodup|repeat constructor; eexists; reflexivity]|].
  constructor; [|constructor]. cbn. apply (D_ignored_items _ [Expr (EBool true)]); [exact (It_tuple [EBool true])|]. repeat constructor.
Qed.
Lemma e_same : SameFor evolve_ty (Body e_body) (Body e_body').
Proof.
  set (i1 := [Attr (ename "x") (e_inner [])]). set (i2 := [Attr (ename "x") (e_inner [emem "new" ENull]); Attr (ename "y") e_new]).
  assert (Hg : forall a bd, (forall x, In x [lit "r"] <-> exists c, In c (block_list (a ++ [Blk (ename "r") [] bd])) /\ cow_str (b_type c) = x) /\ True -> block_list a = [] ->
    Forall (fun g => exists r, LastRun (fst g) (block_list (a ++ [Blk (ename "r") [] bd])) r /\ (forall c, In c r -> b_labels c = []) /\ snd g = Group (map b_body r)) [(lit "r", Group [bd])]).
  { intros a bd _ Ea. constructor; [|constructor]. exists [mk_block (ename "r") [] bd]. rewrite block_list_app, Ea. split; [|split; [intros c [<-|[]]; reflexivity|reflexivity]].
    apply (LR _ _ _ [] []); [reflexivity|discriminate|intros c [<-|[]]; reflexivity|intros c []|]. intros l0 c E. destruct l0; discriminate. }
  assert (Hk : forall a bd, block_list a = [] -> forall x, In x [lit "r"] <-> exists c, In c (block_list (a ++ [Blk (ename "r") [] bd])) /\ cow_str (b_type c) = x).
  { intros a bd Ea x. rewrite block_list_app, Ea. split; [intros [<-|[]]; eexists; split; [left; reflexivity|reflexivity]|intros (c & [<-|[]] & <-); left; reflexivity]. }
  assert (HB : forall a bd, block_list a = [] -> NoDup (map fst (map on_attr (attr_list (a ++ [Blk (ename "r") [] bd])) ++ [(lit "r", Group [bd])])) ->
    Members (Body (a ++ [Blk (ename "r") [] bd])) (map on_attr (attr_list (a ++ [Blk (ename "r") [] bd])) ++ [(lit "r", Group [bd])])).
  { intros a bd Ea HN. apply (Mem_body _ [(lit "r", Group [bd])]); [apply Hk, Ea|apply Hg; [split; [apply Hk, Ea|exact I]|exact Ea]|reflexivity|exact HN]. }
  assert (HI : forall b, block_list b = [] -> NoDup (map fst (map on_attr (attr_list b) ++ [])) -> Members (Body b) (map on_attr (attr_list b) ++ [])).
  { intros b Eb HN. apply (Mem_body _ []); [|constructor|reflexivity|exact HN]. intros x. rewrite Eb. split; [intros []|intros (c & [] & _)]. }
  eapply SF_struct; [apply (HB [Attr (ename "a") (num1 (lit "1"))] i1); [reflexivity|nodup]|
    apply (HB [Attr (ename "version") (EString (Owned (lit "2.0"))); Attr (ename "a") (num1 (lit "1"))] i2); [reflexivity|nodup]| | |].
  - intros n [<-|[<-|[]]]; cbn; intuition.
  - cbn. intros n t y y' Ht Hy Hy'.
    destruct Hy as [[= <- <-]|[[= <- <-]|[]]]; destruct Hy' as [E'|[E'|[E'|[]]]]; try discriminate E'; injection E' as <-; destruct Ht as [[= <-]|[Ht|[]]]; try discriminate Ht; [constructor|].
    injection Ht as <-. eapply SF_struct; [apply Mem_block, (HI i1); [reflexivity|nodup]|apply Mem_block, (HI i2); [reflexivity|nodup]| | |].
    + intros n [<-|[]]; cbn; intuition.
    + cbn. intros n t y y' Ht Hy Hy'. destruct Hy as [[= <- <-]|[]]; destruct Hy' as [E'|[E'|[]]]; try discriminate E'; injection E' as <-. destruct Ht as [[= <-]|[]].
      eapply SF_seq; [exact (It_tuple [e_item "1" []; e_item "2" []])|exact (It_tuple [e_item "1" [emem "new" ENull]; e_item "2" []])|].
      constructor; [|constructor; [constructor|constructor]].
      eapply SF_struct; [apply (e_obj_members [emem "k" (num1 (lit "1"))]); [nodup|repeat constructor; eexists; reflexivity]|
        apply (e_obj_members [emem "k" (num1 (lit "1")); emem "new" ENull]); [nodup|repeat constructor; eexists; reflexivity]| | |].
      * intros n [<-|[]]; cbn; intuition.
      * cbn. intros n t y y' Ht Hy Hy'. destruct Hy as [[= <- <-]|[]]; destruct Hy' as [E'|[E'|[]]]; try discriminate E'; injection E' as <-. constructor.
      * cbn. intros n y [[[= <- <-]|[]]|[[= <- <-]|[[= <- <-]|[]]]] Hno; try (exfalso; apply Hno; left; reflexivity). constructor.
    + cbn. intros n y [[[= <- <-]|[]]|[[= <- <-]|[[= <- <-]|[]]]] Hno; try (exfalso; apply Hno; left; reflexivity). apply e_new_readable.
  - cbn. intros n y [[[= <- <-]|[[= <- <-]|[]]]|[[= <- <-]|[[= <- <-]|[[= <- <-]|[]]]]] Hno; try (exfalso; apply Hno; tauto).
    constructor.
Qed.
Example C129_nonvacuous : parse_str ascii_ucd evolve_doc = OkR e_body /\ parse_str ascii_ucd evolve_doc' = OkR e_body' /\ SameFor evolve_ty (Body e_body) (Body e_body') /\
  GoodTy evolve_ty /\ exists d, from_str ascii_ucd id_ord evolve_ty evolve_doc = DeOk d /\ from_str ascii_ucd id_ord evolve_ty evolve_doc' = DeOk d.
Proof.
  split; [vm_compute; reflexivity|]. split; [vm_compute; reflexivity|]. split; [apply e_same|]. split.
  { constructor; [nodup|]. repeat (constructor; try nodup). all: cbn; intuition discriminate. }
  exists (DStruct [(lit "a", DInt 1); (lit "r", DStruct [(lit "x", DSeq [DStruct [(lit "k", DInt 1)]; DStruct [(lit "k", DInt 2)]])])]). split; vm_compute; reflexivity.
Qed.
(* an attribute, a field, reading field by field *)
Definition small_ty : list (str * ty) := [(lit "a", TInt U8)].
Definition small_doc : str := lit "a = 1
".
Example C129_attribute_nonvacuous : exists i e, parse_str ascii_ucd small_doc = OkR ([] ++ [Attr (ename "a") (num1 (lit "1"))]) /\
  parse_str ascii_ucd (lit "z = true
" ++ small_doc) = OkR ([] ++ Attr i e :: [Attr (ename "a") (num1 (lit "1"))]) /\
  ~ Names ([] ++ [Attr (ename "a") (num1 (lit "1"))]) (cow_str i) /\ ~ In (cow_str i) (map fst small_ty) /\ Readable (Expr e) /\
  from_str ascii_ucd id_ord (TStruct small_ty) small_doc = DeOk (DStruct [(lit "a", DInt 1)]) /\
  from_str ascii_ucd id_ord (TStruct (small_ty ++ [(lit "z", TOption TString)])) small_doc = DeOk (DStruct [(lit "a", DInt 1); (lit "z", DNone)]) /\
  from_str ascii_ucd id_ord TIgnored small_doc = DeOk DIgnored.
Proof.
  exists (ename "z"), (EBool true). split; [vm_compute; reflexivity|]. split; [vm_compute; reflexivity|].
  split; [intros [[H|[]]|(c & [] & _)]; discriminate H|]. split; [intros [H|[]]; discriminate H|]. split; [constructor|].
  split; [vm_compute; reflexivity|]. split; vm_compute; reflexivity.
Qed.
