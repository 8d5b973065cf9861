(** * PropDen: C102, what [serde::de::from_str] returns *)
From Coq Require Import Permutation ZArith Reals SpecFloat Lia.
From Verif Require Import Base Ast NomFacts Blocks BlockSpec BlockProofs PropBlocks BlockExactSpec BlockExact PropBlockExact NumConv NumSpec NumProofs PropNum FloatConv IoSpec
  Serde SerdeSpec SerdeProofs PropSerde SerdeErrSpec SerdeErrProofs PropSerdeErr SerdeExactSpec PropSerdeExact PropWrap
  Grammar Parser DocProofs PropSyntax Printer Reprint FloatSpec FloatProofs PropFloat PropFloatRead PropSerdeScalar DenSpec DenProofs.
Local Open Scope nat_scope.

(** ** [Same] is an equivalence *)
Fixpoint data_rect' (P : data -> Prop) (H0 : forall d, match d with DSome _ | DSeq _ | DMap _ | DStruct _ => False | _ => True end -> P d)
  (HS : forall d, P d -> P (DSome d)) (HL : forall l, Forall P l -> P (DSeq l)) (HM : forall l, Forall (fun e => P (snd e)) l -> P (DMap l))
  (HT : forall l, Forall (fun e => P (snd e)) l -> P (DStruct l)) (d : data) {struct d} : P d :=
  let rec := data_rect' P H0 HS HL HM HT in
  match d return P d with
  | DSome d => HS d (rec d)
  | DSeq l => HL l ((fix go l := match l return Forall P l with [] => Forall_nil _ | d :: l => Forall_cons _ (rec d) (go l) end) l)
  | DMap l => HM l ((fix go l := match l return Forall (fun e => P (snd e)) l with [] => Forall_nil _ | e :: l => Forall_cons _ (rec (snd e)) (go l) end) l)
  | DStruct l => HT l ((fix go l := match l return Forall (fun e => P (snd e)) l with [] => Forall_nil _ | e :: l => Forall_cons _ (rec (snd e)) (go l) end) l)
  | d => H0 d I
  end.
Definition SameE (e e' : str * data) : Prop := fst e' = fst e /\ Same (snd e) (snd e').
Lemma Same_some_inv d e : Same (DSome d) e -> exists d', e = DSome d' /\ Same d d'.
Proof. inversion 1; subst; eauto using Same_refl. Qed.
Lemma Forall2_same_refl l : Forall2 (fun d d' => Same d d') l l.
Proof. induction l; constructor; [apply Same_refl|assumption]. Qed.
Lemma Forall2_sameE_refl l : Forall2 SameE l l.
Proof. induction l; constructor; [split; [reflexivity|apply Same_refl]|assumption]. Qed.
Lemma Same_seq_inv l e : Same (DSeq l) e -> exists l', e = DSeq l' /\ Forall2 (fun d d' => Same d d') l l'.
Proof. inversion 1; subst; eauto using Forall2_same_refl. Qed.
Lemma Same_map_inv l e : Same (DMap l) e -> exists l' l'', e = DMap l'' /\ Permutation l l' /\ Forall2 SameE l' l''.
Proof. inversion 1; subst; [|eauto]. exists l, l. split; [reflexivity|]. split; [apply Permutation_refl|apply Forall2_sameE_refl]. Qed.
Lemma Same_struct_inv l e : Same (DStruct l) e -> exists l', e = DStruct l' /\ Forall2 SameE l l'.
Proof. inversion 1; subst; eauto using Forall2_sameE_refl. Qed.
Lemma Same_leaf d e : match d with DSome _ | DSeq _ | DMap _ | DStruct _ => False | _ => True end -> Same d e -> e = d.
Proof. intros Hd. inversion 1; subst; try contradiction; reflexivity. Qed.

Lemma Forall2_flip_in {A} (R : A -> A -> Prop) l : Forall (fun a => forall b, R a b -> R b a) l -> forall l', Forall2 R l l' -> Forall2 R l' l.
Proof. intros HF l' H. induction H; [constructor|]. inversion HF; subst. constructor; auto. Qed.
Lemma Forall2_trans_in {A} (R : A -> A -> Prop) l : Forall (fun a => forall b c, R a b -> R b c -> R a c) l ->
  forall l' l'', Forall2 R l l' -> Forall2 R l' l'' -> Forall2 R l l''.
Proof. intros HF l' l'' H. revert l''. induction H; intros l'' H2; inversion H2; subst; [constructor|]. inversion HF; subst. constructor; eauto. Qed.

Theorem Same_sym d e : Same d e -> Same e d.
Proof.
  revert e. induction d as [d Hd|d IH|l IH|l IH|l IH] using data_rect'; intros e H.
  - apply Same_leaf in H; [|exact Hd]. subst. apply Same_refl.
  - apply Same_some_inv in H as (d' & -> & H). constructor. auto.
  - apply Same_seq_inv in H as (l' & -> & H). constructor. apply Forall2_flip_in; assumption.
  - apply Same_map_inv in H as (l' & l'' & -> & HP & H).
    assert (H' : Forall2 SameE l'' l').
    { apply Forall2_flip_in; [|exact H]. eapply Permutation_Forall; [exact HP|]. eapply Forall_impl; [|exact IH]. intros a Ha b [E Hb]. split; [congruence|auto]. }
    destruct (Permutation_Forall2 (Permutation_sym HP) H) as (m & HPm & Hm).
    eapply Same_map; [exact HPm|]. apply Forall2_flip_in; [|exact Hm]. eapply Forall_impl; [|exact IH]. intros a Ha b [E Hb]. split; [congruence|auto].
  - apply Same_struct_inv in H as (l' & -> & H). constructor. apply Forall2_flip_in; [|exact H].
    eapply Forall_impl; [|exact IH]. intros a Ha b [E Hb]. split; [congruence|auto].
Qed.
Theorem Same_trans d e f : Same d e -> Same e f -> Same d f.
Proof.
  revert e f. induction d as [d Hd|d IH|l IH|l IH|l IH] using data_rect'; intros e f H H2.
  - apply Same_leaf in H; [|exact Hd]. subst. exact H2.
  - apply Same_some_inv in H as (d' & -> & H). apply Same_some_inv in H2 as (d'' & -> & H2). constructor. eauto.
  - apply Same_seq_inv in H as (l' & -> & H). apply Same_seq_inv in H2 as (l'' & -> & H2). constructor. eapply Forall2_trans_in; eassumption.
  - apply Same_map_inv in H as (l1 & l2 & -> & HP & H). apply Same_map_inv in H2 as (l3 & l4 & -> & HP2 & H2).
    assert (Hfl : exists m, Permutation l1 m /\ Forall2 SameE m l3).
    { assert (Hf : Forall2 (fun a b => SameE b a) l2 l1) by (clear - H; induction H; constructor; assumption).
      destruct (Permutation_Forall2 HP2 Hf) as (m & Hm & Hf'). exists m. split; [exact Hm|]. clear - Hf'; induction Hf'; constructor; assumption. }
    destruct Hfl as (m & Hm & Hm3). eapply Same_map; [eapply Permutation_trans; [exact HP|exact Hm]|].
    eapply Forall2_trans_in; [|exact Hm3|exact H2]. eapply Permutation_Forall; [eapply Permutation_trans; [exact HP|exact Hm]|].
    eapply Forall_impl; [|exact IH]. intros a Ha b c [E Hb] [E' Hc]. split; [congruence|eauto].
  - apply Same_struct_inv in H as (l' & -> & H). apply Same_struct_inv in H2 as (l'' & -> & H2). constructor. eapply Forall2_trans_in; [|exact H|exact H2].
    eapply Forall_impl; [|exact IH]. intros a Ha b c [E Hb] [E' Hc]. split; [congruence|eauto].
Qed.

(** ** C102 *)
(** What is returned is what the document means. *)
Theorem C102_sound : forall U ord, Order ord -> forall t, GoodTy t -> forall s d, from_str U ord t s = DeOk d ->
  exists b, GConfig U b s /\ Den t (Body b) d.
Proof.
  intros U ord Ho t HG s d H. unfold from_str in H. destruct (parse_str U s) as [b|r| |] eqn:E; try discriminate.
  exists b. split; [apply C01_parse_str_grammar, E|].
  eapply (den_sound ord Ho); [reflexivity|exact HG|exact I| |exact H].
  intros n Hn. eapply HasExpr_number; [apply (reprint U s b E)|exact Hn].
Qed.
(** What a document means is returned: exactly, if there are no maps in the type, and up to
    the order of the entries of maps otherwise. *)
Theorem C102_complete : forall U ord, Order ord -> forall t, GoodTy t -> forall s b d, GConfig U b s -> Den t (Body b) d ->
  exists d', from_str U ord t s = DeOk d' /\ Same d d' /\ (Ordered t -> d' = d).
Proof.
  intros U ord Ho t HG s b d Hb Hd. destruct (den_complete ord Ho _ t (Body b) d (le_n _) HG Hd) as (d' & E & HS & HO).
  exists d'. split; [|auto]. unfold from_str. apply C01_parse_str_grammar in Hb. rewrite Hb. exact E.
Qed.
Theorem C102_exact : forall U ord, Order ord -> forall t, GoodTy t -> forall s d,
  (exists d', from_str U ord t s = DeOk d' /\ Same d d') <-> exists b d', GConfig U b s /\ Den t (Body b) d' /\ Same d d'.
Proof.
  intros U ord Ho t HG s d. split.
  - intros (d' & H & HS). destruct (C102_sound U ord Ho t HG s d' H) as (b & Hb & Hd). eauto.
  - intros (b & d' & Hb & Hd & HS). destruct (C102_complete U ord Ho t HG s b d' Hb Hd) as (d'' & H & HS' & _).
    exists d''. split; [exact H|eapply Same_trans; eassumption].
Qed.
Theorem C102_ordered : forall U ord, Order ord -> forall t, GoodTy t -> Ordered t -> forall s d,
  from_str U ord t s = DeOk d <-> exists b, GConfig U b s /\ Den t (Body b) d.
Proof.
  intros U ord Ho t HG HO s d. split; [apply C102_sound; assumption|].
  intros (b & Hb & Hd). destruct (C102_complete U ord Ho t HG s b d Hb Hd) as (d' & H & _ & E). rewrite <- (E HO). exact H.
Qed.
(** A document means at most one value of a type. *)
Theorem C102_one_meaning : forall t, GoodTy t -> forall x d d', Den t x d -> Den t x d' -> Same d d'.
Proof.
  intros t HG x d d' H H'.
  destruct (den_complete id_ord id_Order _ t x d (le_n _) HG H) as (e & E & HS & _).
  destruct (den_complete id_ord id_Order _ t x d' (le_n _) HG H') as (e' & E' & HS' & _).
  rewrite E in E'. injection E' as <-. eapply Same_trans; [exact HS|apply Same_sym, HS'].
Qed.
(** The order in which the block types of a body are visited (which Rust's [HashMap] does not
    fix) decides nothing but the order of the entries of maps. *)
Theorem C102_order_free : forall U ord ord', Order ord -> Order ord' -> forall t, GoodTy t -> forall s d,
  from_str U ord t s = DeOk d -> exists d', from_str U ord' t s = DeOk d' /\ Same d d' /\ (Ordered t -> d' = d).
Proof.
  intros U ord ord' Ho Ho' t HG s d H. destruct (C102_sound U ord Ho t HG s d H) as (b & Hb & Hd).
  exact (C102_complete U ord' Ho' t HG s b d Hb Hd).
Qed.
Print Assumptions C102_sound.
Print Assumptions C102_complete.
Print Assumptions C102_exact.
Print Assumptions C102_ordered.
Print Assumptions C102_one_meaning.
Print Assumptions C102_order_free.

Definition C102_doc : str := lit "name = ""x""
ports = [80, 443]
svc {
  retries = 3
}
svc {
  retries = null
}
meta = { a = 1.5, b = true }
".
Definition C102_ty : ty := TStruct [(lit "name", TString); (lit "ports", TSeq (TInt U16));
  (lit "svc", TSeq (TStruct [(lit "retries", TOption (TInt I32))])); (lit "none", TOption TString)].
Example C102_nonvacuous : GoodTy C102_ty /\ Ordered C102_ty /\
  from_str ascii_ucd id_ord C102_ty C102_doc = DeOk (DStruct [(lit "name", DStr (lit "x")); (lit "ports", DSeq [DInt 80; DInt 443]);
   (lit "svc", DSeq [DStruct [(lit "retries", DSome (DInt 3))]; DStruct [(lit "retries", DNone)]]); (lit "none", DNone)]) /\
  (exists b d, GConfig ascii_ucd b C102_doc /\ Den C102_ty (Body b) d) /\
  (exists d, from_str ascii_ucd id_ord TAny C102_doc = DeOk d) /\
  (exists e, from_str ascii_ucd id_ord (TMap KTString TString) C102_doc = DeErr e).
Proof.
  assert (HG : GoodTy C102_ty).
  { apply GT_struct; [repeat constructor; cbn; intuition discriminate|]. repeat apply Forall_cons; try apply Forall_nil; cbn [snd].
    - apply GT_leaf; exact I.
    - apply GT_seq, GT_leaf; exact I.
    - apply GT_seq, GT_struct; [repeat constructor; cbn; intuition discriminate|]. repeat apply Forall_cons; try apply Forall_nil. apply GT_option, GT_leaf; exact I.
    - apply GT_option, GT_leaf; exact I. }
  assert (HE : from_str ascii_ucd id_ord C102_ty C102_doc = DeOk (DStruct [(lit "name", DStr (lit "x")); (lit "ports", DSeq [DInt 80; DInt 443]);
   (lit "svc", DSeq [DStruct [(lit "retries", DSome (DInt 3))]; DStruct [(lit "retries", DNone)]]); (lit "none", DNone)])) by (vm_compute; reflexivity).
  split; [exact HG|]. split; [|split; [exact HE|split; [|split]]].
  - apply O_struct. repeat apply Forall_cons; try apply Forall_nil; cbn [snd].
    + apply O_leaf; exact I.
    + apply O_seq, O_leaf; exact I.
    + apply O_seq, O_struct. repeat apply Forall_cons; try apply Forall_nil. apply O_option, O_leaf; exact I.
    + apply O_option, O_leaf; exact I.
  - destruct (C102_sound _ _ id_Order _ HG _ _ HE) as (b & Hb). eauto.
  - eexists. vm_compute. reflexivity.
  - eexists. vm_compute. reflexivity.
Qed.
