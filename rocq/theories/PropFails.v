(** * PropFails: C110, how [serde::de::from_str] fails *)
From Coq Require Import Permutation ZArith Lia.
From Verif Require Import Base Ast NomFacts Blocks BlockSpec NumConv NumSpec IoSpec
  Serde SerdeSpec SerdeProofs PropSerde SerdeErrSpec SerdeErrProofs PropSerdeErr SerdeExactSpec
  Grammar Parser DocProofs PropSyntax Printer Reprint DenSpec DenProofs PropDen FailSpec FailProofs.
Local Open Scope nat_scope.

Lemma parsed_lits U s b : parse_str U s = OkR b -> Lits (SBody b).
Proof. intros E n Hn. eapply HasExpr_number; [apply (reprint U s b E)|exact Hn]. Qed.
Lemma from_str_problem U ord t s p : Order ord -> GoodTy t ->
  (from_str U ord t s = res_of p <->
   (exists r, parse_str U s = ErrR r /\ p = Error (EParseError r)) \/ (parse_str U s = PanicR /\ p = Panic) \/
   exists b, GConfig U b s /\ Fails (vo_of ord) t (Body b) p).
Proof.
  intros Ho HG. unfold from_str. split.
  - destruct (parse_str U s) as [b|r| |] eqn:E; intros H.
    + right. right. exists b. split; [apply C01_parse_str_grammar, E|].
      eapply (fails_complete ord Ho); [apply le_n|exact HG|exact I|eapply parsed_lits, E|exact H].
    + left. exists r. split; [reflexivity|]. destruct p; cbn in H; congruence.
    + right. left. split; [reflexivity|]. destruct p; cbn in H; congruence.
    + destruct p; discriminate.
  - intros [(r & E & ->)|[(E & ->)|(b & Hb & HF)]].
    + rewrite E. reflexivity.
    + rewrite E. reflexivity.
    + apply C01_parse_str_grammar in Hb. rewrite Hb. exact (fails_sound ord Ho t (Body b) p HF HG).
Qed.
(** Whatever order the block types are visited in: an error is that of [parse_str], or what
    goes wrong first in the document read as that type; likewise for panics. *)
Theorem C110_exact : forall U ord, Order ord -> exists vo, Visiting vo /\ forall t, GoodTy t -> forall s,
  (forall e, from_str U ord t s = DeErr e <->
     (exists r, parse_str U s = ErrR r /\ e = EParseError r) \/ exists b, GConfig U b s /\ Fails vo t (Body b) (Error e)) /\
  (from_str U ord t s = DePanic <-> parse_str U s = PanicR \/ exists b, GConfig U b s /\ Fails vo t (Body b) Panic).
Proof.
  intros U ord Ho. exists (vo_of ord). split; [apply vo_visiting, Ho|]. intros t HG s. split.
  - intros e. rewrite (from_str_problem U ord t s (Error e) Ho HG). split.
    + intros [(r & E & [= ->])|[(_ & E)|H]]; [left; eauto|discriminate|right; exact H].
    + intros [(r & E & ->)|H]; [left; eauto|right; right; exact H].
  - rewrite (from_str_problem U ord t s Panic Ho HG). split.
    + intros [(r & E & ?)|[(E & _)|H]]; [discriminate|left; exact E|right; exact H].
    + intros [E|H]; [right; left; auto|right; right; exact H].
Qed.
(** A document that is in the grammar either means a value of the type or fails, never both,
    and with one problem only. *)
Theorem C110_decided : forall U ord, Order ord -> exists vo, Visiting vo /\ forall t, GoodTy t -> forall s b, GConfig U b s ->
  ((exists d, Den t (Body b) d) /\ (forall p, ~ Fails vo t (Body b) p)) \/
  ((forall d, ~ Den t (Body b) d) /\ exists p, Fails vo t (Body b) p /\ forall q, Fails vo t (Body b) q -> q = p).
Proof.
  intros U ord Ho. exists (vo_of ord). split; [apply vo_visiting, Ho|]. intros t HG s b Hb. apply C01_parse_str_grammar in Hb.
  destruct (de_cases ord Ho t (SBody b)) as [(d & Hd)|(p & Hp)].
  - left. split.
    + exists d. eapply (den_sound ord Ho); [apply le_n|exact HG|exact I|eapply parsed_lits, Hb|exact Hd].
    + intros p HF. pose proof (fails_sound ord Ho _ _ _ HF HG) as Hq. cbn [src_of] in Hq. rewrite Hd in Hq. symmetry in Hq. exact (res_of_ok _ _ Hq).
  - right. split.
    + intros d HD. destruct (den_complete ord Ho _ t (Body b) d (le_n _) HG HD) as (d' & E & _). cbn [src_of] in E. rewrite Hp in E. exact (res_of_ok _ _ E).
    + exists p. split; [eapply (fails_complete ord Ho); [apply le_n|exact HG|exact I|eapply parsed_lits, Hb|exact Hp]|].
      intros q HF. pose proof (fails_sound ord Ho _ _ _ HF HG) as Hq. cbn [src_of] in Hq. rewrite Hp in Hq. apply res_of_inj in Hq. congruence.
Qed.
(** Which of several problems is met can depend on the order of visiting, but not whether
    there is one. *)
Theorem C110_order : forall U ord ord', Order ord -> Order ord' -> forall t, GoodTy t -> forall s,
  (exists d, from_str U ord t s = DeOk d) <-> (exists d, from_str U ord' t s = DeOk d).
Proof.
  intros U ord ord' Ho Ho' t HG s. split; intros (d & H).
  - destruct (C102_order_free U ord ord' Ho Ho' t HG s d H) as (d' & H' & _). eauto.
  - destruct (C102_order_free U ord' ord Ho' Ho t HG s d H) as (d' & H' & _). eauto.
Qed.
Print Assumptions C110_exact.
Print Assumptions C110_decided.
Print Assumptions C110_order.

(** The order matters: an integer that is too large in one block, labels in another. *)
Definition C110_doc : str := lit "a = 1
x {
  n = 99999999999999999999
}
y ""l"" {
}
".
Definition rev_ord (m : blocks_t) : blocks_t := rev m.
Lemma rev_Order : Order rev_ord.
Proof. intros m. apply Permutation_rev. Qed.
Example C110_nonvacuous :
  from_str ascii_ucd id_ord TAny C110_doc = DeErr EParseInt /\ from_str ascii_ucd rev_ord TAny C110_doc = DePanic /\
  from_str ascii_ucd id_ord (TMap KTString (TInt U8)) C110_doc = DeErr (ECustom CInvalidType) /\
  from_str ascii_ucd id_ord (TStruct [(lit "a", TBool)]) C110_doc = DeErr (ECustom CInvalidType) /\
  from_str ascii_ucd id_ord (TStruct [(lit "b", TInt U8)]) (lit "a = 1
") = DeErr (ECustom (CMissingField (lit "b"))) /\
  from_str ascii_ucd id_ord TAny (lit "a = 1
a = 2
") = DeErr (EBodyDuplicateKey (lit "a")) /\
  (exists vo b, Visiting vo /\ GConfig ascii_ucd b C110_doc /\ Fails vo TAny (Body b) Panic) /\
  (exists vo b, Visiting vo /\ GConfig ascii_ucd b C110_doc /\ Fails vo TAny (Body b) (Error EParseInt)).
Proof.
  assert (HA : GoodTy TAny) by (apply GT_leaf; exact I).
  assert (E1 : from_str ascii_ucd id_ord TAny C110_doc = DeErr EParseInt) by (vm_compute; reflexivity).
  assert (E2 : from_str ascii_ucd rev_ord TAny C110_doc = DePanic) by (vm_compute; reflexivity).
  split; [exact E1|]. split; [exact E2|]. split; [vm_compute; reflexivity|]. split; [vm_compute; reflexivity|]. split; [vm_compute; reflexivity|]. split; [vm_compute; reflexivity|]. split.
  - destruct (C110_exact ascii_ucd rev_ord rev_Order) as (vo & HV & HX). destruct (proj1 (proj2 (HX TAny HA C110_doc)) E2) as [E|(b & Hb & HF)]; [vm_compute in E; discriminate|eauto 6].
  - destruct (C110_exact ascii_ucd id_ord id_Order) as (vo & HV & HX). destruct (proj1 (proj1 (HX TAny HA C110_doc) EParseInt) E1) as [(r & E & _)|(b & Hb & HF)]; [vm_compute in E; discriminate|eauto 6].
Qed.
