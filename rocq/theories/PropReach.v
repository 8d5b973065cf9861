(** * PropReach: C109, the values [serde::de::from_str] can return *)
From Coq Require Import Permutation ZArith Reals SpecFloat Lia.
From Verif Require Import Base Ast NomFacts Blocks BlockSpec NumConv NumSpec IoSpec Serde SerdeSpec SerdeProofs PropSerde Grammar PropSyntax Printer FloatSpec DenSpec DenProofs PropDen
  ReachSpec ReachFloat ReachProofs ReachText.
Local Open Scope nat_scope.

(** ** Values do not depend on the order of the entries of maps *)
Lemma OnlyNull_same t : forall d d', Same d d' -> OnlyNull t d' -> OnlyNull t d.
Proof.
  induction t; intros d d' HS H; cbn in *; try contradiction; try (destruct d'; try contradiction; inversion HS; subst; cbn; exact I).
  destruct d'; eauto.
Qed.
Lemma KeysFit_perm k l l' : Permutation l l' -> KeysFit k l -> KeysFit k l'.
Proof.
  intros HP. destruct k; cbn; [auto| |].
  - intros ->. apply Permutation_nil. exact HP.
  - intros H. eapply Permutation_Forall; eassumption.
Qed.
Lemma Names_perm U l l' : Permutation l l' -> Names U l -> Names U l'.
Proof. intros HP [H1 H2]. split; [eapply Permutation_NoDup; eassumption|eapply Permutation_Forall; eassumption]. Qed.
Lemma sameE_keys l l' : Forall2 SameE l l' -> map fst l' = map fst l.
Proof. induction 1 as [|a b l l' [E _] _ IH]; cbn; congruence. Qed.
Lemma Val_same U : forall t d, Val U t d -> forall d', Same d d' -> Val U t d'.
Proof.
  fix IH 3. intros t d H. destruct H; intros d' HS; try (apply Same_leaf in HS; [|exact I]; subst d'; constructor; assumption).
  - apply Same_some_inv in HS as (e & -> & HS). constructor; [eapply IH; eassumption|]. intros HO. apply H0. eapply OnlyNull_same; eassumption.
  - constructor. eapply IH; eassumption.
  - apply Same_seq_inv in HS as (l & -> & HS). constructor. clear - IH H HS. revert l HS. induction H as [|d ds Hd _ IHl]; intros l HS; inversion HS; subst; [constructor|]. constructor; [eapply IH; eassumption|auto].
  - apply Same_seq_inv in HS as (l & -> & HS). constructor. clear - IH H HS. revert l HS. induction H as [|t d ts ds Hd _ IHl]; intros l HS; inversion HS; subst; [constructor|]. constructor; [eapply IH; eassumption|auto].
  - apply Same_map_inv in HS as (l & l' & -> & HP & HF). assert (HV : Forall (fun e => forall d', Same (snd e) d' -> Val U t d') es) by (clear - IH H1; induction H1; constructor; [apply IH; assumption|assumption]).
    apply (Permutation_Forall HP) in HV. apply (Permutation_map fst) in HP. rewrite <- (sameE_keys _ _ HF) in HP.
    constructor; [eapply Names_perm; eassumption|eapply KeysFit_perm; eassumption|].
    clear - HV HF. induction HF as [|a b l l' [_ HS] _ IHl]; [constructor|]. inversion HV; subst. constructor; auto.
  - apply Same_struct_inv in HS as (l & -> & HS). constructor. clear - IH H HS. revert l HS.
    induction H as [|ft v fs vs [E Hd] _ IHl]; intros l HS; inversion HS as [|? w ? ? [E' HS']]; subst; [constructor|]. constructor; [split; [congruence|eapply IH; eassumption]|auto].
  - apply Same_seq_inv in HS as (l & -> & HS). constructor. clear - IH H HS. revert l HS. induction H as [|d ds Hd _ IHl]; intros l HS; inversion HS; subst; [constructor|]. constructor; [eapply IH; eassumption|auto].
  - apply Same_map_inv in HS as (l & l' & -> & HP & HF). assert (HV : Forall (fun e => forall d', Same (snd e) d' -> Val U TAny d') es) by (clear - IH H0; induction H0; constructor; [apply IH; assumption|assumption]).
    apply (Permutation_Forall HP) in HV. apply (Permutation_map fst) in HP. rewrite <- (sameE_keys _ _ HF) in HP.
    constructor; [eapply Names_perm; eassumption|].
    clear - HV HF. induction HF as [|a b l l' [_ HS] _ IHl]; [constructor|]. inversion HV; subst. constructor; auto.
Qed.
Lemma Doc_same U t d d' : Doc U t d -> Same d d' -> Doc U t d'.
Proof.
  intros H HS. destruct H as [k t es H|fs vs H| |es H].
  - destruct (Same_map_inv _ _ HS) as (l & l' & -> & _). constructor. eapply Val_same; eassumption.
  - apply Same_struct_inv in HS as (l & -> & HS). constructor. revert l HS.
    induction H as [|ft v fs vs (E & HV & Hc) _ IHl]; intros l HS; inversion HS as [|? w ? ? [E' HS']]; subst; [constructor|]. constructor; [|auto].
    split; [congruence|]. split; [eapply Val_same; eassumption|]. destruct Hc as [Hc|[Ho En]]; [left; exact Hc|right; split; [exact Ho|]]. rewrite En in HS'. apply Same_leaf in HS'; [exact HS'|exact I].
  - apply Same_leaf in HS; [|exact I]. subst. constructor.
  - destruct (Same_map_inv _ _ HS) as (l & l' & -> & _). constructor. eapply Val_same; eassumption.
Qed.

(** ** C109 *)
(** Whatever is returned for any text is one of the values described in [ReachSpec]. *)
Theorem C109_sound : forall U ord, Order ord -> forall t, GoodTy t -> forall s, IsStr s -> forall d, from_str U ord t s = DeOk d -> Doc U t d.
Proof.
  intros U ord Ho t HG s Hs d H. destruct (C102_sound U ord Ho t HG s d H) as (b & Hb & Hd).
  apply (den_doc U t b d Hd). apply (proj2 (body_str U) b s [] Hb Hs).
Qed.
(** Each of these values is returned for some text. *)
Theorem C109_complete : forall U ord, Order ord -> forall t, GoodTy t -> forall d, Doc U t d ->
  exists s d', IsStr s /\ from_str U ord t s = DeOk d' /\ Same d d' /\ (Ordered t -> d' = d).
Proof.
  intros U ord Ho t HG d H. destruct (doc_written U t d HG H) as (b & s & Hb & Hs & Hd).
  destruct (C102_complete U ord Ho t HG s b d Hb Hd) as (d' & H1 & H2 & H3). exists s, d'. auto.
Qed.
Theorem C109_exact : forall U ord, Order ord -> forall t, GoodTy t -> forall d,
  (exists s d', IsStr s /\ from_str U ord t s = DeOk d' /\ Same d d') <-> Doc U t d.
Proof.
  intros U ord Ho t HG d. split.
  - intros (s & d' & Hs & H & HS). eapply Doc_same; [eapply C109_sound; eassumption|apply Same_sym, HS].
  - intros H. destruct (C109_complete U ord Ho t HG d H) as (s & d' & H1 & H2 & H3 & _). eauto.
Qed.
Theorem C109_ordered : forall U ord, Order ord -> forall t, GoodTy t -> Ordered t -> forall d,
  (exists s, IsStr s /\ from_str U ord t s = DeOk d) <-> Doc U t d.
Proof.
  intros U ord Ho t HG HO d. split.
  - intros (s & Hs & H). eapply C109_sound; eassumption.
  - intros H. destruct (C109_complete U ord Ho t HG d H) as (s & d' & H1 & H2 & _ & E). rewrite <- (E HO). eauto.
Qed.
Print Assumptions C109_sound.
Print Assumptions C109_complete.
Print Assumptions C109_exact.
Print Assumptions C109_ordered.

(** ** What this means for one attribute [x] *)
Definition only (t : ty) : ty := TStruct [(lit "x", t)].
Lemma only_good t : GoodTy t -> GoodTy (only t).
Proof. intros H. apply GT_struct; [apply NoDup_cons; [intros []|apply NoDup_nil]|apply Forall_cons; [exact H|apply Forall_nil]]. Qed.
Lemma only_doc U t d : Doc U (only t) (DStruct [(lit "x", d)]) <-> Val U t d.
Proof.
  split.
  - intros H. inversion H as [|? ? HF| |]; subst. inversion HF as [|? ? ? ? (_ & HV & _)]; subst. exact HV.
  - intros H. apply Doc_struct. apply Forall2_cons; [|apply Forall2_nil]. split; [reflexivity|]. split; [exact H|]. left. split.
    + exists 120%N, []. split; [reflexivity|]. split; [left; left; unfold Letter; lia|intros ? []].
    + repeat constructor.
Qed.
Theorem C109_field : forall U ord, Order ord -> forall t, GoodTy t -> forall d,
  (exists s d', IsStr s /\ from_str U ord (only t) s = DeOk (DStruct [(lit "x", d')]) /\ Same d d') <-> Val U t d.
Proof.
  intros U ord Ho t HG d. rewrite <- only_doc. rewrite <- (C109_exact U ord Ho _ (only_good t HG)). split.
  - intros (s & d' & Hs & H & HS). exists s, (DStruct [(lit "x", d')]). split; [exact Hs|]. split; [exact H|]. constructor. constructor; [split; [reflexivity|exact HS]|constructor].
  - intros (s & d' & Hs & H & HS). apply Same_struct_inv in HS as (l & -> & HF). inversion HF as [|? [n e] ? ? [E HS] HF']; subst. inversion HF'; subst. cbn in E, HS. subst n.
    exists s, e. auto.
Qed.
(** An unsigned number too great for [i64], NaN, [Some(None)] and [Some(())] are never returned;
    every string is, also as a borrowed one. *)
Theorem C109_not_reached : forall U ord, Order ord -> forall s, IsStr s ->
  (forall z, from_str U ord (only (TInt U64)) s = DeOk (DStruct [(lit "x", DInt z)]) -> (0 <= z <= 9223372036854775807)%Z) /\
  from_str U ord (only TF64) s <> DeOk (DStruct [(lit "x", DFloat S754_nan)]) /\
  (forall t, GoodTy t -> from_str U ord (only (TOption (TOption t))) s <> DeOk (DStruct [(lit "x", DSome DNone)])) /\
  from_str U ord (only (TOption TUnit)) s <> DeOk (DStruct [(lit "x", DSome DUnit)]).
Proof.
  intros U ord Ho s Hs.
  assert (HV : forall t d, GoodTy t -> from_str U ord (only t) s = DeOk (DStruct [(lit "x", d)]) -> Val U t d).
  { intros t d HG H. apply only_doc. eapply C109_sound; [exact Ho|apply only_good, HG|exact Hs|exact H]. }
  split; [|split; [|split]].
  - intros z H. apply HV in H; [|apply GT_leaf; exact I]. inversion H as [| |? ? H1 H2| | | | | | | | | | | | | | | | | | | | |]; subst. cbn in H1, H2. lia.
  - intros H. apply HV in H; [|apply GT_leaf; exact I]. inversion H as [| | |? HN| | | | | | | | | | | | | | | | | | | |]; subst. destruct HN as [[]|[? [=]]].
  - intros t HG H. apply HV in H; [|apply GT_option, GT_option, HG]. inversion H; subst. cbn in *. tauto.
  - intros H. apply HV in H; [|apply GT_option, GT_leaf; exact I]. inversion H; subst. cbn in *. tauto.
Qed.
Theorem C109_every_string : forall U ord, Order ord -> forall v, IsStr v -> forall t, t = TString \/ t = TStr ->
  exists s, IsStr s /\ from_str U ord (only t) s = DeOk (DStruct [(lit "x", DStr v)]).
Proof.
  intros U ord Ho v Hv t Ht. assert (HO : GoodTy t /\ Ordered t /\ Val U t (DStr v)).
  { destruct Ht as [-> | ->]; (split; [apply GT_leaf; exact I|]; split; [apply O_leaf; exact I|constructor; exact Hv]). }
  destruct HO as (HG & HO & HV). apply (C109_ordered U ord Ho); [apply only_good, HG|apply O_struct; apply Forall_cons; [exact HO|apply Forall_nil]|apply only_doc, HV].
Qed.
Print Assumptions C109_field.
Print Assumptions C109_not_reached.
Print Assumptions C109_every_string.

Definition C109_ty : ty := TStruct [(lit "a", TF32); (lit "b b", TOption TBool); (lit "c", TMap KTChar (TTuple [TInt U64; TStr]))].
Definition C109_val : data := DStruct [(lit "a", DFloat (S754_finite true 1 (-149))); (lit "b b", DNone);
  (lit "c", DMap [(lit "k", DSeq [DInt 9223372036854775807; DStr [13%N]])])].
Example C109_nonvacuous : GoodTy C109_ty /\ Doc ascii_ucd C109_ty C109_val /\
  (exists s d', IsStr s /\ from_str ascii_ucd id_ord C109_ty s = DeOk d' /\ Same C109_val d') /\
  ~ Doc ascii_ucd C109_ty (DStruct [(lit "a", DFloat (S754_infinity false)); (lit "b b", DSome (DBool true)); (lit "c", DMap [])]).
Proof.
  assert (HG : GoodTy C109_ty).
  { apply GT_struct; [repeat constructor; cbn; intuition discriminate|]. repeat apply Forall_cons; try apply Forall_nil; cbn [snd].
    - apply GT_leaf; exact I.
    - apply GT_option, GT_leaf; exact I.
    - apply GT_map, DenSpec.GT_tuple. repeat constructor; apply GT_leaf; exact I. }
  assert (HN : forall c, (97 <= c <= 122)%N -> Name ascii_ucd [c]).
  { intros c Hc. split.
    - exists c, []. split; [reflexivity|]. split; [left; left; unfold Letter; lia|intros ? []].
    - repeat constructor. unfold valid_char. destruct (N.ltb_spec c 55296); [reflexivity|lia]. }
  assert (HD : Doc ascii_ucd C109_ty C109_val).
  { apply Doc_struct. repeat apply Forall2_cons; try apply Forall2_nil; cbn [fst snd].
    - split; [reflexivity|]. split; [|left; apply (HN 97%N); lia]. constructor. left. right. split; reflexivity.
    - split; [reflexivity|]. split; [constructor|]. right. eauto.
    - split; [reflexivity|]. split; [|left; apply (HN 99%N); lia]. constructor.
      + split; [apply NoDup_cons; [intros []|apply NoDup_nil]|]. constructor; [apply (HN 107%N); lia|constructor].
      + cbn. constructor; [exists 107%N; reflexivity|constructor].
      + repeat constructor; cbn; lia. }
  split; [exact HG|]. split; [exact HD|]. split.
  - apply (C109_exact ascii_ucd id_ord id_Order C109_ty HG). exact HD.
  - intros H. inversion H as [|? ? HF| |]; subst. inversion HF as [|? ? ? ? _ HF2]; subst. inversion HF2 as [|? ? ? ? (_ & _ & [Hc|[_ Hc]])]; subst; [|discriminate Hc].
    destruct Hc as [(c & cs & E & _ & Hcs) _]. injection E as <- <-. destruct (Hcs 32%N) as [[[HL|[HL _]]|[HL|[HL|[HL _]]]]|HL]; cbn; auto; try (unfold Letter, DecDigit in HL; lia); lia.
Qed.
