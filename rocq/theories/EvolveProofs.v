(** * EvolveProofs: what evolved documents mean *)
From Coq Require Import Permutation ZArith Lia.
From Verif Require Import Base Ast Blocks NumConv IoSpec Serde SerdeSpec SerdeProofs PropSerde DenSpec DenProofs MoveProofs EvolveSpec.
Close Scope Z_scope.
Open Scope list_scope.

Lemma ty_depth_field fs n t : In (n, t) fs -> ty_depth t < ty_depth (TStruct fs).
Proof. intros H. cbn [ty_depth]. pose proof (list_max_map_in (fun ft : str * ty => ty_depth (snd ft)) _ _ H). cbn in *. lia. Qed.
Lemma ty_depth_item ts t : In t ts -> ty_depth t < ty_depth (TTuple ts).
Proof. intros H. cbn [ty_depth]. pose proof (list_max_map_in ty_depth _ _ H). lia. Qed.
Lemma Items_unique x l l' : Items x l -> Items x l' -> l = l'.
Proof. intros [k|b b' bs] H; inversion H; reflexivity. Qed.
Lemma Members_items x ms l : Members x ms -> Items x l -> False.
Proof. intros [k ms' _ _|b g ms' _ _ _ _|b ms' _] H; inversion H. Qed.
Lemma Members_in x ms ms' m : Members x ms -> Members x ms' -> In m ms -> In m ms'.
Proof. intros H H' Hi. eapply Permutation_in; [apply (Members_unique id_ord id_Order _ _ _ H H')|exact Hi]. Qed.

(** One field of a struct *)
Definition Field (ms : list (str * node)) (ft : str * ty) (v : str * data) : Prop := fst v = fst ft /\
  ((exists y, In (fst ft, y) ms /\ Den (snd ft) y (snd v)) \/ (~ In (fst ft) (map fst ms) /\ (exists t, snd ft = TOption t) /\ snd v = DNone)).
Lemma Field_in ms ms' ft v : (forall m, In m ms <-> In m ms') -> Field ms ft v -> Field ms' ft v.
Proof.
  intros Hm (E & [(y & Hy & Hd)|(Hno & Ho)]); (split; [exact E|]); [left; exists y; split; [apply Hm, Hy|exact Hd]|right].
  split; [|exact Ho]. intros Hi. apply Hno. apply in_map_iff in Hi as (a & Ea & Hi). apply in_map_iff. exists a. split; [exact Ea|]. apply Hm, Hi.
Qed.
Lemma Den_struct_members fs x ms d : Members x ms -> Den (TStruct fs) x d ->
  exists vs, d = DStruct vs /\ Forall2 (Field ms) fs vs /\ forall f y, In (f, y) ms -> ~ In f (map fst fs) -> Readable y.
Proof.
  intros HM HD. inversion HD; subst.
  - match goal with H1 : Members x ?m1, H2 : Forall2 _ fs ?vs |- _ => exists vs; split; [reflexivity|]; split;
      [eapply F2_mono; [|exact H2]; intros ft v Hv; apply (Field_in m1 ms); [intros m; split; apply Members_in with x; assumption|exact Hv]|] end.
    intros f y Hy Hno. match goal with H : forall n y, In (n, y) _ -> _ |- _ => apply (H f y); [|exact Hno] end. match goal with H1 : Members x ?m1 |- In _ ?m1 => exact (Members_in x ms m1 _ HM H1 Hy) end.
  - exfalso. eapply Members_items; eassumption.
Qed.
Lemma Den_seq_items t x items d : Items x items -> Den (TSeq t) x d -> exists ds, d = DSeq ds /\ Forall2 (fun y d => Den t y d) items ds.
Proof.
  intros HI HD. inversion HD; subst.
  - match goal with H1 : Items x ?m1, H2 : Forall2 _ ?m1 ?ds |- _ => exists ds; rewrite (Items_unique _ _ _ H1 HI) in H2; auto end.
  - inversion HI.
Qed.
Lemma Den_seq_one t b d : Den (TSeq t) (Group [b]) d -> exists v, d = DSeq [v] /\ Den t (Body b) v.
Proof. intros HD. inversion HD; subst; [match goal with H : Items _ _ |- _ => inversion H end|eauto]. Qed.
Lemma Den_map_members k t x ms d : Members x ms -> Den (TMap k t) x d ->
  exists ms1 es, d = DMap es /\ Permutation ms1 ms /\ KeysFit k (map fst ms1) /\ Forall2 (fun (a : str * node) (e : str * data) => fst e = fst a /\ Den t (snd a) (snd e)) ms1 es.
Proof.
  intros HM HD. inversion HD; subst. match goal with H1 : Members x ?m1, H2 : Forall2 _ ?m1 ?es |- _ => exists m1, es; split; [reflexivity|]; split; [apply (Members_unique id_ord id_Order _ _ _ H1 HM)|auto] end.
Qed.

Section Keeps.
Definition Keeps (t : ty) (x' : node) (d : data) : Prop := exists d', Den t x' d' /\ Same d d' /\ (Ordered t -> d' = d).
Variable n : nat.
Hypothesis IH : forall t x x' d, ty_depth t < n -> SameFor t x x' -> Den t x d -> Keeps t x' d.

Lemma keeps_list t items items' ds : ty_depth t < n -> Forall2 (fun y y' => SameFor t y y') items items' -> Forall2 (fun y d => Den t y d) items ds ->
  exists ds', Forall2 (fun y d => Den t y d) items' ds' /\ Forall2 (fun d d' => Same d d') ds ds' /\ (Ordered t -> ds' = ds).
Proof.
  intros Ht HM. revert ds. induction HM as [|y y' items items' Hy _ IHl]; intros ds H; inversion H as [|? d ? ds0 Hd Hds]; subst.
  - exists []. split; [constructor|]. split; [constructor|reflexivity].
  - destruct (IHl _ Hds) as (ds' & H1 & H2 & H3). destruct (IH _ _ _ _ Ht Hy Hd) as (d' & E & HS & HO). exists (d' :: ds'). split; [constructor; assumption|]. split; [constructor; assumption|].
    intros O. rewrite HO, H3 by exact O. reflexivity.
Qed.
Lemma keeps_three ts items items' : Forall3 (fun t y y' => SameFor t y y') ts items items' -> (forall t, In t ts -> ty_depth t < n) ->
  forall ds, Forall3 (fun t y d => Den t y d) ts items ds ->
  exists ds', Forall3 (fun t y d => Den t y d) ts items' ds' /\ Forall2 (fun d d' => Same d d') ds ds' /\ (Forall Ordered ts -> ds' = ds).
Proof.
  induction 1 as [|t y y' ts items items' Hy _ IHl]; intros Ht ds H; inversion H as [|? ? d ? ? ds0 Hd Hds]; subst.
  - exists []. split; [constructor|]. split; [constructor|reflexivity].
  - destruct (IHl (fun t0 H0 => Ht t0 (or_intror H0)) _ Hds) as (ds' & H1 & H2 & H3).
    destruct (IH _ _ _ _ (Ht t (or_introl eq_refl)) Hy Hd) as (d' & E & HS & HO). exists (d' :: ds'). split; [constructor; assumption|]. split; [constructor; assumption|].
    intros O. inversion O; subst. rewrite HO, H3 by assumption. reflexivity.
Qed.
Lemma keeps_members t ms m ms' ms1 es : ty_depth t < n -> Permutation ms1 ms -> Permutation ms m ->
  Forall2 (fun (a a' : str * node) => fst a' = fst a /\ SameFor t (snd a) (snd a')) m ms' ->
  Forall2 (fun (a : str * node) (e : str * data) => fst e = fst a /\ Den t (snd a) (snd e)) ms1 es ->
  exists es' es'', Permutation es es' /\ Forall2 (fun (e e' : str * data) => fst e' = fst e /\ Same (snd e) (snd e')) es' es'' /\
    Forall2 (fun (a : str * node) (e : str * data) => fst e = fst a /\ Den t (snd a) (snd e)) ms' es''.
Proof.
  intros Ht HP1 HP2 HM H. pose proof (Permutation_trans HP1 HP2) as HP. destruct (Permutation_Forall2 HP H) as (es' & HP' & H'). exists es'. clear HP1 HP2 HP H ms ms1.
  assert (exists es'', Forall2 (fun (e e' : str * data) => fst e' = fst e /\ Same (snd e) (snd e')) es' es'' /\
    Forall2 (fun (a : str * node) (e : str * data) => fst e = fst a /\ Den t (snd a) (snd e)) ms' es'') as (es'' & H1 & H2); [|eauto].
  clear HP' es. revert es' H'. induction HM as [|a a' m ms' [Ea Ha] _ IHl]; intros es' H'; inversion H' as [|? e ? es0 [Ee He] Hes]; subst.
  - exists []. split; constructor.
  - destruct (IHl _ Hes) as (es'' & H1 & H2). destruct (IH _ _ _ _ Ht Ha He) as (d' & E & HS & _). exists ((fst e, d') :: es''). split; constructor; cbn; auto. split; [congruence|exact E].
Qed.
Lemma keeps_fields fs ms ms' vs : (forall f t, In (f, t) fs -> ty_depth t < n) ->
  (forall f, In f (map fst fs) -> (In f (map fst ms) <-> In f (map fst ms'))) ->
  (forall f t y y', In (f, t) fs -> In (f, y) ms -> In (f, y') ms' -> SameFor t y y') ->
  Forall2 (Field ms) fs vs ->
  exists vs', Forall2 (Field ms') fs vs' /\ Forall2 (fun e e' => fst e' = fst e /\ Same (snd e) (snd e')) vs vs' /\ (Forall (fun ft => Ordered (snd ft)) fs -> vs' = vs).
Proof.
  intros Ht Hn Hf H. induction H as [|[f t] [f' v] fs vs [Ef Hv] _ IHl]; [exists []; split; [constructor|]; split; [constructor|reflexivity]|].
  destruct IHl as (vs' & H1 & H2 & H3).
  { intros f0 t0 H0. apply (Ht f0). right. exact H0. }
  { intros f0 H0. apply Hn. right. exact H0. }
  { intros f0 t0 y y' H0. apply (Hf f0). right. exact H0. }
  cbn [fst snd] in *. subst f'. assert (Hk : exists v', Field ms' (f, t) (f, v') /\ Same v v' /\ (Ordered t -> v' = v)).
  { destruct Hv as [(y & Hy & Hd)|(Hno & Ho & ->)].
    - assert (Hy' : In f (map fst ms')) by (apply Hn; [left; reflexivity|]; apply in_map_iff; exists (f, y); auto).
      apply in_map_iff in Hy' as ([f'' y'] & E & Hy'). cbn in E. subst f''.
      destruct (IH t y y' v) as (v' & Hd' & HS & HO); [apply (Ht f); left; reflexivity|apply (Hf f); [left; reflexivity|exact Hy|exact Hy']|exact Hd|].
      exists v'. split; [|auto]. split; [reflexivity|]. left. exists y'. auto.
    - exists DNone. split; [|split; [constructor|reflexivity]]. split; [reflexivity|]. right. split; [|auto]. intros Hi. apply Hno, Hn; [left; reflexivity|exact Hi]. }
  destruct Hk as (v' & HF & HS & HO). exists ((f, v') :: vs'). split; [constructor; assumption|]. split; [constructor; auto|].
  intros O. inversion O; subst. rewrite HO, H3 by assumption. reflexivity.
Qed.
End Keeps.

Theorem den_same_for : forall n t x x' d, ty_depth t < n -> SameFor t x x' -> Den t x d -> Keeps t x' d.
Proof.
  induction n as [|n IH]; intros t x x' d Hn HS HD; [lia|].
  destruct HS as [t x|fs x x' ms ms' HM HM' Hnames Hf Hr|t e e' He He' HS|t bs bs' HS|t e e' HS|t b c bs b' c' bs' HS|t x x' items items' HI HI' HF|t b b' HS|ts l l' HF|k t x x' ms m ms' HM HM' HP HF].
  - exists d. split; [exact HD|]. split; [constructor|reflexivity].
  - destruct (Den_struct_members _ _ _ _ HM HD) as (vs & -> & HV & _).
    destruct (keeps_fields n IH fs ms ms' vs) as (vs' & H1 & H2 & H3); [|exact Hnames|exact Hf|exact HV|].
    { intros f t0 H0. apply ty_depth_field in H0. lia. }
    exists (DStruct vs'). split; [|split; [constructor; exact H2|]].
    + eapply D_struct; [exact HM'| |exact H1]. intros f y Hy Hno. eapply Hr; [right; exact Hy|exact Hno].
    + intros O. inversion O as [? HO| | | | |]; subst; [contradiction|]. rewrite H3 by assumption. reflexivity.
  - inversion HD; subst; [congruence|]. cbn in Hn. match goal with H : Den t (Expr e) ?v |- _ => destruct (IH t _ _ _ ltac:(lia) HS H) as (v' & Hv & Hs & HO) end.
    exists (DSome v'). split; [apply D_some; assumption|]. split; [constructor; exact Hs|]. intros O. inversion O as [? HO'| | | | |]; subst; [contradiction|]. rewrite HO by assumption. reflexivity.
  - inversion HD; subst. cbn in Hn. match goal with H : Den t (Group bs) ?v |- _ => destruct (IH t _ _ _ ltac:(lia) HS H) as (v' & Hv & Hs & HO) end.
    exists (DSome v'). split; [apply D_some_group; assumption|]. split; [constructor; exact Hs|]. intros O. inversion O as [? HO'| | | | |]; subst; [contradiction|]. rewrite HO by assumption. reflexivity.
  - inversion HD; subst. cbn in Hn. match goal with H : Den t (Expr e) ?v |- _ => destruct (IH t _ _ _ ltac:(lia) HS H) as (v' & Hv & Hs & HO) end.
    exists v'. split; [apply D_newtype; exact Hv|]. split; [exact Hs|]. intros O. inversion O as [? HO'| | | | |]; subst; [contradiction|]. apply HO; assumption.
  - inversion HD; subst. cbn in Hn. match goal with H : Den t (Body b) ?v |- _ => destruct (IH t _ _ _ ltac:(lia) HS H) as (v' & Hv & Hs & HO) end.
    exists v'. split; [apply D_newtype_group; exact Hv|]. split; [exact Hs|]. intros O. inversion O as [? HO'| | | | |]; subst; [contradiction|]. apply HO; assumption.
  - cbn in Hn. destruct (Den_seq_items _ _ _ _ HI HD) as (ds & -> & HF1).
    destruct (keeps_list n IH t items items' ds ltac:(lia) HF HF1) as (ds' & H1 & H2 & H3).
    exists (DSeq ds'). split; [eapply D_seq; [exact HI'|exact H1]|]. split; [constructor; exact H2|]. intros O. inversion O as [? HO'| | | | |]; subst; [contradiction|]. rewrite H3 by assumption. reflexivity.
  - cbn in Hn. destruct (Den_seq_one _ _ _ HD) as (v & -> & Hb).
    destruct (IH t _ _ _ ltac:(lia) HS Hb) as (v' & Hv & Hs & HO).
    exists (DSeq [v']). split; [apply D_seq_one; exact Hv|]. split; [constructor; constructor; [exact Hs|constructor]|]. intros O. inversion O as [? HO'| | | | |]; subst; [contradiction|]. rewrite HO by assumption. reflexivity.
  - inversion HD; subst. destruct (keeps_three n IH ts _ _ HF (fun t0 H0 => Nat.lt_le_trans _ _ _ (ty_depth_item _ _ H0) (le_S_n _ _ Hn)) _ ltac:(eassumption)) as (ds' & K1 & K2 & K3).
    exists (DSeq ds'). split; [apply D_tuple; exact K1|]. split; [constructor; exact K2|]. intros O. inversion O as [? HO'| | | | |]; subst; [contradiction|]. rewrite K3 by assumption. reflexivity.
  - cbn in Hn. destruct (Den_map_members _ _ _ _ _ HM HD) as (ms1 & es & -> & HP1 & HK1 & HF1).
    destruct (keeps_members n IH t ms m ms' ms1 es ltac:(lia) HP1 HP HF HF1) as (es' & es'' & HPe & HSe & HDe).
    exists (DMap es''). split; [eapply D_map; [exact HM'| |exact HDe]|].
    + assert (Hp : Permutation (map fst ms1) (map fst ms')).
      { rewrite (F2_fst _ _ _ HF). apply Permutation_map. eapply Permutation_trans; [exact HP1|exact HP]. }
      destruct k; cbn in *; first [exact I|eapply Permutation_Forall; eassumption|rewrite HK1 in Hp; apply Permutation_nil in Hp; exact Hp].
    + split; [eapply Same_map; [exact HPe|exact HSe]|]. intros O. inversion O; contradiction.
Qed.

Lemma SameFor_sym_n : forall n t x x', ty_depth t < n -> SameFor t x x' -> SameFor t x' x.
Proof.
  induction n as [|n IH]; intros t x x' Hn HS; [lia|].
  destruct HS as [t x|fs x x' ms ms' HM HM' Hnames Hf Hr|t e e' He He' HS|t bs bs' HS|t e e' HS|t b c bs b' c' bs' HS|t x x' items items' HI HI' HF|t b b' HS|ts l l' HF|k t x x' ms m ms' HM HM' HP HF];
    try (cbn [ty_depth] in Hn; assert (Hlt : ty_depth t < n) by lia).
  - constructor.
  - apply (SF_struct fs x' x ms' ms HM' HM).
    + intros f Hi. split; intros H; apply (Hnames f Hi), H.
    + intros f t y y' Hft Hy Hy'. apply (IH t); [pose proof (ty_depth_field _ _ _ Hft); lia|]. apply (Hf f); assumption.
    + intros f y H Hno. apply (Hr f y); [tauto|exact Hno].
  - apply SF_option; auto.
  - apply SF_option_group; auto.
  - apply SF_newtype; auto.
  - apply SF_newtype_group; auto.
  - apply (SF_seq t x' x items' items HI' HI). clear HI HI'. induction HF; constructor; auto.
  - apply SF_seq_one; auto.
  - apply SF_tuple. assert (Hd : forall t, In t ts -> ty_depth t < n) by (intros t Ht; pose proof (ty_depth_item _ _ Ht); lia).
    clear Hn. revert Hd. induction HF as [|t y y' ts0 l1 l2 Hy _ IHF]; intros Hd; constructor; [apply IH; [apply Hd; left; reflexivity|exact Hy]|apply IHF; intros t0 Ht; apply Hd; right; exact Ht].
  - assert (HX : exists m', Permutation ms' m' /\ Forall2 (fun a a' : str * node => fst a' = fst a /\ SameFor t (snd a) (snd a')) m' ms).
    { assert (HB : Forall2 (fun a a' : str * node => fst a' = fst a /\ SameFor t (snd a) (snd a')) ms' m).
      { clear - HF IH Hlt. induction HF as [|a a' m ms' [E H] _ IHF]; constructor; auto. }
      assert (HC : Forall2 (fun a a' : str * node => fst a = fst a' /\ SameFor t (snd a') (snd a)) m ms') by (clear - HB; induction HB as [|? ? ? ? [E H]]; constructor; auto).
      destruct (Permutation_Forall2 (Permutation_sym HP) HC) as (m' & Hm' & HF'). exists m'. split; [exact Hm'|]. clear - HF'. induction HF' as [|? ? ? ? [E H]]; constructor; auto. }
    destruct HX as (m' & HP' & HF'). exact (SF_map k t x' x ms' m' ms HM' HM HP' HF').
Qed.
Lemma SameFor_sym t x x' : SameFor t x x' -> SameFor t x' x.
Proof. apply (SameFor_sym_n (S (ty_depth t))). lia. Qed.
Lemma den_same t x x' d : SameFor t x x' -> Den t x d -> Keeps t x' d.
Proof. apply (den_same_for (S (ty_depth t))). lia. Qed.
