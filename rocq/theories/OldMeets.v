(** * OldMeets: [value::from_str]'s parser stops for good exactly on the texts of OldMeetsSpec *)
From Coq Require Import ZArith.
From Verif Require Import Base Nom NomFacts Ast Lex Grammar WsFacts NumFacts StrFacts HeredocFacts Parser ParserFacts ExprProofs BodyProofs
  PanicProofs MeetsSpec MeetsProofs NumConv NumSpec NumProofs Kvp Value OldParser OldFacts OldGrammar OldProofs OldPanic OldMeetsSpec.
Close Scope Z_scope.

Section WithTables.
Context (U : ucd).
Local Notation SV := (single_value U).
Local Notation MV := (map_values U).
Local Notation VSEP := (sep_rest (wrap whitespace (char_p c_comma)) (wrap whitespace SV)).

Section Stop.
Context (K : stop) (T L : str -> Prop).
Context (HT : forall s, string_p U s = stopped K <-> T s) (HLab : forall s, string_literal s = stopped K <-> L s).
Local Notation Halt := (stopped K).
Local Notation VMeets := (VMeets U T L).
Local Notation VMeetsItems := (VMeetsItems U T L).
Local Notation VMeetsEntries := (VMeetsEntries U T L).
Local Notation VMeetsEntry := (VMeetsEntry U T L).
Ltac no H := exfalso; first [exact (ok_not_halt K _ _ H)|exact (err_not_halt K H)|exact (fuel_not_halt K H)].

(** ** Met implies stop *)
Lemma old_step_string c s : c = 60 \/ c = 34 \/ c = 91 -> SV (c :: s) =
  alt (pmap (fun c => VString (cow_str c)) (string_p U)) (alt (pmap VList (vlist SV)) (pmap (fun m => VObject [m]) (map_expression MV))) (c :: s).
Proof.
  intros Hc. rewrite single_value_eq. unfold single_value_step.
  assert (Hn : c <> 110 /\ is_dec_digit c = false /\ c <> 46 /\ c <> 43 /\ c <> 45 /\ c <> 116 /\ c <> 102).
  { unfold is_dec_digit in *. lia. }
  rewrite alt_err by (apply pmap_err, null_first; tauto).
  rewrite alt_err by (apply literal_number_err, number_first_err; tauto).
  rewrite alt_err by (apply pmap_err, boolean_first; tauto). reflexivity.
Qed.
Lemma map_expression_panic p x s1 : ws_rest x = 123 :: s1 -> p (ws_rest s1) = Halt -> map_expression p x = Halt.
Proof.
  intros H1 H2. unfold map_expression. rewrite ws_m, wrap_ws, H1, char_p_eq. cbn [bind].
  rewrite ws_m, wrap_ws, ws_rest_idem, H2. destruct K; reflexivity.
Qed.
Lemma old_object_panic x s1 : ws_rest x = 123 :: s1 -> map_expression MV x = Halt -> SV x = Halt.
Proof.
  intros Hx H. destruct (lead_char x 123 s1 Hx (or_introl eq_refl)) as (c0 & x' & Ex & Hc0).
  rewrite (old_compound U x c0 x' Ex); [apply (pmap_halt K), H|].
  destruct Hc0 as [H0|[H0|H0]]; auto. subst. rewrite ws_rest_stop in Hx by lia. discriminate.
Qed.
Definition PanicsV (s : str) : Prop := SV s = Halt /\ SV (iws_rest s) = Halt /\ SV (ws_rest s) = Halt.
Definition PanicsVI (s : str) : Prop := vlist_items U s = Halt.
Definition PanicsVS (s : str) : Prop := ~ FirstIs 44 (ws_rest s) /\ forall x, ws_rest x = ws_rest s -> MV x = Halt.
Definition PanicsVE (s : str) : Prop := ws_rest s = s /\ ~ FirstIs 44 s /\ old_attribute U SV MV s = Halt.
Lemma panicsV_nonws c s : ws_char c = false -> SV (c :: s) = Halt -> PanicsV (c :: s).
Proof. intros Hc H. split; [exact H|]. rewrite iws_rest_nonws, ws_rest_nonws by exact Hc. auto. Qed.
Lemma many0_old_item x : many0 (old_item U) x =
  match old_item U x with
  | Ok r v => if str_eqb r x then Ok x [] else map_res (cons v) (many0 (old_item U) r)
  | Err => Ok x [] | Fail q => Fail q | Panic => Panic | OutOfFuel => OutOfFuel
  end.
Proof. rewrite many0_eq by apply wf_upto_of, wf_old_item. reflexivity. Qed.

Lemma labels_halts ls s r : VLabels ls s r -> L (iws_rest r) -> many0 old_label s = Halt.
Proof.
  induction 1 as [r|v ls i s s' r Hi Hc HL IH]; intros Hr; rewrite many0_eq by apply wf_upto_of, wf_old_label; unfold old_label at 1; rewrite wrap_iws.
  - rewrite (proj2 (HLab _) Hr). destruct K; reflexivity.
  - rewrite iws_rest_iws by exact Hi. cbn [app]. rewrite iws_rest_stop by lia.
    assert (E : string_literal (34 :: s) = Ok s' v) by (apply string_literal_ok; eauto). rewrite E.
    assert (Hne : s' <> i ++ 34 :: s).
    { intros Heq. apply (f_equal (@length _)) in Heq. apply GChars_len in Hc. rewrite !app_length in *. cbn [length] in *. lia. }
    apply str_eqb_neq in Hne. rewrite Hne, IH by exact Hr. destruct K; reflexivity.
Qed.
Lemma vmeets_panics :
  (forall s, VMeets s -> PanicsV s) /\ (forall s, VMeetsItems s -> PanicsVI s) /\
  (forall s, VMeetsEntries s -> PanicsVS s) /\ (forall s, VMeetsEntry s -> PanicsVE s).
Proof.
  apply vmeets_mut.
  - intros s H. destruct (bad_first U K T L HT HLab s H) as (c & s' & -> & Hc). apply HT in H.
    apply panicsV_nonws; [unfold ws_char; lia|].
    rewrite old_step_string by tauto. apply (alt_halt_l K), (pmap_halt K). exact H.
  - intros s _ H. apply panicsV_nonws; [reflexivity|]. rewrite old_step_string by tauto.
    rewrite alt_err by (apply pmap_err, string_p_first; lia). apply (alt_halt_l K), (pmap_halt K).
    unfold vlist, preceded. rewrite char_p_eq. cbn [bind]. unfold terminated at 1. rewrite ws_m.
    unfold PanicsVI, vlist_items in H. rewrite H. destruct K; reflexivity.
  - intros w s Hw _ [_ H]. pose proof (ws_to_brace w s Hw) as Hx.
    assert (HP : forall x, ws_rest x = 123 :: s -> SV x = Halt).
    { intros x E. eapply old_object_panic; [exact E|]. eapply map_expression_panic; [exact E|]. apply H, ws_rest_idem. }
    split; [apply HP, Hx|]. split; apply HP; [rewrite ws_rest_iws_rest|rewrite ws_rest_idem]; exact Hx.
  - intros w s Hw _ (_ & _ & H). unfold PanicsVI, vlist_items. rewrite separated_list_eq, wrap_ws, ws_rest_ws by exact Hw.
    rewrite H. destruct K; reflexivity.
  - intros v w1 w2 s s' Hw1 Hw2 Hv _ H. apply (old_complete_mut U) in Hv as (Hl & _ & _ & Hr).
    unfold PanicsVI, vlist_items in *. rewrite separated_list_eq in *. rewrite wrap_ws in *. rewrite ws_rest_ws by exact Hw1.
    rewrite Hr. destruct (Nat.eqb_spec (length (w2 ++ [44] ++ s')) (length (w1 ++ s))) as [Eq|_]; [rewrite (app_length w1) in Eq; lia|].
    rewrite vsep_unfold, ws_rest_ws by exact Hw2. cbn [app]. rewrite ws_rest_stop by lia. rewrite char_p_eq.
    destruct (SV (ws_rest s')) as [r3 v3| |q| |]; try (no H); try (destruct K; cbn in *; congruence).
    destruct (Nat.eqb _ _); [no H|]. apply (map_res_halt K) in H. rewrite H. destruct K; reflexivity.
  - intros w s Hw _ (H1 & H2 & H). unfold PanicsVS. rewrite ws_rest_ws, H1 by exact Hw. split; [exact H2|].
    intros x Hx. rewrite map_values_unfold, many0_old_item. unfold old_item at 1. rewrite wrap_ws, Hx. unfold terminated. rewrite H. destruct K; reflexivity.
  - intros k v w s s1 s2 Hw He Hs _ [Hn H]. apply (proj2 (proj2 (proj2 (old_complete_mut U)))) in He as (Hl & H1 & H2 & HR).
    unfold PanicsVS. rewrite ws_rest_ws, H1 by exact Hw. split; [exact H2|]. intros x Hx.
    destruct (old_separator_complete s1 s2 Hs Hn) as (r & y & Hy & Hr & Hlr).
    assert (Hit : old_item U x = Ok r (k, v)).
    { unfold old_item. rewrite wrap_ws, Hx. unfold terminated. rewrite HR. cbn [bind]. rewrite Hy. reflexivity. }
    specialize (H r Hr). rewrite map_values_unfold in H. rewrite map_values_unfold, many0_old_item, Hit.
    assert (Hne : r <> x).
    { intros ->. pose proof (suffix_len _ _ (ws_rest_suffix x)) as H3. rewrite Hx in H3. lia. }
    apply str_eqb_neq in Hne. rewrite Hne. apply (bind_ret_halt K) in H. rewrite H. destruct K; reflexivity.
  - intros s H. destruct (label_first U K T L HT HLab s H) as (q & ->). split; [apply ws_rest_stop; lia|]. split; [intros [q' [=]]|].
    unfold old_attribute. rewrite iws_m. rewrite (alt_halt_l K _ _ (34 :: q)); [destruct K; reflexivity|].
    rewrite wrap_iws, iws_rest_stop by lia. apply (halt_bind K). unfold literal_key.
    rewrite alt_err by (apply pmap_err, identifier_first_err; rewrite id_first_ascii by lia; reflexivity).
    apply (pmap_halt K), HLab, H.
  - intros k i1 i2 s s' Hi1 Hi2 Hk _ (_ & H & _). destruct (VKey_ws U _ _ _ Hk) as [H1 H2]. split; [exact H1|]. split.
    { apply VKey_first in Hk as (c & q & -> & Hc). intros [q' [= -> _]]. apply (id_first_not44 U 44); auto. }
    unfold old_attribute. rewrite iws_m. apply literal_key_ok in Hk. rewrite (alt_halt_l K _ _ s); [destruct K; reflexivity|].
    rewrite wrap_iws, H2, Hk. cbn [bind app]. rewrite wrap_iws, iws_to_eq by exact Hi1. rewrite char_p_eq. cbn [bind].
    rewrite wrap_iws, iws_rest_iws by exact Hi2. rewrite H. destruct K; reflexivity.
  - intros t ls w s s1 s' Hw Hi HL _ [_ H]. destruct (GIdent_ws _ _ _ _ Hi) as [H1 H2]. split; [exact H1|]. split.
    { apply GIdent_first in Hi as (c & q & -> & Hc). intros [q' [= -> _]]. apply (id_first_not44 U 44); auto. }
    assert (HP : forall x, ws_rest x = 123 :: s' -> map_expression MV x = Halt).
    { intros x Hx. eapply map_expression_panic; [exact Hx|]. apply H, ws_rest_idem. }
    destruct (brace_not_eq w s' Hw) as [Hne Hns].
    unfold old_attribute. rewrite iws_m. destruct ls as [|l0 ls].
    + inversion HL as [q Eq1 Eq2|]; subst. rewrite alt_err by (eapply old_attribute_alt1_err; eassumption).
      rewrite (alt_halt_l K _ _ s); [destruct K; reflexivity|].
      apply identifier_ok in Hi. rewrite wrap_iws, H2, Hi. cbn [bind]. rewrite wrap_iws, opt_none.
      * cbn [bind]. rewrite wrap_iws, iws_rest_idem. rewrite HP; [destruct K; reflexivity|]. rewrite ws_rest_iws_rest. apply ws_to_brace, Hw.
      * destruct (iws_rest (w ++ [123] ++ s')) as [|c q]; [reflexivity|]. apply char_p_neq. intros ->. apply Hne. eexists; reflexivity.
    + destruct (VLabels_first _ _ _ HL ltac:(discriminate)) as [q Hq]. rewrite alt_err.
      2:{ eapply old_attribute_alt1_err; [exact Hi|]. rewrite Hq. intros [q' [=]]. }
      apply identifier_ok in Hi. rewrite alt_err.
      * rewrite wrap_iws, H2, Hi. cbn [bind]. fold old_label. rewrite (old_labels_complete _ _ _ HL Hns). cbn [bind].
        rewrite wrap_iws, HP; [destruct K; reflexivity|]. rewrite ws_rest_iws_rest. apply ws_to_brace, Hw.
      * rewrite wrap_iws, H2, Hi. cbn [bind]. rewrite wrap_iws, Hq, opt_none by (apply char_p_neq; discriminate). cbn [bind].
        rewrite wrap_iws, iws_rest_stop by lia. rewrite map_expression_first; [reflexivity|]. rewrite ws_rest_stop by lia. discriminate.
  - intros t ls i s s1 s' Hi0 Hi HL H. destruct (GIdent_ws _ _ _ _ Hi) as [H1 H2]. split; [exact H1|]. split.
    { apply GIdent_first in Hi as (c & q & -> & Hc). intros [q' [= -> _]]. apply (id_first_not44 U 44); auto. }
    destruct (label_first U K T L HT HLab s' H) as (q0 & ->).
    assert (Hq : exists q, iws_rest s1 = 34 :: q).
    { destruct ls as [|l0 ls]; [|apply (VLabels_first _ _ _ HL); discriminate].
      inversion HL as [q Eq1 Eq2|]; subst. rewrite iws_rest_iws by exact Hi0. rewrite iws_rest_stop by lia. eauto. }
    destruct Hq as [q Hq]. unfold old_attribute. rewrite iws_m. rewrite alt_err.
    2:{ eapply old_attribute_alt1_err; [exact Hi|]. rewrite Hq. intros [q' [=]]. }
    apply identifier_ok in Hi. rewrite alt_err.
    + rewrite wrap_iws, H2, Hi. cbn [bind]. fold old_label. rewrite (labels_halts ls s1 (i ++ 34 :: q0) HL).
      * destruct K; reflexivity.
      * rewrite iws_rest_iws by exact Hi0. rewrite iws_rest_stop by lia. exact H.
    + rewrite wrap_iws, H2, Hi. cbn [bind]. rewrite wrap_iws, Hq, opt_none by (apply char_p_neq; discriminate). cbn [bind].
      rewrite wrap_iws, iws_rest_stop by lia. rewrite map_expression_first; [reflexivity|]. rewrite ws_rest_stop by lia. discriminate.
Qed.

(** ** Stop implies met *)
Definition OldMet (n : nat) : Prop :=
  (forall s, (length s < n)%nat -> SV s = Halt -> VMeets s) /\
  (forall s, (length s < n)%nat -> MV s = Halt -> VMeetsEntries s).
Lemma VMeetsEntries_ws w s : Ws w -> VMeetsEntries s -> VMeetsEntries (w ++ s).
Proof.
  intros Hw H. destruct H as [w' s Hw' H|k v w' s s1 s2 Hw' He Hs H]; rewrite app_assoc.
  - apply VMS_here; [apply (Ws_app _ _ Hw Hw')|exact H].
  - eapply VMS_next; [apply (Ws_app _ _ Hw Hw')|exact He|exact Hs|exact H].
Qed.
Lemma vsep_met n : OldMet n -> forall k s, (length s <= k)%nat -> (length s < n)%nat ->
  VSEP s = Halt -> exists w s', Ws w /\ s = w ++ [44] ++ s' /\ VMeetsItems s'.
Proof.
  intros HM. induction k as [|k IH]; intros s Hk Hn H; rewrite vsep_unfold in H.
  - destruct s; [|cbn in Hk; lia]. cbn in H. no H.
  - destruct (simple_char c_comma (ws_rest s)) as [(s2 & c & Ec)|Ec]; rewrite Ec in H; [|no H].
    apply char_p_ok in Ec as [Ec _]. destruct (ws_split s) as (w1 & Hw1 & Es).
    pose proof (suffix_len _ _ (ws_rest_suffix s)) as Hl. rewrite Ec in Hl. cbn in Hl.
    pose proof (suffix_len _ _ (ws_rest_suffix s2)) as Hl2.
    exists w1, s2. split; [exact Hw1|]. split; [rewrite Es at 1; rewrite Ec; reflexivity|].
    destruct (ws_split s2) as (w2 & Hw2 & Es2).
    destruct (SV (ws_rest s2)) as [s3 v| |q| |] eqn:Ev; try (no H).
    + pose proof (wf_single_value U (ws_rest s2)) as Hg. rewrite Ev in Hg. cbn in Hg. apply suffix_len in Hg.
      destruct (Nat.eqb _ _); [no H|]. apply (map_res_halt K) in H.
      apply IH in H as (w3 & s' & Hw3 & -> & HI); [|lia|lia]. rewrite Es2. eapply VMI_next; [exact Hw2|exact Hw3| |exact HI].
      apply single_value_sound, Ev.
    + rewrite Es2. apply VMI_here; [exact Hw2|]. apply HM; [lia|destruct K; cbn in *; congruence].
    + rewrite Es2. apply VMI_here; [exact Hw2|]. apply HM; [lia|destruct K; cbn in *; congruence].
Qed.
Lemma vlist_met n s : OldMet n -> (length s <= n)%nat -> vlist SV s = Halt -> exists s1, s = 91 :: s1 /\ VMeetsItems s1.
Proof.
  intros HM Hn H. unfold vlist, preceded in H. apply (bind_halt K) in H as [H|(s1 & v & H1 & H)]; [destruct (simple_halt K _ _ (simple_char _) H)|].
  apply char_p_ok in H1 as [-> _]. exists s1. split; [reflexivity|]. cbn in Hn.
  unfold terminated at 1 in H. apply (bind_halt K) in H as [H|(r1 & l & _ & H)].
  2:{ apply (bind_ret_halt K) in H. unfold terminated in H.
      apply (bind_halt K) in H as [H|(r2 & o & _ & H)].
      - apply (ws_m_halt K) in H. rewrite wrap_ws in H. destruct (simple_halt K _ _ (simple_opt _ (simple_char _)) H).
      - apply (bind_ret_halt K) in H. destruct (simple_halt K _ _ (simple_char _) H). }
  apply (ws_m_halt K) in H. rewrite separated_list_eq, wrap_ws in H.
  destruct (ws_split s1) as (w & Hw & Es). pose proof (suffix_len _ _ (ws_rest_suffix s1)) as Hl.
  destruct (SV (ws_rest s1)) as [r2 v2| |q| |] eqn:Ev; try (no H).
  - destruct (Nat.eqb _ _); [no H|]. apply (map_res_halt K) in H.
    pose proof (wf_single_value U (ws_rest s1)) as Hg. rewrite Ev in Hg. cbn in Hg. apply suffix_len in Hg.
    apply (vsep_met n HM (length r2)) in H as (w2 & s' & Hw2 & -> & HI); [|lia|lia].
    rewrite Es. eapply VMI_next; [exact Hw|exact Hw2| |exact HI]. apply single_value_sound, Ev.
  - rewrite Es. apply VMI_here; [exact Hw|]. apply HM; [lia|destruct K; cbn in *; congruence].
  - rewrite Es. apply VMI_here; [exact Hw|]. apply HM; [lia|destruct K; cbn in *; congruence].
Qed.
Lemma map_expression_met n s : OldMet n -> (length s <= n)%nat -> map_expression MV s = Halt ->
  exists w s1, Ws w /\ s = w ++ [123] ++ s1 /\ VMeetsEntries s1.
Proof.
  intros HM Hn H. unfold map_expression in H. apply (bind_halt K) in H as [H|(r1 & c & H1 & H)].
  { apply (ws_m_halt K) in H. rewrite wrap_ws in H. destruct (simple_halt K _ _ (simple_char _) H). }
  rewrite ws_m, wrap_ws in H1. apply bind_ok in H1 as (s1 & c1 & H1 & H9). injection H9 as <- <-. apply char_p_ok in H1 as [H1 _].
  apply (bind_halt K) in H as [H|(r2 & l & _ & H)].
  2:{ apply (bind_ret_halt K) in H. destruct (simple_halt K _ _ (simple_char _) H). }
  apply (ws_m_halt K) in H. rewrite wrap_ws, ws_rest_idem in H.
  destruct (ws_split s) as (w & Hw & Es). pose proof (suffix_len _ _ (ws_rest_suffix s)) as Hl. rewrite H1 in Hl, Es. cbn in Hl.
  pose proof (suffix_len _ _ (ws_rest_suffix s1)) as Hl1. destruct (ws_split s1) as (w1 & Hw1 & Es1).
  exists w, s1. split; [exact Hw|]. split; [exact Es|]. rewrite Es1. apply VMeetsEntries_ws; [exact Hw1|]. apply HM; [lia|exact H].
Qed.
Lemma old_labels_met : forall k s, (length s <= k)%nat -> many0 old_label s = Halt -> exists ls i s', Iws i /\ VLabels ls s (i ++ s') /\ L s'.
Proof.
  induction k as [|k IH]; intros s Hk H; rewrite many0_eq in H by apply wf_upto_of, wf_old_label.
  - destruct s; [|cbn in Hk; lia]. cbn in H. no H.
  - pose proof (wf_old_label s) as Hg.
    assert (Hhere : old_label s = Halt -> exists ls i s', Iws i /\ VLabels ls s (i ++ s') /\ L s').
    { intros El. unfold old_label in El. rewrite wrap_iws in El. destruct (iws_rest_sound s) as (i & Hi & Es).
      exists [], i, (iws_rest s). split; [exact Hi|]. split; [rewrite <- Es; constructor|apply HLab, El]. }
    destruct (old_label s) as [r l| |q| |] eqn:El; try (no H); try (apply Hhere; destruct K; cbn in *; congruence).
    destruct (str_eqb r s) eqn:Eq; [no H|]. apply str_eqb_neq in Eq. cbn in Hg. pose proof (suffix_neq_len _ _ Hg Eq) as Hl.
    apply (map_res_halt K) in H. apply IH in H as (ls & i & s' & Hi & HL & Hs'); [|lia]. exists (l :: ls), i, s'. split; [exact Hi|]. split; [|exact Hs'].
    unfold old_label in El. rewrite wrap_iws in El. apply string_literal_ok in El as (q & Eq' & El).
    destruct (iws_rest_sound s) as (i0 & Hi0 & Es). rewrite Es, Eq'. exact (VL_cons l ls i0 q r _ Hi0 El HL).
Qed.
Lemma VLabels_iws ls w s r : Iws w -> VLabels ls s r -> ls <> [] -> VLabels ls (w ++ s) r.
Proof.
  intros Hw H Hn. destruct H as [|v ls i s s' r Hi Hc HL]; [congruence|]. rewrite app_assoc. apply (VL_cons v ls (w ++ i) s s' r); [apply Iws_app; assumption|exact Hc|exact HL].
Qed.
Lemma old_attribute_met n s : OldMet n -> (length s <= n)%nat -> old_attribute U SV MV s = Halt -> VMeetsEntry (iws_rest s).
Proof.
  intros HM Hn H. unfold old_attribute in H. apply (iws_m_halt K) in H. pose proof (suffix_len _ _ (iws_rest_suffix s)) as L0.
  apply (alt_halt K) in H as [H|[_ H]].
  { apply (bind_halt K) in H as [H|(r1 & k & H1 & H)].
    { rewrite wrap_iws in H. apply (alt_halt K) in H as [H|[_ H]]; apply (pmap_halt_inv K) in H; [destruct (simple_halt K _ _ (simple_identifier U) H)|].
      apply VME_key, HLab, H. }
    rewrite wrap_iws in H1. apply literal_key_ok in H1. pose proof (VKey_len _ _ _ _ H1) as L1.
    apply (bind_halt K) in H as [H|(r2 & c & H2 & H)]; [rewrite wrap_iws in H; destruct (simple_halt K _ _ (simple_char _) H)|].
    rewrite wrap_iws in H2. apply char_p_ok in H2 as [H2 _].
    apply (bind_ret_halt K) in H. rewrite wrap_iws in H.
    destruct (iws_rest_sound r1) as (i1 & Hi1 & E1). destruct (iws_rest_sound r2) as (i2 & Hi2 & E2).
    pose proof (suffix_len _ _ (iws_rest_suffix r1)) as L2. rewrite H2 in L2. cbn [length] in L2. pose proof (suffix_len _ _ (iws_rest_suffix r2)) as L3.
    apply HM in H; [|lia]. rewrite H2 in E1. rewrite E1, E2 in H1. exact (VME_attr U T L k i1 i2 _ _ Hi1 Hi2 H1 H). }
  apply (alt_halt K) in H as [H|[_ H]].
  - apply (bind_halt K) in H as [H|(r1 & i & H1 & H)]; [rewrite wrap_iws in H; destruct (simple_halt K _ _ (simple_identifier U) H)|].
    rewrite wrap_iws in H1. apply identifier_ok in H1. pose proof (GIdent_len _ _ _ _ H1) as L1. apply GIdent_borrowed in H1.
    apply (bind_halt K) in H as [H|(r2 & o & H2 & H)]; [rewrite wrap_iws in H; destruct (simple_halt K _ _ (simple_opt _ (simple_char _)) H)|].
    rewrite wrap_iws in H2. apply (bind_ret_halt K) in H. rewrite wrap_iws in H.
    destruct (iws_rest_sound r1) as (i1 & Hi1 & E1). destruct (iws_rest_sound r2) as (i2 & Hi2 & E2).
    pose proof (suffix_len _ _ (iws_rest_suffix r1)) as L2. pose proof (suffix_len _ _ (iws_rest_suffix r2)) as L3.
    assert (L4 : (length r2 <= length (iws_rest r1))%nat).
    { pose proof (wf_opt _ (wf_char c_eq) (iws_rest r1)) as Hg. rewrite H2 in Hg. apply suffix_len in Hg. exact Hg. }
    apply (map_expression_met n) in H as (w & s1 & Hw & E3 & HE); [|exact HM|lia].
    unfold opt in H2. destruct (simple_char c_eq (iws_rest r1)) as [(q & c & Ec)|Ec]; rewrite Ec in H2; injection H2 as <- <-.
    + apply char_p_ok in Ec as [Ec _]. rewrite Ec in E1. rewrite E1, E2 in H1.
      refine (VME_attr U T L _ i1 i2 _ _ Hi1 Hi2 (VK_ident U _ _ _ H1) _). rewrite E3. apply VM_object; assumption.
    + rewrite iws_rest_idem in E3. rewrite E1, E3, app_assoc in H1.
      exact (VME_block U T L _ [] _ _ _ s1 (Ws_app _ _ (Iws_Ws _ Hi1) Hw) H1 (VL_nil _) HE).
  - apply (bind_halt K) in H as [H|(r1 & i & H1 & H)]; [rewrite wrap_iws in H; destruct (simple_halt K _ _ (simple_identifier U) H)|].
    rewrite wrap_iws in H1. apply identifier_ok in H1. pose proof (GIdent_len _ _ _ _ H1) as L1. apply GIdent_borrowed in H1. fold old_label in H.
    apply (bind_halt K) in H as [H|(r2 & ls & H2 & H)]; [|].
    { apply (old_labels_met (length r1)) in H as (ls & i0 & s' & Hi0 & HL & Hs'); [|lia]. exact (VME_label U T L _ ls i0 _ _ s' Hi0 H1 HL Hs'). }
    apply (bind_ret_halt K) in H. rewrite wrap_iws in H.
    apply (old_labels_sound (length r1)) in H2; [|lia]. pose proof (VLabels_ends_quote _ _ _ H2) as L2.
    destruct (iws_rest_sound r2) as (i2 & Hi2 & E2). pose proof (suffix_len _ _ (iws_rest_suffix r2)) as L3.
    apply (map_expression_met n) in H as (w & s1 & Hw & E3 & HE); [|exact HM|lia].
    rewrite E2, E3, app_assoc in H2. exact (VME_block U T L _ ls _ _ _ s1 (Ws_app _ _ (Iws_Ws _ Hi2) Hw) H1 H2 HE).
Qed.
Lemma old_sep_no_panic s : old_separator s <> Halt.
Proof.
  intros H. apply (alt_halt K) in H as [H|[_ H]].
  - apply (ws_m_halt K) in H. rewrite wrap_ws in H. destruct (simple_halt K _ _ (simple_tag _) H).
  - apply (alt_halt K) in H as [H|[_ H]]; [apply (pmap_halt_inv K) in H; destruct (simple_halt K _ _ simple_newline H)|destruct s; no H].
Qed.
Lemma old_items_met n : OldMet n -> forall k s, (length s <= k)%nat -> (length s <= n)%nat ->
  many0 (old_item U) s = Halt -> VMeetsEntries s.
Proof.
  intros HM. induction k as [|k IH]; intros s Hk Hn H; rewrite many0_old_item in H.
  - destruct s; [|cbn in Hk; lia]. cbn in H. no H.
  - pose proof (wf_old_item U s) as Hg.
    assert (Hhere : old_item U s = Halt -> VMeetsEntries s); [intros El|
    destruct (old_item U s) as [r1 [k1 v1]| |q| |] eqn:El; try (no H); try (apply Hhere; destruct K; cbn in *; congruence)].
    2:{ destruct (str_eqb r1 s) eqn:Eq; [no H|]. apply str_eqb_neq in Eq.
      cbn in Hg. pose proof (suffix_neq_len _ _ Hg Eq) as Hl. apply (map_res_halt K) in H.
      apply (old_item_sound U n) in El; [|apply old_sound|exact Hn].
      destruct El as (w & s0 & s1 & s2 & w2 & -> & Hw & He & Hs & Hw2 & ->).
      eapply VMS_next; [exact Hw|exact He|exact Hs|]. apply VMeetsEntries_ws; [exact Hw2|]. apply IH; [lia|lia|exact H]. }
    unfold old_item in El. rewrite wrap_ws in El. destruct (ws_rest_sound s) as (w & Hw & Es). pose proof (suffix_len _ _ (ws_rest_suffix s)) as Hl.
      unfold terminated in El. apply (bind_halt K) in El as [El|(r1 & kv & _ & El)].
    * apply (old_attribute_met n) in El; [|exact HM|lia]. rewrite iws_ws_rest in El. rewrite Es. apply VMS_here; assumption.
    * apply (bind_ret_halt K) in El. destruct (old_sep_no_panic _ El).
Qed.
Lemma old_met n : OldMet n.
Proof.
  induction n as [|n IH]; [split; intros s H; lia|]. split; intros s Hs H.
  - rewrite single_value_eq in H. unfold single_value_step in H.
    apply (alt_halt K) in H as [H|[_ H]]; [apply (pmap_halt_inv K) in H; destruct (simple_halt K null _ (simple_pmap _ _ (simple_tag _)) H)|].
    apply (alt_halt K) in H as [H|[_ H]]; [destruct (simple_halt K _ _ simple_literal_number H)|].
    apply (alt_halt K) in H as [H|[_ H]]; [apply (pmap_halt_inv K) in H; destruct (simple_halt K boolean _ (simple_alt _ _ (simple_pmap _ _ (simple_tag _)) (simple_pmap _ _ (simple_tag _))) H)|].
    apply (alt_halt K) in H as [H|[_ H]].
    { apply (pmap_halt_inv K) in H. apply VM_here, HT, H. }
    apply (alt_halt K) in H as [H|[_ H]]; apply (pmap_halt_inv K) in H.
    + apply (vlist_met n) in H as (s1 & -> & H); [|exact IH|lia]. apply (VM_list U T L s1), H.
    + apply (map_expression_met n) in H as (w & s1 & Hw & -> & H); [|exact IH|lia]. exact (VM_object U T L w s1 Hw H).
  - rewrite map_values_unfold in H. apply (bind_ret_halt K) in H.
    apply (old_items_met n IH (length s)); [lia|lia|exact H].
Qed.
Theorem map_values_halts s : MV s = Halt <-> VMeetsEntries s.
Proof. split; [apply (old_met (S (length s))); lia|]. intros H. apply vmeets_panics in H as [_ H]. apply H. reflexivity. Qed.
End Stop.

(** ** The two kinds *)
Theorem old_body_panics s : old_body U s = Panic <-> VMeetsHeredoc U s.
Proof.
  unfold VMeetsHeredoc. rewrite <- (map_values_halts SPanic (BadHeredoc U) (fun _ => False) (string_bad_heredoc U) no_literal_panic).
  unfold old_body, exact, terminated.
  destruct (map_values U s) as [[|c r] v| | | |]; cbn [bind eof stopped]; split; intros H; try discriminate; reflexivity.
Qed.
Theorem old_body_fails q s : old_body U s = Fail q <-> VMeetsEscape U q s.
Proof.
  unfold VMeetsEscape. rewrite <- (map_values_halts (SFail q) (BadEscape Plain q) (BadEscape PlainLine q) (string_bad_escape U q) (literal_bad q)).
  unfold old_body, exact, terminated.
  destruct (map_values U s) as [[|c r] v| | | |]; cbn [bind eof stopped]; split; intros H; try discriminate; assumption.
Qed.
End WithTables.
