(** * OldStop: where the reader of [value::from_str] stops *)
From Coq Require Import ZArith.
From Verif Require Import Base Nom NomFacts Ast Lex Grammar WsFacts NumFacts StrFacts HeredocFacts Parser ParserFacts ExprProofs BodyProofs
  NumConv Kvp Value OldParser OldFacts OldGrammar OldProofs StopSpec StopProofs.
Close Scope Z_scope.

Section WithTables.
Context (U : ucd).
Local Notation SV := (single_value U).
Local Notation MV := (map_values U).
Definition add_entries (l : list (key * Value.value)) (m : mapvalues) : mapvalues :=
  match m with Unmerged l' => Unmerged (l ++ l') | Merged m' => Merged m' end.
Lemma mv_no_err s : MV s <> Err.
Proof.
  rewrite map_values_unfold. pose proof (many0_no_err (old_item U) (wf_old_item U) s) as H. destruct (many0 (old_item U) s); cbn; congruence.
Qed.
Lemma old_item_shorter x r kv : old_item U x = Ok r kv -> (length r < length (ws_rest x))%nat.
Proof.
  destruct kv as [k v]. intros H. unfold old_item in H. rewrite wrap_ws in H. unfold terminated in H.
  apply bind_ok in H as (r1 & kv & H1 & H). apply bind_ok in H as (r2 & y & H2 & H). injection H as -> ->.
  apply (old_attribute_sound U (length (ws_rest x))) in H1 as (r0 & H1 & ->); [|apply old_sound|lia]. rewrite iws_ws_rest in H1.
  apply old_complete_mut in H1 as (Hl & _). pose proof (wf_old_separator (iws_rest r0)) as Hg. rewrite H2 in Hg. apply suffix_len in Hg.
  pose proof (suffix_len _ _ (iws_rest_suffix r0)). lia.
Qed.
Lemma mv_item x : MV x = match old_item U x with
  | Ok r kv => match MV r with Ok q m => Ok q (add_entries [kv] m) | Err => Err | Fail p => Fail p | Panic => Panic | OutOfFuel => OutOfFuel end
  | Err => Ok (ws_rest x) (Unmerged []) | Fail p => Fail p | Panic => Panic | OutOfFuel => OutOfFuel end.
Proof.
  rewrite map_values_unfold, many0_eq by apply wf_upto_of, wf_old_item. destruct (old_item U x) as [r kv| | | |] eqn:E; try reflexivity.
  pose proof (old_item_shorter _ _ _ E) as Hl. pose proof (suffix_len _ _ (ws_rest_suffix x)).
  assert (Hne : str_eqb r x = false) by (apply str_eqb_neq; intros ->; lia). rewrite Hne.
  rewrite map_values_unfold. destruct (many0 (old_item U) r); reflexivity.
Qed.
Lemma mv_ws_eq x y : ws_rest x = ws_rest y -> MV x = MV y.
Proof.
  intros H. assert (HE : old_item U x = old_item U y) by (unfold old_item; rewrite !wrap_ws, H; reflexivity).
  rewrite !mv_item, HE, H. reflexivity.
Qed.
Lemma mv_le x q m : MV x = Ok q m -> suffix q (ws_rest x).
Proof.
  intros H. rewrite (mv_ws_eq x (ws_rest x)) in H by (rewrite ws_rest_idem; reflexivity).
  pose proof (wf_map_values U (ws_rest x)) as Hg. rewrite H in Hg. exact Hg.
Qed.
Lemma mv_furthest l s r' : VEntries U l s r' -> forall x q m, ws_rest x = ws_rest s -> MV x = Ok q m -> suffix q r'.
Proof.
  induction 1 as [w r Hw|k v l w s s1 s2 r Hw He Hsep Hl IH]; intros x q m Hx H.
  - apply mv_le in H. rewrite Hx, ws_rest_ws in H by exact Hw. eapply suffix_trans; [exact H|apply ws_rest_suffix].
  - apply old_complete_mut in He as (Hlen & Hs & Hn & HRe).
    rewrite ws_rest_ws, Hs in Hx by exact Hw.
    assert (Hit : forall r1 x1, old_separator (iws_rest s1) = Ok r1 x1 -> exists m', MV r1 = Ok q m').
    { intros r1 x1 E1. assert (Hit : old_item U x = Ok r1 (k, v)).
      { unfold old_item. rewrite wrap_ws, Hx. unfold terminated. rewrite HRe. cbn [bind]. rewrite E1. reflexivity. }
      rewrite mv_item, Hit in H. destruct (MV r1) as [q' m'| | | |]; try discriminate. injection H as -> _. eauto. }
    assert (HD : FirstIs 44 (ws_rest s2) \/ ~ FirstIs 44 (ws_rest s2)).
    { destruct (ws_rest s2) as [|c t]; [right; intros [q' [=]]|]. destruct (N.eq_dec c 44) as [->|Hc]; [left; eexists; reflexivity|right; intros [q' [= -> _]]; congruence]. }
    destruct HD as [[t E2]|HD].
    + assert (Hr : suffix (44 :: t) r).
      { clear IH Hit. remember s2 as s2' eqn:Es2 in Hl. destruct Hl as [w2 r Hw2|k2 v2 l2 w2 s0 s3 s4 r Hw2 He2 Hs2 _]; subst s2.
        - rewrite ws_rest_ws in E2 by exact Hw2. cbn [app] in E2. rewrite <- E2. apply ws_rest_suffix.
        - exfalso. apply old_complete_mut in He2 as (_ & Hs0 & Hn0 & _). rewrite ws_rest_ws, Hs0 in E2 by exact Hw2. apply Hn0. exists t. exact E2. }
      assert (Hs' : exists x1, old_separator (iws_rest s1) = Ok (ws_rest s2) x1 \/ old_separator (iws_rest s1) = Ok (ws_rest t) x1).
      { exists [44]. unfold old_separator. change (lit ",") with [44]. destruct Hsep as [w' s' Hw'|i n s' Hi Hl'|i Hi]; [left|right|discriminate E2].
        - apply alt_ok_l. rewrite ws_m, wrap_ws, ws_rest_iws_rest, ws_rest_ws by exact Hw'. cbn [app]. rewrite ws_rest_stop by lia. rewrite tag1_eq. reflexivity.
        - apply alt_ok_l. rewrite ws_m, wrap_ws, ws_rest_iws_rest, (ws_rest_ws i) by (apply Iws_Ws, Hi). rewrite LineEnd_ws_rest by exact Hl'. rewrite E2. cbn [app]. rewrite tag1_eq. reflexivity. }
      destruct Hs' as (x1 & [H1|H1]); destruct (Hit _ _ H1) as (m' & Hm); apply mv_le in Hm.
      * rewrite ws_rest_idem, E2 in Hm. eapply suffix_trans; eassumption.
      * rewrite ws_rest_idem in Hm. eapply suffix_trans; [exact Hm|]. eapply suffix_trans; [apply ws_rest_suffix|]. eapply suffix_trans; [|exact Hr]. exists [44]. reflexivity.
    + destruct (old_separator_complete s1 s2 Hsep HD) as (r1 & x1 & H1 & H2 & _).
      destruct (Hit _ _ H1) as (m' & Hm). exact (IH _ _ _ H2 Hm).
Qed.
Lemma VEntries_app l1 l2 s r q : VEntries U l1 s r -> VEntries U l2 r q -> VEntries U (l1 ++ l2) s q.
Proof.
  intros H. revert l2 q. induction H as [w r Hw|k v l w s s1 s2 r Hw He Hs Hl IH]; intros l2 q H2.
  - apply VEntries_ws; assumption.
  - cbn [app]. eapply VE_cons; [exact Hw|exact He|exact Hs|apply IH, H2].
Qed.
Lemma mv_rest_stops s r m : MV s = Ok r m -> r <> [] -> VStopsAt U s r.
Proof.
  intros H Hr. split; [exact Hr|]. split; [apply map_values_sound in H as (l & _ & H); eauto|]. intros l' r' HG.
  apply (mv_furthest _ _ _ HG s _ _ eq_refl H).
Qed.
Lemma stops_mv s r : VStopsAt U s r -> MV s <> Panic -> (forall p, MV s <> Fail p) -> exists m, MV s = Ok r m.
Proof.
  intros (Hr & (l & Hl) & Hmin) HP HF. pose proof (mv_no_err s) as HE. pose proof (map_values_no_fuel U s) as HO.
  destruct (MV s) as [r2 m2| |p| |] eqn:Es; try congruence.
  exists m2. f_equal. apply suffix_same; [apply (mv_furthest _ _ _ Hl s _ _ eq_refl Es)|].
  apply map_values_sound in Es as (l2 & _ & Es). apply Hmin in Es as (w & ->). rewrite app_length. lia.
Qed.
Lemma vstops_facts s r : VStopsAt U s r -> ~ EntryThen U r /\ (forall w q, r = w ++ q -> Ws w -> w = []).
Proof.
  intros (Hr & (l & Hl) & Hmin). split.
  - intros (k & v & s1 & s2 & He & Hs).
    assert (HG : VEntries U (l ++ [(k, v)]) s s2).
    { eapply VEntries_app; [exact Hl|]. apply (VE_cons U k v [] [] r s1 s2 s2); [constructor|exact He|exact Hs|apply (VE_nil U []); constructor]. }
    apply Hmin in HG as (w & HG). apply old_complete_mut in He as (Hlen & _).
    assert (length s2 <= length s1)%nat by (destruct Hs; rewrite ?app_length; cbn; lia).
    apply (f_equal (@length char)) in HG. rewrite app_length in HG. lia.
  - intros w q -> Hw. assert (HG : VEntries U (l ++ []) s q) by (eapply VEntries_app; [exact Hl|constructor; exact Hw]).
    apply Hmin in HG as (w' & HG). apply (f_equal (@length char)) in HG. rewrite !app_length in HG. destruct w; [reflexivity|cbn in HG; lia].
Qed.
End WithTables.
