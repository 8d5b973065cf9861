(** * StopProofs: where the readers stop *)
From Verif Require Import Base Ast Grammar Nom NomFacts WsFacts NumFacts StrFacts HeredocFacts Lex Parser ParserFacts ExprProofs
  BodyProofs Locality DocProofs MoreProofs MeetsSpec MeetsProofs AppendProofs StopSpec.

Lemma many0_no_err {A} (p : parser A) : wf p -> forall s, many0 p s <> Err.
Proof.
  intros Hp s. remember (length s) as n eqn:En. revert s En. induction n as [n IH] using lt_wf_ind. intros s ->.
  rewrite many0_eq by apply wf_upto_of, Hp. pose proof (Hp s) as Hs. destruct (p s) as [r v| | | |]; try discriminate.
  destruct (str_eqb r s) eqn:E; [discriminate|]. apply str_eqb_neq in E. cbn in Hs.
  assert (Hl : (length r < length s)%nat).
  { destruct Hs as (w & ->). destruct w; [elim E; reflexivity|]. rewrite app_length. cbn. lia. }
  specialize (IH _ Hl r eq_refl). destruct (many0 p r); cbn; congruence.
Qed.

Section WithTables.
Context (U : ucd).
Lemma body_no_err s : body U s <> Err.
Proof.
  rewrite body_unfold. pose proof (many0_no_err (body_item U) (wf_body_item U) s) as H. destruct (many0 (body_item U) s); cbn; congruence.
Qed.
Lemma GBody_body b s r : GBody U b s r -> body U s = map_res (app b) (body U r).
Proof.
  induction 1 as [w r Hw|el b w i s s1 s2 r Hw Hi He Hsep Hb IH].
  - rewrite (body_ws_eq U (w ++ r) r) by (apply ws_rest_ws, Hw). destruct (body U r); reflexivity.
  - destruct Hsep as [(n & Hn & ->)|[-> ->]].
    + rewrite (body_cons U el w i s n s2 Hw Hi He Hn), IH. apply (map_res_app [el]).
    + apply GBody_nil_inv in Hb as Hb'; [|reflexivity]. destruct Hb' as [-> ->].
      rewrite (body_complete U (w ++ s) [] [el]); [reflexivity| |left; reflexivity].
      econstructor; [exact Hw|exact Hi|exact He|right; split; reflexivity|apply (GB_nil U []); constructor].
Qed.
Lemma body_sub s r b : body U s = Ok r b -> suffix r s.
Proof. intros H. pose proof (wf_body U s) as Hg. rewrite H in Hg. exact Hg. Qed.
Lemma suffix_same (r s : str) : suffix r s -> (length s <= length r)%nat -> r = s.
Proof. intros (w & ->) H. rewrite app_length in H. destruct w; [reflexivity|cbn in H; lia]. Qed.
Lemma GBody_app b1 b2 s r q : GBody U b1 s r -> GBody U b2 r q -> GBody U (b1 ++ b2) s q.
Proof.
  intros H. revert b2 q. induction H as [w r Hw|el b w i s s1 s2 r Hw Hi He Hsep Hb IH]; intros b2 q H2.
  - cbn [app]. destruct H2 as [w' r' Hw'|el b w' i s s1 s2 r' Hw' Hi He Hsep Hb'].
    + rewrite app_assoc. constructor. apply Ws_app; assumption.
    + rewrite app_assoc. eapply GB_cons; [apply Ws_app; assumption|eassumption..].
  - cbn [app]. eapply GB_cons; [exact Hw|exact Hi|exact He|exact Hsep|apply IH, H2].
Qed.
Lemma body_rest_stops s r b : body U s = Ok r b -> r <> [] -> StopsAt U s r.
Proof.
  intros H Hr. split; [exact Hr|]. split; [exists b; apply body_sound, H|]. intros b' r' HG.
  apply GBody_body in HG. rewrite H in HG. destruct (body U r') as [r2 b2| | | |] eqn:E; try discriminate.
  injection HG as -> _. apply (body_sub _ _ _ E).
Qed.
(** In a text that stops there and does not stop for good, the reader gets exactly to that
    place. *)
Lemma stops_body s r : StopsAt U s r -> body U s <> Panic -> (forall p, body U s <> Fail p) -> exists b, body U s = Ok r b.
Proof.
  intros (Hr & (b & Hb) & Hmin) HP HF.
  pose proof (body_no_err s) as HE. pose proof (body_no_fuel U s) as HO.
  destruct (body U s) as [r2 b2| |p| |] eqn:Es; try congruence.
  exists b2. f_equal. pose proof (GBody_body _ _ _ Hb) as E. rewrite Es in E. destruct (body U r) as [r3 b3| | | |] eqn:Er; try discriminate.
  injection E as -> _. apply suffix_same; [eapply body_sub, Er|]. apply suffix_len, (Hmin b2). apply body_sound, Es.
Qed.
Lemma stops_facts s r : StopsAt U s r -> ~ ElementLine U r /\ (forall w q, r = w ++ q -> Ws w -> w = []).
Proof.
  intros (Hr & (b & Hb) & Hmin). split.
  - intros (el & i & s1 & He & Hi & Hs).
    assert (Hl : (length (i ++ s1) < length r)%nat) by apply (proj1 (body_complete_mut U) _ _ _ He). rewrite app_length in Hl.
    destruct Hs as [->|(n & s2 & Hn & ->)].
    + assert (HG : GBody U (b ++ [el]) s []).
      { eapply GBody_app; [exact Hb|]. apply (GB_cons U el [] [] i r [] [] []); [constructor|exact Hi|exact He|right; split; reflexivity|apply (GB_nil U []); constructor]. }
      apply Hmin in HG as (w & HG). symmetry in HG. apply app_eq_nil in HG as [_ HG]. congruence.
    + assert (HG : GBody U (b ++ [el]) s s2).
      { eapply GBody_app; [exact Hb|]. apply (GB_cons U el [] [] i r (n ++ s2) s2 s2); [constructor|exact Hi|exact He|left; eauto|apply (GB_nil U []); constructor]. }
      apply Hmin in HG as (w & ->). rewrite !app_length in Hl. lia.
  - intros w q -> Hw. assert (HG : GBody U (b ++ []) s q) by (eapply GBody_app; [exact Hb|constructor; exact Hw]).
    apply Hmin in HG as (w' & HG). apply (f_equal (@length char)) in HG. rewrite !app_length in HG. destruct w; [reflexivity|cbn in HG; lia].
Qed.
End WithTables.
