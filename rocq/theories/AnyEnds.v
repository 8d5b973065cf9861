(** * AnyEnds: readings that end *)
From Coq Require Import Permutation ZArith Reals SpecFloat Lia.
From Verif Require Import Base Ast NomFacts Blocks BlockSpec NumConv NumSpec IoSpec
  Serde SerdeSpec SerdeProofs PropSerde SerdeErrSpec SerdeErrProofs PropSerdeErr SerdeExactSpec
  Grammar Parser DocProofs PropSyntax Printer Reprint DenSpec DenProofs PropDen FailSpec FailProofs PropFails
  MapAccess AnyTarget AnySpec AnyProofs AnyAlike AnyTypes AnyTypesProofs.
Local Open Scope nat_scope.
Scheme StepsT_ind2 := Minimality for StepsT Sort Prop with StepsI_ind2 := Minimality for StepsI Sort Prop.
Section Order.
Variable ord : blocks_t -> blocks_t.
Hypothesis Ho : Order ord.
Context {D : Type}.
Notation Eval := (Eval ord). Notation SE := (SE ord). Notation ME := (ME ord).
Lemma SE_size (k : nat -> sclient D) l r : SE (k (length l)) l r -> SE (SSize k) l r.
Proof.
  intros [Hr (f & E)]. split; [exact Hr|]. exists (S f). cbn [seq_loop].
  rewrite (seq_loop_mono (run ord f) (run ord (S f)) (run_mono ord f (S f) ltac:(lia)) f f _ _ (le_n _)); [exact E|congruence].
Qed.
Lemma ME_size (k : nat -> mclient D) rest held seen r : ME (k (length rest)) rest held seen r -> ME (MSize k) rest held seen r.
Proof. intros [Hr (f & E)]. split; [exact Hr|]. exists (S f). cbn [g_loop]. apply ME_more; assumption. Qed.
Lemma ME_noval c (k : outcome D -> mclient D) rest seen : ME (MVal c k) rest None seen Panicked.
Proof. split; [discriminate|]. exists 1. reflexivity. Qed.
Lemma sraws_depth s r : In r (sraws ord s) -> src_depth (rsrc r) < src_depth s.
Proof.
  assert (HB : forall b, In r (map braw (build_map_access_iter ord b)) -> src_depth (rsrc r) < body_depth b).
  { intros b H. apply in_map_iff in H as ([k v] & <- & H). assert (E : rsrc (braw (k, v)) = val_src v) by (destruct v; reflexivity). rewrite E. eapply entry_depth; [exact Ho|exact H]. }
  destruct s as [e|b|[bs|bs ls]]; cbn [sraws].
  - destruct e; try (intros []). intros H. apply in_map_iff in H as ([k e] & <- & H). assert (E : rsrc (oraw (k, e)) = SExpr e) by (destruct k; reflexivity). rewrite E. eapply expr_depth_object; exact H.
  - apply HB.
  - destruct bs as [|b [|b' bs]]; try (intros []). intros H. specialize (HB b H). cbn [src_depth flat_iter map list_max fold_right snd]. lia.
  - destruct bs as [|b [|b' bs]]; try (intros []). destruct ls; try (intros []). intros H. specialize (HB b H). cbn [src_depth flat_iter flat_map map list_max fold_right snd app]. lia.
Qed.
Section Steps.
Variable F : target D -> Prop.
Variable N : nat.
Hypothesis HF : forall c s, F c -> src_depth s < N -> exists r, Eval c s r.
Lemma seq_ends n sc : StepsS F n sc -> forall l, length l = n -> (forall s, In s l -> src_depth s < N) -> exists r, SE sc l r.
Proof.
  induction 1 as [n o|n k _ IH|c k _ IH|n c k Hc _ IH]; intros l Hl Hd.
  - exists (Done o). apply SE_ret.
  - destruct (IH l Hl Hd) as (r & Hr). exists r. apply SE_size. rewrite Hl. exact Hr.
  - destruct l; [|discriminate]. destruct (IH [] eq_refl Hd) as (r & Hr). exists r. apply SE_end, Hr.
  - destruct l as [|s l]; [discriminate|]. injection Hl as Hl. destruct (HF c s Hc (Hd s (or_introl eq_refl))) as (r & Hr). destruct r as [o| |].
    + destruct (IH o l Hl) as (r & Hr'); [intros s' Hs'; apply Hd; right; exact Hs'|]. exists r. eapply SE_item; eassumption.
    + exists Panicked. apply SE_panic, Hr.
    + destruct Hr as [Hr _]. congruence.
Qed.
Lemma map_ends n mc : StepsM F n mc -> forall rest held seen, length rest = n -> (forall r, In r rest -> src_depth (rsrc r) < N) -> (forall s, held = Some s -> src_depth s < N) -> exists r, ME mc rest held seen r.
Proof.
  induction 1 as [n o|n k _ IH|k _ IH|n k _ IH1 _ IH2|n c k Hc _ IH]; intros rest held seen Hl Hd Hh.
  - exists (Done o). apply ME_ret.
  - destruct (IH rest held seen Hl Hd Hh) as (r & Hr). exists r. apply ME_size. rewrite Hl. exact Hr.
  - destruct rest; [|discriminate]. destruct (IH [] held seen eq_refl Hd Hh) as (r & Hr). exists r. apply ME_end, Hr.
  - destruct rest as [|[[[c|] s] d] rest]; [discriminate| |exists Panicked; apply ME_none]. injection Hl as Hl.
    assert (Hd' : forall r, In r rest -> src_depth (rsrc r) < N) by (intros r Hr; apply Hd; right; exact Hr).
    destruct (seen_mem (cow_str c) seen) eqn:EM.
    + destruct d as [e|]; [|exists Panicked; apply ME_again, EM]. destruct (IH2 e rest held seen Hl Hd' Hh) as (r & Hr). exists r. apply ME_dup; assumption.
    + destruct (IH1 (cow_str c) rest (Some s) (cow_str c :: seen) Hl Hd') as (r & Hr); [|exists r; apply ME_key; assumption].
      intros s' [= <-]. exact (Hd _ (or_introl eq_refl)).
  - destruct held as [s|]; [|exists Panicked; apply ME_noval]. destruct (HF c s Hc (Hh s eq_refl)) as (r & Hr). destruct r as [o| |].
    + destruct (IH o rest None seen Hl Hd) as (r & Hr'); [discriminate|]. exists r. eapply ME_val; eassumption.
    + exists Panicked. apply ME_val_panic, Hr.
    + destruct Hr as [Hr _]. congruence.
Qed.
(* one part *)
Lemma part_ends : forall c, StepsT F c -> forall s, src_depth s <= N -> exists r, Eval c s r.
Proof.
  set (PI := fun i : inner D => forall s, src_depth s <= N -> exists r, r <> Running /\ exists f, run_inner (run ord f) i s = r).
  intros c0 H0. induction H0 as [m sc so nt sq mp _ IHo _ IHn Hq Hm|o|c k _ IH] using StepsT_ind2 with (P0 := PI).
  - intros s Hs.
    assert (HE : forall r, r <> Running -> (exists f, react ord f (Target m sc so nt sq mp) s (call ord s m) = r) -> exists r, Eval (Target m sc so nt sq mp) s r).
    { intros r Hr (f & E). exists r. split; [exact Hr|]. exists (S f). rewrite run_react. exact E. }
    pose proof (call_ok ord Ho s m) as HC.
    destruct (call ord s m) as [|b|z|x|u|u| |s'|s'|l|l|e|] eqn:EC;
      try (eapply HE; [|exists 0; reflexivity]; discriminate).
    + destruct (IHo s') as (r & Hr & E); [cbn in HC; subst s'; exact Hs|]. eapply HE; [exact Hr|]. exact E.
    + destruct (IHn s') as (r & Hr & E); [cbn in HC; subst s'; exact Hs|]. eapply HE; [exact Hr|]. exact E.
    + destruct (seq_ends (length l) sq (Hq _) l eq_refl) as (r & Hr & E); [intros s' Hs'; cbn in HC; specialize (HC s' Hs'); lia|]. eapply HE; [exact Hr|exact E].
    + destruct (map_call ord s m l EC) as [_ HL].
      destruct (map_ends (length (sraws ord s)) mp (Hm _) (sraws ord s) None [] eq_refl) as (r & Hr & (f & E)); [intros r Hr; pose proof (sraws_depth s r Hr); lia|discriminate|].
      eapply HE; [exact Hr|]. exists f. cbn [react]. rewrite HL. exact E.
  - intros s _. exists (Done o). split; [discriminate|]. exists 0. reflexivity.
  - intros s Hs. destruct (IH s Hs) as (r & Hr & (f & E)). exists (match r with Done o => Done (k o) | r => r end). split; [destruct r; congruence|]. exists f. cbn. rewrite E. destruct r; reflexivity.
Qed.
End Steps.
Theorem fair_ends (c : target D) : Fair c -> forall s, exists r, Eval c s r.
Proof.
  intros (F & Hc & HF) s. enough (H : forall N c s, F c -> src_depth s < N -> exists r, Eval c s r) by (apply (H (S (src_depth s)) c s Hc); lia).
  induction N as [|N IH]; intros c0 s0 H0 Hs; [lia|]. apply (part_ends F N IH c0 (HF _ H0)). lia.
Qed.
End Order.
