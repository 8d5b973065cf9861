(** * VCrlfProofs: [crlf] on texts that [value::from_str] reads *)
From Coq Require Import ZArith.
From Verif Require Import Base Ast Lex Grammar NumConv NumSpec Kvp Value OldGrammar CrlfSpec CrlfFacts CrlfProofs.
Close Scope Z_scope.
Open Scope N_scope.
Open Scope list_scope.

Lemma VSep_crlf s r : VSep s r -> NoCr s -> NoCr r /\ VSep (crlf s) (crlf r).
Proof.
  intros [w s' Hw|i n s' Hi Hn|i Hi] H.
  - apply NoCr_app in H as [H1 H]. apply NoCr_app in H as [_ H]. split; [exact H|]. punct. apply VS_comma, Ws_crlf; assumption.
  - apply NoCr_app in H as [H1 H]. apply NoCr_app in H as [H2 H]. split; [exact H|]. punct. apply VS_line; [apply Iws_crlf, Hi|apply LineEnd_crlf; assumption].
  - split; [apply NoCr_nil|]. apply VS_end, Iws_crlf, Hi.
Qed.
Lemma GChars_line_crlf v s r : GChars PlainLine v s r -> NoCr s -> NoCr r /\ GChars PlainLine v (crlf s) (crlf r).
Proof.
  intros HG H. apply GChars_crlf in HG as (Hr & v' & Hv & HG & Hs); [|intros c -> (_ & _ & _ & Hc); congruence|exact H].
  rewrite Hs in HG by (intros c Hc; apply Hc). auto.
Qed.
Lemma VLabels_crlf ls s r : VLabels ls s r -> NoCr s -> NoCr r /\ VLabels ls (crlf s) (crlf r).
Proof.
  induction 1 as [r|v ls i s s' r Hi HG _ IH]; intros H; [split; [exact H|constructor]|].
  apply NoCr_app in H as [_ H]. apply NoCr_app in H as [_ H]. apply GChars_line_crlf in HG as [H2 HG]; [|exact H].
  apply NoCr_app in H2 as [_ H2]. destruct (IH H2) as [Hr HL]. split; [exact Hr|]. punct. eapply VL_cons; [apply Iws_crlf, Hi|exact HG|exact HL].
Qed.

Section P.
Context (U : ucd).
Lemma VKey_crlf k s r : VKey U k s r -> NoCr s -> NoCr r /\ VKey U k (crlf s) (crlf r).
Proof.
  intros [t s0 r0 Hi|v s0 r0 HG] H.
  - split; [eapply GIdent_suffix; eassumption|apply VK_ident, GIdent_crlf, Hi].
  - apply NoCr_app in H as [_ H]. apply GChars_line_crlf in HG as [H2 HG]; [|exact H]. apply NoCr_app in H2 as [_ H2]. split; [exact H2|]. punct. apply VK_string, HG.
Qed.
Lemma CrCow_str a b : CrCow a b -> AddCr (cow_str a) (cow_str b).
Proof. intros [s s' H|s s' H]; exact H. Qed.

Let PT (v : Value.value) (s r : str) := NoCr s -> NoCr r /\ exists v', CrValue v v' /\ VTerm U v' (crlf s) (crlf r).
Let PI (l : list Value.value) (s r : str) := NoCr s -> NoCr r /\ exists l', Forall2 CrValue l l' /\ VItems U l' (crlf s) (crlf r).
Let PN (l : list (key * Value.value)) (s r : str) := NoCr s -> NoCr r /\ exists l', CrEntries l l' /\ VEntries U l' (crlf s) (crlf r).
Let PY (k : key) (v : Value.value) (s r : str) := NoCr s -> NoCr r /\ exists v', CrValue v v' /\ VEntry U k v' (crlf s) (crlf r).
Lemma crlf_values :
  (forall v s r, VTerm U v s r -> PT v s r) /\ (forall l s r, VItems U l s r -> PI l s r) /\
  (forall l s r, VEntries U l s r -> PN l s r) /\ (forall k v s r, VEntry U k v s r -> PY k v s r).
Proof.
  apply (old_mut U (fun v s r _ => PT v s r) (fun l s r _ => PI l s r) (fun l s r _ => PN l s r) (fun k v s r _ => PY k v s r));
    unfold PT, PI, PN, PY; clear PT PI PN PY.
  - intros r H. apply NoCr_app in H as [_ H]. split; [exact H|]. exists VNull. split; [constructor|]. rewrite crlf_app. apply VT_null.
  - intros r H. apply NoCr_app in H as [_ H]. split; [exact H|]. exists (VBoolean true). split; [constructor|]. rewrite crlf_app. apply VT_true.
  - intros r H. apply NoCr_app in H as [_ H]. split; [exact H|]. exists (VBoolean false). split; [constructor|]. rewrite crlf_app. apply VT_false.
  - intros n t v r Hn HL Hv H. apply NoCr_app in H as [_ H]. split; [exact H|]. exists v. split; [constructor|].
    rewrite crlf_app, (NoBreak_plain t) by (eapply NumLit_nb, Hn). eapply VT_number; [exact Hn| |exact Hv].
    apply Longest_crlf; [|exact HL]. intros t' (n' & Hn'). eapply NumLit_nb, Hn'.
  - intros v s r HG H. cbn [app] in H. apply NoCr_cons in H as [_ H]. apply GChars_crlf in HG as (Hr & v' & Hv & HG & _); [|intros c -> _; unfold Plain; lia|exact H].
    apply NoCr_app in Hr as [_ Hr]. split; [exact Hr|]. exists (VString v'). split; [apply CV_string; exact Hv|]. punct. apply VT_quoted, HG.
  - intros c s r HG H. apply GHeredoc_crlf in HG as (Hr & v' & Hv & HG); [|exact H]. split; [exact Hr|]. exists (VString (cow_str v')).
    split; [apply CV_string, CrCow_str, Hv|apply VT_heredoc, HG].
  - intros l s r _ IH H. apply NoCr_app in H as [_ H]. destruct (IH H) as (Hr & l' & Hl & HG). split; [exact Hr|].
    exists (VList l'). split; [apply CV_list, Hl|]. punct. apply VT_list, HG.
  - intros l w s r Hw _ IH H. apply NoCr_app in H as [H1 H]. apply NoCr_app in H as [_ H]. destruct (IH H) as (Hr & l' & Hl & HG).
    apply NoCr_app in Hr as [_ Hr]. split; [exact Hr|]. exists (VObject [Unmerged l']). split; [apply CV_object, Hl|]. punct.
    apply VT_object; [apply Ws_crlf; assumption|exact HG].
  - intros w r Hw H. apply NoCr_app in H as [H1 H]. apply NoCr_app in H as [_ H]. split; [exact H|]. exists []. split; [constructor|]. punct.
    apply VI_nil, Ws_crlf; assumption.
  - intros w1 w2 r Hw1 Hw2 H. apply NoCr_app in H as [H1 H]. apply NoCr_app in H as [_ H]. apply NoCr_app in H as [H2 H]. apply NoCr_app in H as [_ H].
    split; [exact H|]. exists []. split; [constructor|]. punct. apply VI_comma; apply Ws_crlf; assumption.
  - intros v w1 w2 s r Hw1 Hw2 _ IH H. apply NoCr_app in H as [H1 H]. destruct (IH H) as (Hr & v' & Hv & HG).
    apply NoCr_app in Hr as [H2 Hr]. apply NoCr_app in Hr as [_ Hr]. split; [exact Hr|]. exists [v']. split; [constructor; [exact Hv|constructor]|]. punct.
    apply (VI_last U v' _ (crlf w2)); [apply Ws_crlf; assumption..|exact HG].
  - intros v w1 w2 w3 s r Hw1 Hw2 Hw3 _ IH H. apply NoCr_app in H as [H1 H]. destruct (IH H) as (Hr & v' & Hv & HG).
    apply NoCr_app in Hr as [H2 Hr]. apply NoCr_app in Hr as [_ Hr]. apply NoCr_app in Hr as [H3 Hr]. apply NoCr_app in Hr as [_ Hr].
    split; [exact Hr|]. exists [v']. split; [constructor; [exact Hv|constructor]|]. punct.
    apply (VI_last_comma U v' _ (crlf w2) (crlf w3)); [apply Ws_crlf; assumption..|exact HG].
  - intros v v0 l w1 w2 s s' r Hw1 Hw2 _ IHv _ IHl H. apply NoCr_app in H as [H1 H]. destruct (IHv H) as (Hr & v' & Hv & HG).
    apply NoCr_app in Hr as [H2 Hr]. apply NoCr_app in Hr as [_ Hr]. destruct (IHl Hr) as (Hr' & l' & Hl & HGl). split; [exact Hr'|].
    exists (v' :: l'). split; [constructor; assumption|]. inversion Hl; subst. punct.
    apply (VI_cons U _ _ _ _ (crlf w2) _ (crlf s')); [apply Ws_crlf; assumption..|exact HG|exact HGl].
  - intros w r Hw H. apply NoCr_app in H as [H1 H]. split; [exact H|]. exists []. split; [constructor|]. punct. apply VE_nil, Ws_crlf; assumption.
  - intros k v l w s s1 s2 r Hw _ IHe Hsep _ IHl H. apply NoCr_app in H as [H1 H]. destruct (IHe H) as (H2 & v' & Hv & HGe).
    apply VSep_crlf in Hsep as [H3 Hsep]; [|exact H2]. destruct (IHl H3) as (Hr & l' & Hl & HGl). split; [exact Hr|].
    exists ((k, v') :: l'). split; [constructor; assumption|]. punct. eapply VE_cons; [apply Ws_crlf; assumption|exact HGe|exact Hsep|exact HGl].
  - intros k v i1 i2 s s' r Hi1 Hi2 Hk _ IH H. apply VKey_crlf in Hk as [H2 Hk]; [|exact H].
    apply NoCr_app in H2 as [_ H2]. apply NoCr_app in H2 as [_ H2]. apply NoCr_app in H2 as [_ H2]. destruct (IH H2) as (Hr & v' & Hv & HG).
    split; [exact Hr|]. exists v'. split; [exact Hv|]. punct. eapply VE_attr; [apply Iws_crlf, Hi1|apply Iws_crlf, Hi2|exact Hk|exact HG].
  - intros t l w s s' r Hw Ht _ IH H. pose proof (GIdent_suffix U _ _ _ Ht H) as H2. apply GIdent_crlf in Ht. apply NoCr_app in H2 as [Hw' H2]. apply NoCr_app in H2 as [_ H2].
    destruct (IH H2) as (Hr & l' & Hl & HG). apply NoCr_app in Hr as [_ Hr]. split; [exact Hr|]. exists (VObject [Unmerged l']). split; [apply CV_object, Hl|]. punct.
    eapply (VE_object U t l' (crlf w)); [apply Ws_crlf; assumption|exact Ht|exact HG].
  - intros t ls l w s s1 s' r Hw Hne Ht Hls _ IH H. pose proof (GIdent_suffix U _ _ _ Ht H) as H2. apply GIdent_crlf in Ht.
    apply VLabels_crlf in Hls as [H3 Hls]; [|exact H2]. apply NoCr_app in H3 as [Hw' H3]. apply NoCr_app in H3 as [_ H3].
    destruct (IH H3) as (Hr & l' & Hl & HG). apply NoCr_app in Hr as [_ Hr]. split; [exact Hr|]. exists (VBlock (Unmerged [(ls, Unmerged l')])).
    split; [apply CV_block, Hl|]. punct. eapply (VE_block U t ls l' (crlf w)); [apply Ws_crlf; assumption|exact Hne|exact Ht|exact Hls|exact HG].
Qed.
Lemma VDoc_crlf l s : VDoc U l s -> NoCr s -> exists l', CrEntries l l' /\ VDoc U l' (crlf s).
Proof. intros H Hn. destruct (proj1 (proj2 (proj2 crlf_values)) l s [] H Hn) as (_ & l' & Hl & HG). exists l'. auto. Qed.
End P.
