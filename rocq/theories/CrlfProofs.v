(** * CrlfProofs: [crlf] on documents *)
From Verif Require Import Base Ast Lex Grammar CrlfSpec CrlfFacts.

Lemma CrExpr_refl : forall e, CrExpr e e.
Proof.
  fix IH 1. intros [ |n|b|[s|s]|l|l]; try constructor; try (constructor; apply AddCr_refl).
  - induction l as [|e l IHl]; constructor; [apply IH|exact IHl].
  - induction l as [|[[i|[t|t]] e] l IHl]; constructor; try apply IH; try exact IHl; constructor; constructor; apply AddCr_refl.
Qed.
Lemma CrElem_refl : forall el, CrElem el el.
Proof.
  fix IH 1. intros [n e|t ls b]; constructor; [apply CrExpr_refl|]. induction b as [|el b IHb]; constructor; [apply IH|exact IHb].
Qed.

Lemma FirstIs_crlf c s : c <> 10 -> FirstIs c s -> FirstIs c (crlf s).
Proof. intros Hc (s' & ->). exists (crlf s'). apply crlf_cons, Hc. Qed.

Ltac nocr := repeat match goal with
  | H : NoCr (_ ++ _) |- _ => apply NoCr_app in H as [? H]
  | H : NoCr (_ :: _) |- _ => apply NoCr_cons in H as [_ H]
  end.
(** [crlf] of punctuation *)
Lemma crlf_sng c : c <> 10 -> crlf [c] = [c].
Proof. intros H. apply (crlf_cons c []), H. Qed.
Ltac punct := rewrite ?crlf_app, ?(crlf_sng 91), ?(crlf_sng 93), ?(crlf_sng 44), ?(crlf_sng 123), ?(crlf_sng 125), ?(crlf_sng 61), ?(crlf_sng 40),
  ?(crlf_sng 41), ?(crlf_sng 34) in * by lia.

Section P.
Context (U : ucd).
Let PT (e : expr) (s r : str) := NoCr s -> NoCr r /\ exists e', CrExpr e e' /\ GTerm U e' (crlf s) (crlf r).
Let PE (e : expr) (s r : str) := NoCr s -> NoCr r /\ exists e', CrExpr e e' /\ GExpr U e' (crlf s) (crlf r).
Let PI (l : list expr) (s r : str) := NoCr s -> NoCr r /\ exists l', CrExprs l l' /\ GItems U l' (crlf s) (crlf r).
Let PM (l : list (okey * expr)) (s r : str) := NoCr s -> NoCr r /\ exists l', CrMembers l l' /\ GMembers U l' (crlf s) (crlf r).
Let PK (k : okey) (s r : str) := NoCr s -> NoCr r /\ exists k', CrKey k k' /\ GKey U k' (crlf s) (crlf r).

Lemma crlf_lit t r : NoBreak t -> crlf (t ++ r) = t ++ crlf r.
Proof. intros H. rewrite crlf_app, NoBreak_plain by exact H. reflexivity. Qed.
Lemma GTerm_app_crlf e t r e' : GTerm U e (t ++ r) r -> GTerm U e' (crlf (t ++ r)) (crlf r) -> GTerm U e' (crlf t ++ crlf r) (crlf r).
Proof. intros _. rewrite crlf_app. auto. Qed.

Lemma crlf_grammar :
  (forall e s r, GTerm U e s r -> PT e s r) /\ (forall e s r, GExpr U e s r -> PE e s r) /\
  (forall l s r, GItems U l s r -> PI l s r) /\ (forall l s r, GMembers U l s r -> PM l s r) /\ (forall k s r, GKey U k s r -> PK k s r).
Proof.
  apply (grammar_mut U (fun e s r _ => PT e s r) (fun e s r _ => PE e s r) (fun l s r _ => PI l s r) (fun l s r _ => PM l s r) (fun k s r _ => PK k s r));
    unfold PT, PE, PI, PM, PK; clear PT PE PI PM PK.
  - intros r H. apply NoCr_app in H as [_ H]. split; [exact H|]. exists ENull. split; [constructor|]. rewrite crlf_app. apply GT_null.
  - intros r H. apply NoCr_app in H as [_ H]. split; [exact H|]. exists (EBool true). split; [constructor|]. rewrite crlf_app. apply GT_true.
  - intros r H. apply NoCr_app in H as [_ H]. split; [exact H|]. exists (EBool false). split; [constructor|]. rewrite crlf_app. apply GT_false.
  - intros n t r Hn HL H. apply NoCr_app in H as [_ H]. split; [exact H|]. exists (ENumber n). split; [constructor|].
    rewrite crlf_app, (NoBreak_plain t) by (eapply NumLit_nb, Hn). apply GT_number; [exact Hn|].
    apply Longest_crlf; [|exact HL]. intros t' (n' & Hn'). eapply NumLit_nb, Hn'.
  - intros v s r HG H. cbn [app] in H. apply NoCr_cons in H as [_ H]. apply GChars_crlf in HG as (Hr & v' & Hv & HG & _); [|intros c -> _; unfold Plain; lia|exact H].
    cbn [app] in Hr. apply NoCr_cons in Hr as [_ Hr]. split; [exact Hr|]. exists (EString (Owned v')). split; [constructor; constructor; exact Hv|].
    punct. apply GT_quoted, HG.
  - intros v s r HG H. apply GHeredoc_crlf in HG as (Hr & v' & Hv & HG); [|exact H]. split; [exact Hr|]. exists (EString v'). split; [constructor; exact Hv|apply GT_heredoc, HG].
  - intros l s r _ IH H. cbn [app] in H. apply NoCr_cons in H as [_ H]. destruct (IH H) as (Hr & l' & Hl & HG). split; [exact Hr|].
    exists (ETuple l'). split; [constructor; exact Hl|]. punct. apply GT_tuple, HG.
  - intros l s r _ IH H. cbn [app] in H. apply NoCr_cons in H as [_ H]. destruct (IH H) as (Hr & l' & Hl & HG). split; [exact Hr|].
    exists (EObject l'). split; [constructor; exact Hl|]. punct. apply GT_object, HG.
  - intros e w1 w2 s r Hw1 _ IH Hw2 H. apply NoCr_app in H as [_ H]. apply NoCr_app in H as [H1 H]. destruct (IH H) as (Hr & e' & He & HG).
    apply NoCr_app in Hr as [H2 Hr]. apply NoCr_app in Hr as [_ Hr]. split; [exact Hr|]. exists e'. split; [exact He|].
    punct. apply (GT_paren U e' _ (crlf w2)); [apply Ws_crlf; assumption|exact HG|apply Ws_crlf; assumption].
  - intros e s r _ IH H. destruct (IH H) as (Hr & e' & He & HG). split; [exact Hr|]. exists e'. split; [exact He|apply GE_term, HG].
  - intros e w s r Hw HF _ IH H. apply NoCr_app in H as [H1 H]. destruct (IH H) as (Hr & e' & He & HG). split; [exact Hr|]. exists e'. split; [exact He|].
    punct. apply GE_lead; [apply Ws_crlf; assumption| |exact HG]. destruct HF; [left|right]; apply FirstIs_crlf; auto; lia.
  - intros w r Hw H. apply NoCr_app in H as [H1 H]. apply NoCr_app in H as [_ H]. split; [exact H|]. exists []. split; [constructor|].
    punct. apply GI_nil, Ws_crlf; assumption.
  - intros w1 w2 r Hw1 Hw2 H. apply NoCr_app in H as [H1 H]. apply NoCr_app in H as [_ H]. apply NoCr_app in H as [H2 H]. apply NoCr_app in H as [_ H].
    split; [exact H|]. exists []. split; [constructor|]. punct. apply GI_comma; apply Ws_crlf; assumption.
  - intros e w1 w2 s r Hw1 Hw2 _ IH H. apply NoCr_app in H as [H1 H]. destruct (IH H) as (Hr & e' & He & HG).
    apply NoCr_app in Hr as [H2 Hr]. apply NoCr_app in Hr as [_ Hr]. split; [exact Hr|]. exists [e']. split; [constructor; [exact He|constructor]|].
    punct. apply (GI_last U e' _ (crlf w2)); [apply Ws_crlf; assumption|apply Ws_crlf; assumption|exact HG].
  - intros e w1 w2 w3 s r Hw1 Hw2 Hw3 _ IH H. apply NoCr_app in H as [H1 H]. destruct (IH H) as (Hr & e' & He & HG).
    apply NoCr_app in Hr as [H2 Hr]. apply NoCr_app in Hr as [_ Hr]. apply NoCr_app in Hr as [H3 Hr]. apply NoCr_app in Hr as [_ Hr].
    split; [exact Hr|]. exists [e']. split; [constructor; [exact He|constructor]|].
    punct. apply (GI_last_comma U e' _ (crlf w2) (crlf w3)); [apply Ws_crlf; assumption..|exact HG].
  - intros e e0 l w1 w2 s s' r Hw1 Hw2 _ IHe _ IHl H. apply NoCr_app in H as [H1 H]. destruct (IHe H) as (Hr & e' & He & HG).
    apply NoCr_app in Hr as [H2 Hr]. apply NoCr_app in Hr as [_ Hr]. destruct (IHl Hr) as (Hr' & l' & Hl & HGl). split; [exact Hr'|].
    exists (e' :: l'). split; [constructor; assumption|]. inversion Hl; subst. punct.
    apply (GI_cons U _ _ _ _ (crlf w2) _ (crlf s')); [apply Ws_crlf; assumption..|exact HG|exact HGl].
  - intros w r Hw H. apply NoCr_app in H as [H1 H]. apply NoCr_app in H as [_ H]. split; [exact H|]. exists []. split; [constructor|].
    punct. apply GM_nil, Ws_crlf; assumption.
  - intros k e l w i1 i2 i3 s s' s3 s4 r Hw Hi1 Hi2 Hi3 _ IHk _ IHe Hsep _ IHl H. apply NoCr_app in H as [H1 H].
    destruct (IHk H) as (Hr & k' & Hk & HGk). apply NoCr_app in Hr as [_ Hr]. apply NoCr_app in Hr as [_ Hr]. apply NoCr_app in Hr as [_ Hr].
    destruct (IHe Hr) as (Hr2 & e' & He & HGe). apply NoCr_app in Hr2 as [_ Hr2].
    assert (NoCr s4 /\ (crlf s3 = [44] ++ crlf s4 \/ (exists n, LineEnd n /\ crlf s3 = n ++ crlf s4) \/ (crlf s3 = crlf s4 /\ FirstIs 125 (crlf s3)))) as (H4 & Hsep').
    { destruct Hsep as [->|[(n & Hn & ->)|[-> HF]]].
      - apply NoCr_app in Hr2 as [_ Hr2]. split; [exact Hr2|]. left. punct. reflexivity.
      - apply NoCr_app in Hr2 as [Hn' Hr2]. split; [exact Hr2|]. right; left. exists (crlf n). split; [apply LineEnd_crlf; assumption|apply crlf_app].
      - split; [exact Hr2|]. right; right. split; [reflexivity|apply FirstIs_crlf; [lia|exact HF]]. }
    destruct (IHl H4) as (Hr5 & l' & Hl & HGl). split; [exact Hr5|]. exists ((k', e') :: l'). split; [constructor; assumption|]. punct.
    eapply (GM_cons U k' e' l' _ (crlf i1) (crlf i2) (crlf i3) _ (crlf s') (crlf s3) (crlf s4));
      [apply Ws_crlf; assumption|apply Iws_crlf; assumption..|exact HGk|exact HGe|exact Hsep'|exact HGl].
  - intros i s r HG H. split; [eapply GIdent_suffix; eassumption|]. exists (KIdent i). split; [constructor|]. apply GK_ident, GIdent_crlf, HG.
  - intros e t r _ IH Hno H. destruct (IH H) as (Hr & e' & He & HG). split; [exact Hr|]. exists (KExpr (Borrowed (crlf t))). split; [constructor; constructor; apply AddCr_crlf|].
    rewrite crlf_app in *. apply (GK_expr U e'); [exact HG|]. intros i r' Hi. rewrite <- crlf_app in Hi. apply GIdent_crlf_inv in Hi as (r0 & Hi). exact (Hno _ _ Hi).
Qed.

Lemma GExpr_crlf e s r : GExpr U e s r -> NoCr s -> NoCr r /\ exists e', CrExpr e e' /\ GExpr U e' (crlf s) (crlf r).
Proof. apply (proj1 (proj2 crlf_grammar)). Qed.

Lemma GAttr_crlf n e s r : GAttr U n e s r -> NoCr s -> NoCr r /\ exists e', CrExpr e e' /\ GAttr U n e' (crlf s) (crlf r).
Proof.
  intros [i e0 i1 i2 s0 s' r0 H1 H2 Hi He] H. pose proof (GIdent_suffix U _ _ _ Hi H) as Hs. apply GIdent_crlf in Hi.
  apply NoCr_app in Hs as [_ Hs]. apply NoCr_app in Hs as [_ Hs]. apply NoCr_app in Hs as [_ Hs].
  apply GExpr_crlf in He as (Hr & e' & He & HG); [|exact Hs]. split; [exact Hr|]. exists e'. split; [exact He|]. punct.
  eapply GA; [apply Iws_crlf, H1|apply Iws_crlf, H2|exact Hi|exact HG].
Qed.
Lemma GLabel_crlf l s r : GLabel U l s r -> NoCr s -> NoCr r /\ GLabel U l (crlf s) (crlf r).
Proof.
  intros [i s0 r0 Hi|v s0 r0 HG] H.
  - split; [eapply GIdent_suffix; eassumption|apply GL_ident, GIdent_crlf, Hi].
  - cbn [app] in H. apply NoCr_cons in H as [_ H]. apply GChars_crlf in HG as (Hr & v' & Hv & HG & Hs); [|intros c -> (_ & _ & _ & Hc); congruence|exact H].
    rewrite Hs in HG by (intros c Hc; apply Hc). cbn [app] in Hr. apply NoCr_cons in Hr as [_ Hr]. split; [exact Hr|]. punct. apply GL_string, HG.
Qed.
Lemma GLabels_crlf ls s r : GLabels U ls s r -> NoCr s -> NoCr r /\ GLabels U ls (crlf s) (crlf r).
Proof.
  induction 1 as [i r Hi|l ls i s s' r Hi Hl _ IH]; intros H.
  - apply NoCr_app in H as [_ H]. split; [exact H|]. punct. apply GLs_nil, Iws_crlf, Hi.
  - apply NoCr_app in H as [_ H]. apply GLabel_crlf in Hl as [Hs' Hl]; [|exact H]. destruct (IH Hs') as [Hr HG]. split; [exact Hr|]. punct.
    eapply GLs_cons; [apply Iws_crlf, Hi|exact Hl|exact HG].
Qed.

Lemma crlf_bodies :
  (forall el s r, GElem U el s r -> NoCr s -> NoCr r /\ exists el', CrElem el el' /\ GElem U el' (crlf s) (crlf r)) /\
  (forall b s r, GBody U b s r -> NoCr s -> NoCr r /\ exists b', CrBody b b' /\ GBody U b' (crlf s) (crlf r)).
Proof.
  apply (body_mut U (fun el s r _ => NoCr s -> NoCr r /\ exists el', CrElem el el' /\ GElem U el' (crlf s) (crlf r))
    (fun b s r _ => NoCr s -> NoCr r /\ exists b', CrBody b b' /\ GBody U b' (crlf s) (crlf r))).
  - intros i e s r HA H. apply GAttr_crlf in HA as (Hr & e' & He & HG); [|exact H]. split; [exact Hr|]. exists (Attr i e'). split; [constructor; exact He|apply GE_attr, HG].
  - intros t ls i1 s s' r Hi1 Ht Hls H. pose proof (GIdent_suffix U _ _ _ Ht H) as Hs'. apply GIdent_crlf in Ht.
    apply GLabels_crlf in Hls as [H2 Hls]; [|exact Hs']. apply NoCr_app in H2 as [_ H2]. apply NoCr_app in H2 as [_ H2]. apply NoCr_app in H2 as [_ H2].
    split; [exact H2|]. exists (Blk t ls []). split; [constructor; constructor|]. punct. eapply GE_one_line_empty; [apply Iws_crlf, Hi1|exact Ht|exact Hls].
  - intros t ls n v i1 i2 s s' s2 r Hi1 Hi2 Ht Hls HA H. pose proof (GIdent_suffix U _ _ _ Ht H) as Hs'. apply GIdent_crlf in Ht.
    apply GLabels_crlf in Hls as [H2 Hls]; [|exact Hs']. apply NoCr_app in H2 as [_ H2]. apply NoCr_app in H2 as [_ H2].
    apply GAttr_crlf in HA as (H3 & e' & He & HG); [|exact H2]. apply NoCr_app in H3 as [_ H3]. apply NoCr_app in H3 as [_ H3].
    split; [exact H3|]. exists (Blk t ls [Attr n e']). split; [constructor; constructor; [constructor; exact He|constructor]|]. punct.
    eapply (GE_one_line U t ls n e' (crlf i1) (crlf i2)); [apply Iws_crlf, Hi1|apply Iws_crlf, Hi2|exact Ht|exact Hls|exact HG].
  - intros t ls b i1 n s s' s2 r Hi1 Hn Ht Hls _ IH H. pose proof (GIdent_suffix U _ _ _ Ht H) as Hs'. apply GIdent_crlf in Ht.
    apply GLabels_crlf in Hls as [H2 Hls]; [|exact Hs']. apply NoCr_app in H2 as [_ H2]. apply NoCr_app in H2 as [_ H2]. apply NoCr_app in H2 as [Hn' H2].
    destruct (IH H2) as (H3 & b' & Hb & HG). apply NoCr_app in H3 as [_ H3]. split; [exact H3|]. exists (Blk t ls b'). split; [constructor; exact Hb|]. punct.
    eapply (GE_block U t ls b' (crlf i1) (crlf n)); [apply Iws_crlf, Hi1|apply LineEnd_crlf; assumption|exact Ht|exact Hls|exact HG].
  - intros w r Hw H. apply NoCr_app in H as [H1 H]. split; [exact H|]. exists []. split; [constructor|]. punct. apply GB_nil, Ws_crlf; assumption.
  - intros el b w i s s1 s2 r Hw Hi _ IHe Hsep _ IHb H. apply NoCr_app in H as [H1 H]. destruct (IHe H) as (H2 & el' & Hel & HGe). apply NoCr_app in H2 as [_ H2].
    assert (NoCr s2 /\ ((exists n, LineEnd n /\ crlf s1 = n ++ crlf s2) \/ (crlf s1 = [] /\ crlf s2 = []))) as (H3 & Hsep').
    { destruct Hsep as [(n & Hn & ->)|[-> ->]]; [|split; [apply NoCr_nil|right; auto]]. apply NoCr_app in H2 as [Hn' H2]. split; [exact H2|]. left.
      exists (crlf n). split; [apply LineEnd_crlf; assumption|apply crlf_app]. }
    destruct (IHb H3) as (Hr & b' & Hb & HGb). split; [exact Hr|]. exists (el' :: b'). split; [constructor; assumption|]. punct.
    eapply (GB_cons U el' b' _ (crlf i) _ (crlf s1) (crlf s2)); [apply Ws_crlf; assumption|apply Iws_crlf, Hi|exact HGe|exact Hsep'|exact HGb].
Qed.

Lemma GConfig_crlf b s : GConfig U b s -> NoCr s -> exists b', CrBody b b' /\ GConfig U b' (crlf s).
Proof. intros H Hn. apply (proj2 crlf_bodies) in H as (_ & b' & Hb & HG); [|exact Hn]. exists b'. auto. Qed.
End P.

(** ** Trees without strings over several lines do not change *)
Lemma CrCow_plain a b : CrCow a b -> ~ In 10 (cow_str a) -> b = a.
Proof. intros [s s' H|s s' H] Hn; cbn in Hn; rewrite (AddCr_plain _ _ H Hn); reflexivity. Qed.
Scheme CrExpr_mut := Induction for CrExpr Sort Prop
with CrExprs_mut := Induction for CrExprs Sort Prop
with CrMembers_mut := Induction for CrMembers Sort Prop.
Lemma CrExpr_same e e' : CrExpr e e' -> OneLine e -> e' = e.
Proof.
  revert e e'. apply (CrExpr_mut (fun e e' _ => OneLine e -> e' = e) (fun l l' _ => (forall e, In e l -> OneLine e) -> l' = l)
    (fun l l' _ => (forall k e, In (k, e) l -> (forall t, k = KExpr t -> ~ In 10 (cow_str t)) /\ OneLine e) -> l' = l)).
  - reflexivity.
  - reflexivity.
  - reflexivity.
  - intros s s' H HO. inversion HO; subst. rewrite (CrCow_plain _ _ H); auto.
  - intros l l' _ IH HO. inversion HO; subst. rewrite IH; auto.
  - intros l l' _ IH HO. inversion HO; subst. rewrite IH; auto.
  - reflexivity.
  - intros e e' l l' _ IHe _ IHl H. rewrite IHe, IHl; [reflexivity|intros x Hx; apply H; right; exact Hx|apply H; left; reflexivity].
  - reflexivity.
  - intros k k' e e' l l' Hk _ IHe _ IHl H. rewrite IHe, IHl; [|intros x y Hx; apply H; right; exact Hx|apply (H k); left; reflexivity].
    destruct (H k e) as [H1 _]; [left; reflexivity|]. destruct Hk as [|t t' Ht]; [reflexivity|]. rewrite (CrCow_plain _ _ Ht); [reflexivity|apply H1; reflexivity].
Qed.
Scheme CrElem_mut := Induction for CrElem Sort Prop
with CrBody_mut := Induction for CrBody Sort Prop.
Definition OneLineElem (el : element) : Prop := match el with Attr _ e => OneLine e | Blk _ _ b => OneLineBody b end.
Lemma OneLineBody_elems b : OneLineBody b -> forall el, In el b -> OneLineElem el.
Proof. intros [b0 H1 H2] [n e|t ls b'] Hi; cbn; eauto. Qed.
Lemma CrBody_same b b' : CrBody b b' -> OneLineBody b -> b' = b.
Proof.
  intros H HO. pose proof (OneLineBody_elems b HO) as HE. clear HO. revert b b' H HE.
  apply (CrBody_mut (fun el el' _ => OneLineElem el -> el' = el) (fun b b' _ => (forall el, In el b -> OneLineElem el) -> b' = b)).
  - intros n e e' He H. rewrite (CrExpr_same _ _ He H). reflexivity.
  - intros t ls b b' _ IH H. rewrite IH; [reflexivity|]. apply OneLineBody_elems, H.
  - reflexivity.
  - intros el el' b b' _ IHe _ IHb H. rewrite IHe, IHb; [reflexivity|intros x Hx; apply H; right; exact Hx|apply H; left; reflexivity].
Qed.
