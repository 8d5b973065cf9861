(** * CutProofs: documents that were cut short *)
From Verif Require Import Base Ast Grammar Nom NomFacts WsFacts NumFacts StrFacts HeredocFacts Lex Parser ParserFacts ExprProofs
  BodyProofs Locality DocProofs MoreProofs PropSyntax AppendProofs CutSpec.

Section WithTables.
Context (U : ucd).

(** An expression at the end of the text is a number or goes on to be read whatever follows. *)
Lemma expr_at_end e s : GExpr U e s [] -> (exists n, e = ENumber n /\ NumLit n s) \/ (forall q, GExpr U e (s ++ q) q).
Proof.
  assert (HT : forall e s r, GTerm U e s r -> r = [] -> (exists n, e = ENumber n /\ NumLit n s) \/ (forall q, GTerm U e (s ++ q) q)).
  { intros e0 s0 r0 [r|r|r|n t r Hn Hl|v s1 r Hc|v s1 r Hh|l s1 r Hi|l s1 r Hm|e1 w1 w2 s1 r Hw1 He Hw2] ->.
    - right. intros q. rewrite app_nil_r. constructor.
    - right. intros q. rewrite app_nil_r. constructor.
    - right. intros q. rewrite app_nil_r. constructor.
    - left. exists n. rewrite app_nil_r. auto.
    - right. intros q. destruct (GChars_replace _ _ _ _ q Hc) as (t & -> & H'). rewrite <- !app_assoc. constructor. rewrite <- ?app_assoc. exact H'.
    - apply GHeredoc_EolAt in Hh. destruct Hh as (x & r' & [|] & E); discriminate.
    - right. intros q. destruct (GItems_replace U _ _ _ Hi) as (t & -> & _ & H'). rewrite app_nil_r, <- app_assoc. constructor. apply H'.
    - right. intros q. destruct (GMembers_replace U _ _ _ Hm) as (t & -> & _ & H'). rewrite app_nil_r, <- app_assoc. constructor. apply H'.
    - right. intros q. destruct (GExpr_replace U _ _ _ He) as (t & -> & _ & H'). rewrite <- !app_assoc. eapply GT_paren; [exact Hw1| |exact Hw2].
      rewrite <- ?app_assoc. cbn [app]. apply H'; [apply Delim_ws; [exact Hw2|reflexivity]|]. apply EolAt_mid. lia. }
  intros H. inversion H as [e0 s0 r0 Ht|e0 w s0 r0 Hw Hf Ht]; subst.
  - destruct (HT _ _ _ Ht eq_refl) as [Hn|Hq]; [left; exact Hn|right; intros q; apply GE_term, Hq].
  - destruct (HT _ _ _ Ht eq_refl) as [(n & -> & Hn)|Hq].
    + exfalso. apply NumLit_first in Hn as (c & t' & -> & Hc). destruct Hf as [[s' E]|[s' E]]; injection E as -> _; revert Hc; cbn; intuition discriminate.
    + right. intros q. rewrite <- app_assoc. apply GE_lead; [exact Hw| |apply Hq].
      assert (s0 <> []) as Hne by (destruct Hf as [[s' ->]|[s' ->]]; discriminate).
      rewrite <- (app_nil_r s0) in Hf. destruct Hf as [Hf|Hf]; [left|right]; eapply FirstIs_app; eassumption.
Qed.

(** A block at the end of the text is read the same whatever follows; so is an attribute, unless its value is a number. *)
Lemma elem_at_end el s r : GElem U el s r -> r = [] ->
  (exists i n i1 i2 ti t, el = Attr i (ENumber n) /\ s = ti ++ i1 ++ [61] ++ i2 ++ t /\ Iws i1 /\ Iws i2 /\ NumLit n t /\
     forall q, GIdent U i (ti ++ i1 ++ [61] ++ i2 ++ t ++ q) (i1 ++ [61] ++ i2 ++ t ++ q)) \/
  (forall q, GElem U el (s ++ q) q).
Proof.
  intros [i e s0 r0 Ha|t ls i1 s0 s' r0 Hi1 Ht HL|t ls n v i1 i2 s0 s' s2 r0 Hi1 Hi2 Ht HL Ha|t ls b i1 n s0 s' s2 r0 Hi1 Hn Ht HL HB] ->.
  - inversion Ha as [i' e' i1 i2 s1 s' r1 Hi1 Hi2 Hi He]; subst. apply GIdent_replace in Hi as (ti & -> & Hti & Hi).
    assert (Hq : forall q, Delim (i1 ++ [61] ++ q)) by (intros q; apply Delim_iws; [exact Hi1|reflexivity]).
    destruct (expr_at_end _ _ He) as [(n & -> & Hn)|HE].
    + left. exists i, n, i1, i2, ti, s'. split; [reflexivity|]. split; [reflexivity|]. split; [exact Hi1|]. split; [exact Hi2|]. split; [exact Hn|].
      intros q. apply Hi, Hq.
    + right. intros q. constructor. rewrite <- !app_assoc. eapply (GA U _ _ i1 i2); [exact Hi1|exact Hi2|apply Hi, Hq|apply HE].
  - right. intros q. destruct (GIdentLabels_replace U _ _ _ _ _ Ht HL) as (ti & tl & -> & Hti & H).
    destruct (H (i1 ++ 125 :: q)) as [H1 H2]. cbn [app] in *. rewrite <- !app_assoc. cbn [app]. rewrite <- !app_assoc. eapply GE_one_line_empty; [exact Hi1|exact H1|exact H2].
  - right. intros q. destruct (GIdentLabels_replace U _ _ _ _ _ Ht HL) as (ti & tl & -> & Hti & H).
    apply GAttr_replace in Ha as (ta & -> & Hta & Ha). destruct (H (i1 ++ ta ++ i2 ++ 125 :: q)) as [H1 H2].
    rewrite <- !app_assoc. cbn [app]. rewrite <- !app_assoc. eapply (GE_one_line U _ _ _ _ i1 i2); [exact Hi1|exact Hi2|exact H1|exact H2|].
    apply Ha; [apply Delim_iws; [exact Hi2|reflexivity]|apply EolAt_mid; lia].
  - right. intros q. destruct (GIdentLabels_replace U _ _ _ _ _ Ht HL) as (ti & tl & -> & Hti & H).
    destruct (proj2 (body_replace U) _ _ _ HB (ex_intro _ [] eq_refl)) as (tb & -> & HB').
    destruct (H (i1 ++ n ++ tb ++ 125 :: q)) as [H1 H2].
    rewrite <- !app_assoc. cbn [app]. rewrite <- !app_assoc. eapply (GE_block U _ _ _ i1 n); [exact Hi1|exact Hn|exact H1|exact H2|]. apply HB'. eexists; reflexivity.
Qed.

Lemma GElem_det el s r el' r' : GElem U el s r -> GElem U el' s r' -> el = el' /\ iws_rest r = iws_rest r'.
Proof.
  intros H H'. destruct (proj1 (body_complete_mut U) _ _ _ H) as (_ & _ & E). destruct (proj1 (body_complete_mut U) _ _ _ H') as (_ & _ & E').
  rewrite E in E'. injection E' as Er ->. auto.
Qed.
Lemma GElem_ws el s r : GElem U el s r -> ws_rest s = s /\ s <> [].
Proof. intros H. destruct (proj1 (body_complete_mut U) _ _ _ H) as (Hl & E & _). split; [exact E|]. intros ->. cbn in Hl. lia. Qed.

(** The first element of a document *)
Lemma first_some w s b : Ws w -> ws_rest s = s -> s <> [] -> GConfig U b (w ++ s) ->
  exists el b2 i s1 s2, b = el :: b2 /\ GElem U el s (i ++ s1) /\ Iws i /\ ((exists n, LineEnd n /\ s1 = n ++ s2) \/ (s1 = [] /\ s2 = [])) /\ GConfig U b2 s2.
Proof.
  intros Hw Es Hne HB. unfold GConfig in HB. remember (w ++ s) as x eqn:E. remember [] as z eqn:Ez in HB.
  destruct HB as [w' r' Hw'|el' b' w' i s' s1 s2 r' Hw' Hi He' Hsep Hb]; subst.
  - exfalso. rewrite app_nil_r in E. subst w'. pose proof (ws_rest_ws w s Hw) as H1. pose proof (ws_rest_ws _ [] Hw') as H2. rewrite app_nil_r in H2. rewrite H2, Es in H1. cbn in H1. congruence.
  - destruct (GElem_ws _ _ _ He') as [Es' _]. assert (s' = s).
    { pose proof (ws_rest_ws w s Hw) as H1. pose proof (ws_rest_ws _ s' Hw') as H2. rewrite E in H2. congruence. }
    subst s'. exists el', b', i, s1, s2. auto.
Qed.
Lemma first_elem el w s r b : Ws w -> GElem U el s r -> GConfig U b (w ++ s) -> exists b2, b = el :: b2.
Proof.
  intros Hw He HB. destruct (GElem_ws _ _ _ He) as [Es Hne]. destruct (first_some _ _ _ Hw Es Hne HB) as (el' & b2 & i & s1 & s2 & -> & He' & _).
  destruct (GElem_det _ _ _ _ _ He He') as [<- _]. eauto.
Qed.

Lemma GIdent_det i s r i' r' : GIdent U i s r -> GIdent U i' s r' -> i = i' /\ r = r'.
Proof. intros H H'. apply identifier_ok in H. apply identifier_ok in H'. rewrite H in H'. injection H' as -> ->. auto. Qed.
(** A term that begins with a number is a number that begins with it. *)
Lemma number_term n t q e r0 : NumLit n t -> GTerm U e (t ++ q) r0 -> exists n' u, e = ENumber n' /\ NumLit n' (t ++ u) /\ t ++ q = (t ++ u) ++ r0.
Proof.
  intros Hn Ht. destruct (NumLit_first _ _ Hn) as (c & t1 & Et & Hc). unfold is_dec_digit in Hc.
  remember (t ++ q) as x eqn:Ex. assert (Ec : exists y, x = c :: y) by (rewrite Ex, Et; eexists; reflexivity). destruct Ec as [y Ec].
  destruct Ht as [r|r|r|n' t' r Hn' Hl'|v s0 r Hv|v s0 r Hh|l s0 r HI|l s0 r HM|e0 w1 w2 s0 r Hw1 He0 Hw2]; try (injection Ec as Ec _; lia).
  - destruct Hl' as [_ HL]. assert (Hle : (length t <= length t')%nat) by (eapply HL; [exact Ex|exists n; exact Hn]).
    destruct (app_prefix_le t q t' r) as (u & -> & _); [symmetry; exact Ex|exact Hle|]. exists n', u. auto.
  - exfalso. assert (Hs : exists s', s0 = 60 :: s') by (destruct Hh; eexists; reflexivity). destruct Hs as [s' Es]. rewrite Es in Ec. injection Ec as Ec _. lia.
Qed.
(** An attribute with a number: what it is with more text after it *)
Lemma number_goes_on i n w ti i1 i2 t q b : Ws w -> Iws i1 -> Iws i2 -> NumLit n t -> GIdent U i (ti ++ i1 ++ [61] ++ i2 ++ t ++ q) (i1 ++ [61] ++ i2 ++ t ++ q) ->
  GConfig U b (w ++ ti ++ i1 ++ [61] ++ i2 ++ t ++ q) -> exists n' u b2, b = Attr i (ENumber n') :: b2 /\ NumLit n' (t ++ u).
Proof.
  intros Hw Hi1 Hi2 Hn Hi HB. destruct (GIdent_ws _ _ _ _ Hi) as [Es _].
  assert (Hne : ti ++ i1 ++ [61] ++ i2 ++ t ++ q <> []) by (intros E; apply GIdent_len in Hi; rewrite E in Hi; cbn in Hi; lia).
  destruct (first_some _ _ _ Hw Es Hne HB) as (el & b2 & i3 & s1 & s2 & -> & He & _).
  remember (ti ++ i1 ++ [61] ++ i2 ++ t ++ q) as S eqn:ES.
  assert (Hno : forall ls s' r, GIdent U i S s' -> GLabels U ls s' (123 :: r) -> False).
  { intros ls s' r H1 H2. destruct (GIdent_det _ _ _ _ _ Hi H1) as [_ <-]. apply (labels_not_eq U _ _ _ H2); [eexists; reflexivity|].
    rewrite iws_rest_iws by exact Hi1. cbn [app]. rewrite iws_rest_stop by lia. eexists; reflexivity. }
  destruct He as [i' e s0 r0 Ha|t' ls i4 s0 s' r0 Hi4 Ht HL|t' ls n' v i4 i5 s0 s' s3 r0 Hi4 Hi5 Ht HL Ha|t' ls b' i4 n' s0 s' s3 r0 Hi4 Hn' Ht HL HB'].
  - destruct Ha as [i' e' j1 j2 s0 s' r0 Hj1 Hj2 Hj He]. subst s0. destruct (GIdent_det _ _ _ _ _ Hi Hj) as [<- E].
    assert (Etq : iws_rest (t ++ q) = t ++ q /\ ws_rest (t ++ q) = t ++ q).
    { destruct (NumLit_first _ _ Hn) as (c & t1 & -> & Hc). cbn [app]. assert (ws_char c = false) as Hc'.
      { unfold ws_char, is_dec_digit in *. destruct Hc as [Hc|Hc]; lia. }
      split; [apply iws_rest_nonws|apply ws_rest_nonws]; exact Hc'. }
    assert (E2 : i2 ++ t ++ q = j2 ++ s').
    { apply (f_equal iws_rest) in E. rewrite (iws_rest_iws i1 _ Hi1), (iws_rest_iws j1 _ Hj1) in E. cbn [app] in E. rewrite !iws_rest_stop in E by lia. injection E as E. exact E. }
    assert (E3 : t ++ q = iws_rest s').
    { apply (f_equal iws_rest) in E2. rewrite (iws_rest_iws i2 _ Hi2), (iws_rest_iws j2 _ Hj2) in E2. rewrite (proj1 Etq) in E2. exact E2. }
    assert (E4 : ws_rest s' = t ++ q) by (rewrite <- ws_rest_iws_rest, <- E3; apply Etq).
    assert (Ht : GTerm U e' (t ++ q) r0).
    { destruct He as [e0 s0 r1 Ht|e0 w0 s0 r1 Hw0 Hf Ht].
      - destruct (GTerm_ws _ _ _ _ Ht) as [Ews _]. rewrite Ews in E4. rewrite <- E4. exact Ht.
      - rewrite ws_rest_ws in E4 by exact Hw0. destruct (GTerm_ws _ _ _ _ Ht) as [Ews _]. rewrite Ews in E4. rewrite <- E4. exact Ht. }
    destruct (number_term n t q e' r0 Hn Ht) as (n' & u & -> & Hn' & _). exists n', u, b2. split; [reflexivity|exact Hn'].
  - exfalso. destruct (GIdent_det _ _ _ _ _ Hi Ht) as [<- _]. eapply Hno; eassumption.
  - exfalso. destruct (GIdent_det _ _ _ _ _ Hi Ht) as [<- _]. eapply Hno; eassumption.
  - exfalso. destruct (GIdent_det _ _ _ _ _ Hi Ht) as [<- _]. eapply Hno; eassumption.
Qed.

Lemma NumLit_det n n' t : NumLit n t -> NumLit n' t -> n = n'.
Proof.
  intros H H'. apply (number_eq n t []) in H; [|apply Delim_follow; exact I]. apply (number_eq n' t []) in H'; [|apply Delim_follow; exact I].
  rewrite H in H'. injection H' as ->. reflexivity.
Qed.

(** The two cases; in the second the text ends with the number. *)
Definition CutBody (p : str) (bp b : body_t) : Prop :=
  (exists b2, b = bp ++ b2) \/
  (exists b1 i n n' b2, bp = b1 ++ [Attr i (ENumber n)] /\ b = b1 ++ Attr i (ENumber n') :: b2 /\ CutNumber n n' /\ exists x t, p = x ++ t /\ NumLit n t).

Lemma cut_body bp p r : GBody U bp p r -> r = [] -> forall q b, GConfig U b (p ++ q) -> CutBody p bp b.
Proof.
  induction 1 as [w r Hw|el b' w i s s1 s2 r Hw Hi He Hsep Hb IH]; intros -> q b HB.
  - left. exists b. reflexivity.
  - destruct (GElem_replace U _ _ _ He) as (te & -> & Hte & HR). rewrite <- !app_assoc in HB. destruct Hsep as [(n & Hn & ->)|[-> ->]].
    + assert (He' : GElem U el (te ++ i ++ n ++ s2 ++ q) (i ++ n ++ s2 ++ q)).
      { apply HR; [apply Delim_iws; [exact Hi|apply Delim_LineEnd, Hn]|apply EolAt_LineEnd, Hn]. }
      rewrite <- !app_assoc in HB. unfold GConfig in HB. apply body_complete in HB; [|left; reflexivity].
      rewrite (body_cons U el w i _ n (s2 ++ q) Hw Hi He' Hn) in HB. destruct (body U (s2 ++ q)) as [r2 b2| | | |] eqn:E2; try discriminate.
      cbn in HB. injection HB as -> <-. apply body_sound in E2. destruct (IH eq_refl _ _ E2) as [(b3 & ->)|(b1 & i' & n1 & n2 & b3 & -> & -> & Hc & x & t & -> & Ht)].
      * left. exists b3. reflexivity.
      * right. exists (el :: b1), i', n1, n2, b3. split; [reflexivity|]. split; [reflexivity|]. split; [exact Hc|].
        exists (w ++ te ++ i ++ n ++ x), t. split; [rewrite <- !app_assoc; reflexivity|exact Ht].
    + apply GBody_nil_inv in Hb as [-> _]; [|reflexivity]. cbn [app] in *. rewrite app_nil_r in *.
      destruct i as [|c i].
      * cbn [app] in *. rewrite app_nil_r in *. destruct (elem_at_end _ _ _ He eq_refl) as [(x & n & i1 & i2 & ti & t & -> & -> & Hi1 & Hi2 & Hn & HI)|Hq].
        -- rewrite <- !app_assoc in HB. destruct (number_goes_on x n w ti i1 i2 t q b Hw Hi1 Hi2 Hn (HI q) HB) as (n' & u & b2 & -> & Hn').
           destruct u as [|c u].
           ++ left. rewrite app_nil_r in Hn'. rewrite (NumLit_det _ _ _ Hn' Hn). exists b2. reflexivity.
           ++ right. exists [], x, n, n', b2. split; [reflexivity|]. split; [reflexivity|]. split.
              ** exists (c :: u). split; [discriminate|]. unfold number_text. rewrite (NumLit_input _ _ Hn), (NumLit_input _ _ Hn'). reflexivity.
              ** exists (w ++ ti ++ i1 ++ [61] ++ i2), t. split; [rewrite <- !app_assoc; reflexivity|exact Hn].
        -- left. destruct (first_elem _ _ _ _ _ Hw (Hq q) HB) as (b2 & ->). exists b2. reflexivity.
      * left. assert (He' : GElem U el (te ++ (c :: i) ++ q) ((c :: i) ++ q)).
        { apply HR; [|intros HE; apply EolAt_iws in HE; [contradiction|exact Hi]]. apply delim_app; [discriminate|].
          rewrite <- (app_nil_r (c :: i)). apply Delim_iws; [exact Hi|exact I]. }
        destruct (first_elem _ _ _ _ _ Hw He' HB) as (b2 & ->). exists b2. reflexivity.
Qed.

(** A number ends with a digit or a point. *)
Lemma NumLit_last n t : NumLit n t -> exists t' c, t = t' ++ [c] /\ (48 <= c <= 57 \/ c = 46).
Proof.
  assert (HD : forall d, d <> [] -> Digits d -> exists t' c, d = t' ++ [c] /\ 48 <= c <= 57).
  { intros d Hne Hd. destruct (exists_last Hne) as (t' & c & ->). exists t', c. split; [reflexivity|]. apply Hd, in_or_app. right. left. reflexivity. }
  intros [b sg w f m x xt Hsg Hm Hx]. destruct Hx as [|e b0 sg0 d He Hsg0 Hne Hd].
  - rewrite app_nil_r. destruct Hm as [d Hne Hd|d f0 Hne Hd Hf|f0 Hne Hf].
    + destruct (HD d Hne Hd) as (t' & c & -> & Hc). exists (sg ++ t'), c. rewrite <- app_assoc. auto.
    + destruct f0 as [|c0 f0].
      * exists (sg ++ d), 46. rewrite <- app_assoc. auto.
      * destruct (HD (c0 :: f0)) as (t' & c & -> & Hc); [discriminate|exact Hf|]. exists (sg ++ d ++ [46] ++ t'), c. rewrite <- !app_assoc. auto.
    + destruct (HD f0 Hne Hf) as (t' & c & -> & Hc). exists (sg ++ [46] ++ t'), c. rewrite <- !app_assoc. auto.
  - destruct (HD d Hne Hd) as (t' & c & -> & Hc). exists (sg ++ m ++ [e] ++ sg0 ++ t'), c. rewrite <- !app_assoc. auto.
Qed.
End WithTables.
