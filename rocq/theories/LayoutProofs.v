(** * LayoutProofs: the accepted documents are the filled layouts *)
From Verif Require Import Base Nom NomFacts Ast Lex Grammar WsFacts NumFacts StrFacts HeredocFacts
  Parser ParserFacts ExprProofs BodyProofs Locality DocProofs LayoutSpec.

(** ** Filling *)
Lemma Filled_app ps qs a b : Filled ps a -> Filled qs b -> Filled (ps ++ qs) (a ++ b).
Proof. intros H Hb. induction H; cbn [app]; [exact Hb| |]; rewrite <- app_assoc; constructor; assumption. Qed.
Lemma Filled_app_inv ps qs s : Filled (ps ++ qs) s -> exists a b, s = a ++ b /\ Filled ps a /\ Filled qs b.
Proof.
  revert s; induction ps as [|p ps IH]; intros s H; cbn [app] in H.
  - exists [], s. split; [reflexivity|]. split; [constructor|exact H].
  - inversion H as [|t ps' s' Hs|g w ps' s' Hg Hs]; subst; apply IH in Hs as (a & b & -> & Ha & Hb).
    + exists (t ++ a), b. rewrite app_assoc. split; [reflexivity|]. split; [constructor; assumption|exact Hb].
    + exists (w ++ a), b. rewrite app_assoc. split; [reflexivity|]. split; [constructor; assumption|exact Hb].
Qed.
Lemma Filled_nil s : Filled [] s -> s = [].
Proof. intros H; inversion H; reflexivity. Qed.
Lemma Filled_tok t ps s : Filled (Tok t :: ps) s -> exists s', s = t ++ s' /\ Filled ps s'.
Proof. intros H; inversion H; subst; eauto. Qed.
Lemma Filled_gap g ps s : Filled (Gap g :: ps) s -> exists w s', s = w ++ s' /\ InGap g w /\ Filled ps s'.
Proof. intros H; inversion H; subst; eauto. Qed.
Lemma Filled_one t : Filled [Tok t] t.
Proof. rewrite <- (app_nil_r t) at 2. repeat constructor. Qed.
Lemma InGap_ws w : InGap GapWs w <-> Ws w.
Proof. split; [intros H; inversion H; assumption|constructor; assumption]. Qed.
Lemma InGap_inline w : InGap GapInline w <-> Iws w.
Proof. split; [intros H; inversion H; assumption|constructor; assumption]. Qed.
Lemma InGap_inline1 w : InGap GapInline1 w <-> Iws w /\ w <> [].
Proof. split; [intros H; inversion H; auto|intros []; constructor; assumption]. Qed.
Lemma InGap_line w : InGap GapLine w <-> LineEnd w.
Proof. split; [intros H; inversion H; assumption|constructor; assumption]. Qed.
Lemma InGap_nl w : InGap GapNl w <-> Eol w.
Proof. split; [intros H; inversion H; assumption|constructor; assumption]. Qed.

Ltac fillx H :=
  repeat match type of H with
  | Filled (Tok _ :: _) _ => let s := fresh "s" in apply Filled_tok in H as (s & -> & H)
  | Filled (Gap _ :: _) _ => let g := fresh "w" in let s := fresh "s" in let Hg := fresh "Hg" in
      apply Filled_gap in H as (g & s & -> & Hg & H);
      first [apply InGap_ws in Hg|apply InGap_inline1 in Hg|apply InGap_inline in Hg|apply InGap_line in Hg|apply InGap_nl in Hg|idtac]
  | Filled [] _ => apply Filled_nil in H; subst
  end.

Definition After (h : bool) (r : str) : Prop := Delim r /\ (h = true -> EolAt r).
Lemma Delim_eol e r : Eol e -> Delim (e ++ r).
Proof. intros [|]; reflexivity. Qed.
Lemma EolAt_eol e r : Eol e -> EolAt (e ++ r).
Proof. intros H. exists e, r. auto. Qed.
Lemma ws_Eol e w : Eol e -> Ws w -> Ws (e ++ w).
Proof. intros [|] H; cbn [app]; repeat (apply Ws_blank; [lia|]); exact H. Qed.

(** What the gap after an expression holds *)
Lemma ws_after_fill h ps s : Filled (ws_after h :: ps) s -> exists w s', s = w ++ s' /\ Ws w /\ Filled ps s' /\ (h = true -> exists e w', Eol e /\ w = e ++ w').
Proof.
  unfold ws_after. destruct h; intros H; apply Filled_gap in H as (w & s' & -> & Hg & H); exists w, s'; (split; [reflexivity|]).
  - inversion Hg as [| | | | |e w' He Hw]; subst. split; [apply ws_Eol; assumption|]. split; [exact H|]. eauto.
  - apply InGap_ws in Hg. split; [exact Hg|]. split; [exact H|discriminate].
Qed.
Lemma After_ws h w r : Ws w -> Delim r -> (h = true -> exists e w', Eol e /\ w = e ++ w') -> After h (w ++ r).
Proof.
  intros Hw Hr Hh. split; [apply Delim_ws; assumption|]. intros E. destruct (Hh E) as (e & w' & He & ->). rewrite <- app_assoc. apply EolAt_eol, He.
Qed.
Lemma end_after_fill h ps s : Filled (end_after h ++ ps) s -> exists i n s', s = i ++ n ++ s' /\ Iws i /\ LineEnd n /\ Filled ps s' /\ (forall r, After h (i ++ n ++ r)).
Proof.
  destruct h; cbn [end_after app]; intros H.
  - apply Filled_gap in H as (e & s' & -> & Hg & H). apply InGap_nl in Hg. exists [], e, s'. split; [reflexivity|]. split; [constructor|]. split; [constructor; exact Hg|]. split; [exact H|].
    intros r. cbn [app]. split; [apply Delim_eol, Hg|intros _; apply EolAt_eol, Hg].
  - fillx H. eexists w, w0, _. split; [reflexivity|]. split; [exact Hg|]. split; [exact Hg0|]. split; [exact H|].
    intros r. split; [apply Delim_iws; [exact Hg|apply Delim_LineEnd, Hg0]|discriminate].
Qed.

Section WithTables.
Context (U : ucd).

Lemma quoted_token P v t r : GChars P v t [34] -> GChars P v (t ++ r) ([34] ++ r).
Proof.
  intros H. destruct (GChars_replace _ _ _ _ r H) as (u & -> & HG). rewrite <- app_assoc. exact HG.
Qed.
Lemma heredoc_token v t r : GHeredoc U v (t ++ [10]) [10] -> EolAt r -> GHeredoc U v (t ++ r) r.
Proof. intros H Hr. destruct (GHeredoc_replace U _ _ _ H) as (u & E & _ & HG). apply app_inv_tail in E as <-. apply HG, Hr. Qed.
Lemma key_token k t r : GKey U k (t ++ [61]) [61] -> Delim r -> GKey U k (t ++ r) r.
Proof.
  intros H Hr. destruct (GKey_replace U _ _ _ H) as (u & E & _ & HG). apply app_inv_tail in E as <-. apply HG; [exact Hr|].
  intros HE. apply EolAt_cons in HE. lia.
Qed.

(** ** Every filled layout is a document *)
Lemma layout_sound :
  (forall e ps h, LTerm U e ps h -> forall s r, Filled ps s -> After h r -> GTerm U e (s ++ r) r) /\
  (forall e ps h, LExpr U e ps h -> forall s r, Filled ps s -> After h r -> GExpr U e (s ++ r) r) /\
  (forall l ps, LItems U l ps -> forall s r, Filled ps s -> GItems U l (s ++ r) r) /\
  (forall l ps, LMembers U l ps -> forall s r, Filled ps s -> GMembers U l (s ++ r) r).
Proof.
  apply (layout_mut U (fun e ps h _ => forall s r, Filled ps s -> After h r -> GTerm U e (s ++ r) r)
    (fun e ps h _ => forall s r, Filled ps s -> After h r -> GExpr U e (s ++ r) r)
    (fun l ps _ => forall s r, Filled ps s -> GItems U l (s ++ r) r)
    (fun l ps _ => forall s r, Filled ps s -> GMembers U l (s ++ r) r)).
  - intros s r H _. fillx H. rewrite app_nil_r. constructor.
  - intros s r H _. fillx H. rewrite app_nil_r. constructor.
  - intros s r H _. fillx H. rewrite app_nil_r. constructor.
  - intros n t Hn s r H [Hd _]. fillx H. rewrite app_nil_r. apply GT_number; [exact Hn|]. apply (Longest_number n); [exact Hn|apply Delim_follow, Hd].
  - intros v t Hv s r H _. fillx H. rewrite app_nil_r, <- app_assoc. apply GT_quoted, quoted_token, Hv.
  - intros v t Hv s r H [_ He]. fillx H. rewrite app_nil_r. apply GT_heredoc, heredoc_token; auto.
  - intros l ps _ IH s r H _. fillx H. rewrite <- app_assoc. apply GT_tuple, IH, H.
  - intros l ps _ IH s r H _. fillx H. rewrite <- app_assoc. apply GT_object, IH, H.
  - intros e ps h _ IH s r H _. cbn [app] in H. fillx H. apply Filled_app_inv in H as (a & b & -> & Ha & H).
    apply ws_after_fill in H as (w2 & s' & -> & Hw2 & H & Hh). fillx H. rewrite app_nil_r, <- !app_assoc.
    apply (GT_paren U e w w2); [exact Hg| |exact Hw2]. apply IH; [exact Ha|]. apply After_ws; [exact Hw2|reflexivity|exact Hh].
  - intros e ps h _ IH s r H Hr. apply GE_term, IH; assumption.
  - intros e c ps h Hc _ IH s r H Hr. apply Filled_gap in H as (w & s' & -> & Hg & H). apply InGap_ws in Hg. rewrite <- app_assoc.
    apply GE_lead; [exact Hg| |apply IH; assumption]. fillx H. destruct Hc as [->| ->]; [left|right]; eexists; reflexivity.
  - intros s r H. fillx H. rewrite app_nil_r, <- !app_assoc. apply GI_nil, Hg.
  - intros s r H. fillx H. rewrite app_nil_r, <- !app_assoc. apply GI_comma; assumption.
  - intros e ps h _ IH s r H. cbn [app] in H. fillx H. apply Filled_app_inv in H as (a & b & -> & Ha & H).
    apply ws_after_fill in H as (w2 & s' & -> & Hw2 & H & Hh). fillx H. rewrite app_nil_r, <- !app_assoc.
    apply (GI_last U e w w2); [exact Hg|exact Hw2|]. apply IH; [exact Ha|]. apply After_ws; [exact Hw2|reflexivity|exact Hh].
  - intros e ps h _ IH s r H. cbn [app] in H. fillx H. apply Filled_app_inv in H as (a & b & -> & Ha & H).
    apply ws_after_fill in H as (w2 & s' & -> & Hw2 & H & Hh). fillx H. rewrite app_nil_r, <- !app_assoc.
    apply (GI_last_comma U e w w2 w0); [exact Hg|exact Hw2|assumption|]. apply IH; [exact Ha|]. apply After_ws; [exact Hw2|reflexivity|exact Hh].
  - intros e e' l ps h qs _ IH _ IHl s r H. cbn [app] in H. fillx H. apply Filled_app_inv in H as (a & b & -> & Ha & H).
    apply ws_after_fill in H as (w2 & s' & -> & Hw2 & H & Hh). fillx H. rewrite <- !app_assoc.
    eapply (GI_cons U e e' l w w2); [exact Hg|exact Hw2| |apply IHl, H]. apply IH; [exact Ha|]. apply After_ws; [exact Hw2|reflexivity|exact Hh].
  - intros s r H. fillx H. rewrite app_nil_r, <- !app_assoc. apply GM_nil, Hg.
  - intros k t e ps l qs Hk _ IH _ IHl s r H. cbn [app] in H. fillx H. apply Filled_app_inv in H as (a & b & -> & Ha & H). cbn [app] in H. fillx H.
    rewrite <- !app_assoc. eapply (GM_cons U k e l w w0 w1 w2); try eassumption.
    + apply key_token; [exact Hk|]. apply Delim_iws; [assumption|reflexivity].
    + apply IH; [exact Ha|]. split; [apply Delim_iws; [assumption|reflexivity]|discriminate].
    + left. reflexivity.
    + apply IHl, H.
  - intros k t e ps h l qs Hk _ IH _ IHl s r H. cbn [app] in H. fillx H. apply Filled_app_inv in H as (a & b & -> & Ha & H).
    apply end_after_fill in H as (i & n & s' & -> & Hi & Hn & H & HA).
    rewrite <- !app_assoc. eapply (GM_cons U k e l w w0 w1 i); try eassumption.
    + apply key_token; [exact Hk|]. apply Delim_iws; [assumption|reflexivity].
    + apply IH; [exact Ha|]. apply HA.
    + right. left. eauto.
    + apply IHl, H.
  - intros k t e ps Hk _ IH s r H. cbn [app] in H. fillx H. apply Filled_app_inv in H as (a & b & -> & Ha & H). cbn [app] in H. fillx H.
    rewrite app_nil_r, <- !app_assoc. eapply (GM_cons U k e [] w w0 w1 w2); try eassumption.
    + apply key_token; [exact Hk|]. apply Delim_iws; [assumption|reflexivity].
    + apply IH; [exact Ha|]. split; [apply Delim_iws; [assumption|reflexivity]|discriminate].
    + right. right. split; [reflexivity|eexists; reflexivity].
    + apply (GM_nil U [] r). constructor.
Qed.
Lemma attr_sound n e ps h : LAttr U n e ps h -> forall s r, Filled ps s -> After h r -> GAttr U n e (s ++ r) r.
Proof.
  intros [i e' ps' h' Hi He] s r H Hr. cbn [app] in H. fillx H. rewrite <- !app_assoc. eapply (GA U _ _ w w0); [assumption|assumption| |apply (proj1 (proj2 layout_sound) _ _ _ He _ _ H Hr)].
  apply GIdent_intro; [exact Hi|]. apply Delim_iws; [assumption|reflexivity].
Qed.
Lemma labels_sound b ls ps : LLabels U b ls ps -> forall s r, Filled ps s -> GLabels U ls (s ++ 123 :: r) (123 :: r) /\ (b = true -> Delim (s ++ 123 :: r)).
Proof.
  induction 1 as [b|b i ls ps Hi _ IH|b v t ls ps Hv _ IH]; intros s r H; cbn [app] in H.
  - fillx H. rewrite app_nil_r. split; [constructor; exact Hg|intros _; apply Delim_iws; [exact Hg|reflexivity]].
  - apply Filled_gap in H as (w & s' & -> & Hg & H). apply Filled_tok in H as (s0 & -> & H). destruct (IH s0 r H) as [IH1 IH2]. rewrite <- !app_assoc.
    assert (Hw : Iws w /\ (b = true -> w <> [])) by (destruct b; [apply InGap_inline1 in Hg; tauto|apply InGap_inline in Hg; split; [exact Hg|discriminate]]).
    destruct Hw as [Hw Hb]. split.
    + eapply GLs_cons; [exact Hw| |exact IH1]. constructor. apply GIdent_intro; [exact Hi|apply IH2; reflexivity].
    + intros E. specialize (Hb E). destruct Hw as [|c w Hc Hw|c w [x Hx] Hw]; [congruence| |reflexivity]. destruct Hc as [->| ->]; reflexivity.
  - apply Filled_gap in H as (w & s' & -> & Hg & H). apply InGap_inline in Hg. apply Filled_tok in H as (s1 & -> & H). destruct (IH s1 r H) as [IH1 _]. rewrite <- !app_assoc. split.
    + eapply GLs_cons; [exact Hg| |exact IH1]. constructor. apply quoted_token, Hv.
    + intros _. apply Delim_iws; [exact Hg|reflexivity].
Qed.
Lemma block_start t ls ps s r : IdentText U t -> LLabels U true ls ps -> Filled ps s ->
  GIdent U (Borrowed t) (t ++ s ++ 123 :: r) (s ++ 123 :: r) /\ GLabels U ls (s ++ 123 :: r) (123 :: r).
Proof. intros Ht HL Hs. destruct (labels_sound _ _ _ HL s r Hs) as [H1 H2]. split; [apply GIdent_intro; [exact Ht|auto]|exact H1]. Qed.
Lemma lbody_sound :
  (forall el ps h, LElem U el ps h -> forall s r, Filled ps s -> After h r -> GElem U el (s ++ r) r) /\
  (forall b ps, LBody U b ps -> forall s r, Filled ps s -> GBody U b (s ++ r) r).
Proof.
  apply (lbody_mut U (fun el ps h _ => forall s r, Filled ps s -> After h r -> GElem U el (s ++ r) r)
    (fun b ps _ => forall s r, Filled ps s -> GBody U b (s ++ r) r)).
  - intros i e ps h H s r Hs Hr. constructor. eapply attr_sound; eassumption.
  - intros t ls ps Ht HL s r H _. cbn [app] in H. fillx H. apply Filled_app_inv in H as (a & b & -> & Ha & H). fillx H. rewrite app_nil_r, <- !app_assoc.
    destruct (block_start t ls ps a (w ++ 125 :: r) Ht HL Ha) as [H1 H2]. eapply GE_one_line_empty; [exact Hg|exact H1|exact H2].
  - intros t ls ps n v qs Ht HL HA s r H _. cbn [app] in H. fillx H. apply Filled_app_inv in H as (a & b & -> & Ha & H). cbn [app] in H. fillx H.
    apply Filled_app_inv in H as (a' & b' & -> & Ha' & H). fillx H. rewrite app_nil_r, <- !app_assoc.
    destruct (block_start t ls ps a (w ++ a' ++ w0 ++ 125 :: r) Ht HL Ha) as [H1 H2]. eapply (GE_one_line U _ _ _ _ w w0); [assumption|assumption|exact H1|exact H2|].
    eapply attr_sound; [exact HA|exact Ha'|]. split; [apply Delim_iws; [assumption|reflexivity]|discriminate].
  - intros t ls ps b qs Ht HL _ IH s r H _. cbn [app] in H. fillx H. apply Filled_app_inv in H as (a & c & -> & Ha & H). cbn [app] in H. fillx H.
    apply Filled_app_inv in H as (a' & b' & -> & Ha' & H). fillx H. rewrite app_nil_r, <- !app_assoc.
    destruct (block_start t ls ps a (w ++ w0 ++ a' ++ 125 :: r) Ht HL Ha) as [H1 H2]. eapply (GE_block U _ _ _ w w0); [assumption|assumption|exact H1|exact H2|].
    apply IH, Ha'.
  - intros s r H. fillx H. rewrite app_nil_r. constructor. exact Hg.
  - intros el b ps h qs _ IH _ IHb s r H. cbn [app] in H. fillx H. apply Filled_app_inv in H as (a & c & -> & Ha & H).
    apply end_after_fill in H as (i & n & s' & -> & Hi & Hn & H & HA). rewrite <- !app_assoc.
    eapply (GB_cons U el b w i _ (n ++ s' ++ r)); [exact Hg|exact Hi|apply IH; [exact Ha|apply HA]|left; eauto|apply IHb, H].
Qed.
Theorem doc_sound b ps : LDoc U b ps -> forall s, Filled ps s -> GConfig U b s.
Proof.
  unfold GConfig. induction 1 as [|el ps He|el b ps h qs He _ IH]; intros s H; cbn [app] in H; fillx H.
  - rewrite app_nil_r. rewrite <- (app_nil_r w). constructor. exact Hg.
  - apply Filled_app_inv in H as (a & c & -> & Ha & H). fillx H. rewrite app_nil_r.
    eapply (GB_cons U el [] w w0 _ [] []); [exact Hg|assumption| |right; auto|apply (GB_nil U [] []); constructor].
    rewrite app_nil_r. apply (proj1 lbody_sound _ _ _ He); [exact Ha|]. split; [|discriminate]. rewrite <- (app_nil_r w0). apply Delim_iws; [assumption|exact I].
  - apply Filled_app_inv in H as (a & c & -> & Ha & H). apply end_after_fill in H as (i & n & s' & -> & Hi & Hn & H & HA).
    eapply (GB_cons U el b w i _ (n ++ s')); [exact Hg|exact Hi| |left; eauto|apply IH, H].
    apply (proj1 lbody_sound _ _ _ He); [exact Ha|]. apply HA.
Qed.

(** ** Every document is a filled layout *)
Lemma ws_eolat w c r : Ws w -> c <> 10 -> c <> 13 -> EolAt (w ++ c :: r) -> exists e w', w = e ++ w' /\ Eol e /\ Ws w'.
Proof.
  intros Hw H1 H2 HE. destruct Hw as [|d w Hd Hw|d w [t Ht] Hw|d w [t e Ht He|t e Ht He] Hw]; cbn [app] in HE; apply EolAt_cons in HE as [E|[E [q Eq]]]; try lia; subst.
  - exists [10], w. repeat split; [constructor|exact Hw].
  - destruct Hw as [|d' w' Hd' Hw'|d' w' [t Ht] Hw'|d' w' [t e Ht He|t e Ht He] Hw']; cbn [app] in Eq; try discriminate; injection Eq as E1 _; try congruence.
    subst. exists [13; 10], w'. repeat split; [constructor|exact Hw'].
Qed.
Lemma iws_eolat i c r : Iws i -> c <> 10 -> c <> 13 -> ~ EolAt (i ++ c :: r).
Proof. intros Hi H1 H2 HE. destruct Hi as [|d w Hd Hi|d w [t Ht] Hi]; cbn [app] in HE; apply EolAt_cons in HE; lia. Qed.
Lemma end_eolat i n r : Iws i -> LineEnd n -> EolAt (i ++ n ++ r) -> i = [] /\ Eol n.
Proof.
  intros Hi Hn HE. destruct Hi as [|d w Hd Hi|d w [t Ht] Hi]; cbn [app] in HE; [split; [reflexivity|]|apply EolAt_cons in HE; lia|apply EolAt_cons in HE; lia].
  destruct Hn as [e He|c [t e Ht He|t e Ht He]]; [exact He| |]; cbn [app] in HE; apply EolAt_cons in HE; lia.
Qed.
Lemma ws_after_in h w c r ps s : Ws w -> c <> 10 -> c <> 13 -> (h = true -> EolAt (w ++ c :: r)) -> Filled ps s -> Filled (ws_after h :: ps) (w ++ s).
Proof.
  intros Hw H1 H2 Hh Hs. unfold ws_after. destruct h; [|constructor; [constructor; exact Hw|exact Hs]].
  destruct (ws_eolat w c r Hw H1 H2 (Hh eq_refl)) as (e & w' & -> & He & Hw'). constructor; [constructor; assumption|exact Hs].
Qed.
Lemma end_after_in h i n r ps s : Iws i -> LineEnd n -> (h = true -> EolAt (i ++ n ++ r)) -> Filled ps s -> Filled (end_after h ++ ps) (i ++ n ++ s).
Proof.
  intros Hi Hn Hh Hs. destruct h; cbn [end_after app].
  - destruct (end_eolat i n r Hi Hn (Hh eq_refl)) as [-> He]. cbn [app]. constructor; [constructor; exact He|exact Hs].
  - constructor; [constructor; exact Hi|]. constructor; [constructor; exact Hn|exact Hs].
Qed.
Lemma key_in k s r : GKey U k s r -> ~ EolAt r -> exists t, s = t ++ r /\ GKey U k (t ++ [61]) [61].
Proof.
  intros H Hr. destruct (GKey_replace U _ _ _ H) as (t & -> & _ & HG). exists t. split; [reflexivity|]. apply HG; [reflexivity|]. intros HE. destruct (Hr HE).
Qed.
Lemma quoted_in P v s r : GChars P v s (34 :: r) -> exists t, s = t ++ r /\ GChars P v t [34].
Proof. intros H. destruct (GChars_replace _ _ _ _ [] H) as (t & -> & HG). exists (t ++ [34]). rewrite <- app_assoc. split; [reflexivity|exact HG]. Qed.
Lemma key_not_brace k s q r : GKey U k s r -> s = 125 :: q -> False.
Proof.
  intros [i s' r' H|e t r' H _] E.
  - apply GIdent_first in H as (c & x & -> & H). injection E as -> _. apply id_first_not in H. tauto.
  - apply GTerm_first in H as (c & x & Ex & H). rewrite Ex in E. injection E as -> _. discriminate.
Qed.
Lemma number_lead n t : NumLit n t -> exists c q, t = c :: q /\ c <> 123 /\ c <> 40.
Proof.
  intros [b sg w f m x xt Hs Hm Hx].
  destruct Hs; cbn [app]; [|eexists _, _; split; [reflexivity|split; discriminate]|eexists _, _; split; [reflexivity|split; discriminate]].
  destruct Hm as [d Hd HD|d f Hd HD HF|f Hf HF]; cbn [app].
  - destruct d as [|c d]; [congruence|]. cbn [app]. eexists _, _. split; [reflexivity|]. specialize (HD c (or_introl eq_refl)). lia.
  - destruct d as [|c d]; [congruence|]. cbn [app]. eexists _, _. split; [reflexivity|]. specialize (HD c (or_introl eq_refl)). lia.
  - eexists _, _. split; [reflexivity|]. split; discriminate.
Qed.
Definition Lead (s : str) (ps : list item) : Prop := FirstIs 123 s \/ FirstIs 40 s -> exists c qs, (c = 123 \/ c = 40) /\ ps = Tok [c] :: qs.
Ltac nolead := let q := fresh in intros [[q Hq]|[q Hq]]; discriminate Hq.

Lemma layout_complete :
  (forall e s r, GTerm U e s r -> exists ps h t, s = t ++ r /\ LTerm U e ps h /\ Filled ps t /\ (h = true -> EolAt r) /\ Lead s ps) /\
  (forall e s r, GExpr U e s r -> exists ps h t, s = t ++ r /\ LExpr U e ps h /\ Filled ps t /\ (h = true -> EolAt r)) /\
  (forall l s r, GItems U l s r -> exists ps t, s = t ++ r /\ LItems U l ps /\ Filled ps t) /\
  (forall l s r, GMembers U l s r -> exists ps t, s = t ++ r /\ LMembers U l ps /\ Filled ps t) /\
  (forall k s r, GKey U k s r -> True).
Proof.
  apply (grammar_mut U
    (fun e s r _ => exists ps h t, s = t ++ r /\ LTerm U e ps h /\ Filled ps t /\ (h = true -> EolAt r) /\ Lead s ps)
    (fun e s r _ => exists ps h t, s = t ++ r /\ LExpr U e ps h /\ Filled ps t /\ (h = true -> EolAt r))
    (fun l s r _ => exists ps t, s = t ++ r /\ LItems U l ps /\ Filled ps t)
    (fun l s r _ => exists ps t, s = t ++ r /\ LMembers U l ps /\ Filled ps t)
    (fun k s r _ => True)).
  - intros r. exists [Tok (lit "null")], false, (lit "null"). split; [reflexivity|]. split; [constructor|]. split; [apply Filled_one|]. split; [discriminate|nolead].
  - intros r. exists [Tok (lit "true")], false, (lit "true"). split; [reflexivity|]. split; [constructor|]. split; [apply Filled_one|]. split; [discriminate|nolead].
  - intros r. exists [Tok (lit "false")], false, (lit "false"). split; [reflexivity|]. split; [constructor|]. split; [apply Filled_one|]. split; [discriminate|nolead].
  - intros n t r Hn HL. exists [Tok t], false, t. split; [reflexivity|]. split; [constructor; exact Hn|]. split; [apply Filled_one|]. split; [discriminate|].
    destruct (number_lead n t Hn) as (c & q & -> & H1 & H2). intros [[x E]|[x E]]; injection E as E _; congruence.
  - intros v s r H. destruct (quoted_in _ _ _ _ H) as (t & -> & HG). exists [Tok ([34] ++ t)], false, ([34] ++ t). split; [reflexivity|]. split; [constructor; exact HG|]. split; [apply Filled_one|]. split; [discriminate|nolead].
  - intros v s r H. pose proof (GHeredoc_EolAt U _ _ _ H) as HE. destruct (GHeredoc_replace U _ _ _ H) as (t & -> & Ht & HG). exists [Tok t], true, t. split; [reflexivity|].
    split; [constructor; apply HG; exists [10], []; repeat constructor|]. split; [apply Filled_one|]. split; [auto|].
    destruct H as [d m p b t' r v Hm Hd Hc Hn Hv]. nolead.
  - intros l s r _ (ps & t & -> & HL & Hf). exists (Tok [91] :: ps), false, ([91] ++ t). split; [reflexivity|]. split; [constructor; exact HL|]. split; [constructor; exact Hf|]. split; [discriminate|nolead].
  - intros l s r _ (ps & t & -> & HL & Hf). exists (Tok [123] :: ps), false, ([123] ++ t). split; [reflexivity|]. split; [constructor; exact HL|]. split; [constructor; exact Hf|]. split; [discriminate|].
    intros _. exists 123, ps. auto.
  - intros e w1 w2 s r Hw1 _ (ps & h & t & -> & HL & Hf & Hh) Hw2. exists ([Tok [40]; Gap GapWs] ++ ps ++ [ws_after h; Tok [41]]), false, ([40] ++ w1 ++ t ++ w2 ++ [41]).
    split; [rewrite <- !app_assoc; reflexivity|]. split; [constructor; exact HL|]. split.
    + cbn [app]. apply (FL_tok [40]). constructor; [constructor; exact Hw1|]. apply Filled_app; [exact Hf|]. eapply ws_after_in; [exact Hw2| | |exact Hh|apply Filled_one]; discriminate.
    + split; [discriminate|]. intros _. exists 40. eexists. split; [right; reflexivity|reflexivity].
  - intros e s r _ (ps & h & t & -> & HL & Hf & Hh & _). exists ps, h, t. split; [reflexivity|]. split; [constructor; exact HL|]. auto.
  - intros e w s r Hw HF _ (ps & h & t & -> & HL & Hf & Hh & Hl). destruct (Hl HF) as (c & qs & Hc & ->). exists (Gap GapWs :: Tok [c] :: qs), h, (w ++ t).
    split; [rewrite <- app_assoc; reflexivity|]. split; [constructor; assumption|]. split; [constructor; [constructor; exact Hw|exact Hf]|exact Hh].
  - intros w r Hw. exists [Gap GapWs; Tok [93]], (w ++ [93]). split; [rewrite <- app_assoc; reflexivity|]. split; [constructor|]. constructor; [constructor; exact Hw|apply Filled_one].
  - intros w1 w2 r Hw1 Hw2. exists [Gap GapWs; Tok [44]; Gap GapWs; Tok [93]], (w1 ++ [44] ++ w2 ++ [93]). split; [rewrite <- !app_assoc; reflexivity|]. split; [constructor|].
    constructor; [constructor; exact Hw1|]. constructor. constructor; [constructor; exact Hw2|apply Filled_one].
  - intros e w1 w2 s r Hw1 Hw2 _ (ps & h & t & -> & HL & Hf & Hh). eexists _, (w1 ++ t ++ w2 ++ [93]). split; [rewrite <- !app_assoc; reflexivity|]. split; [apply (LI_last U e ps h HL)|].
    constructor; [constructor; exact Hw1|]. apply Filled_app; [exact Hf|]. eapply ws_after_in; [exact Hw2| | |exact Hh|apply Filled_one]; discriminate.
  - intros e w1 w2 w3 s r Hw1 Hw2 Hw3 _ (ps & h & t & -> & HL & Hf & Hh). eexists _, (w1 ++ t ++ w2 ++ [44] ++ w3 ++ [93]). split; [rewrite <- !app_assoc; reflexivity|]. split; [apply (LI_last_comma U e ps h HL)|].
    constructor; [constructor; exact Hw1|]. apply Filled_app; [exact Hf|]. eapply ws_after_in; [exact Hw2| | |exact Hh|]; [discriminate|discriminate|]. constructor. constructor; [constructor; exact Hw3|apply Filled_one].
  - intros e e' l w1 w2 s s' r Hw1 Hw2 _ (ps & h & t & -> & HL & Hf & Hh) _ (qs & t' & -> & HL' & Hf'). eexists _, (w1 ++ t ++ w2 ++ [44] ++ t'). split; [rewrite <- !app_assoc; reflexivity|].
    split; [apply (LI_cons U e e' l ps h qs HL HL')|]. constructor; [constructor; exact Hw1|]. apply Filled_app; [exact Hf|]. cbn [app]. eapply ws_after_in; [exact Hw2| | |exact Hh|]; [discriminate|discriminate|].
    apply (FL_tok [44]). exact Hf'.
  - intros w r Hw. exists [Gap GapWs; Tok [125]], (w ++ [125]). split; [rewrite <- app_assoc; reflexivity|]. split; [constructor|]. constructor; [constructor; exact Hw|apply Filled_one].
  - intros k e l w i1 i2 i3 s s' s3 s4 r Hw Hi1 Hi2 Hi3 Hk _ _ (ps & h & t & -> & HL & Hf & Hh) Hsep Hm (qs & t' & E4 & HL' & Hf').
    apply key_in in Hk as (tk & -> & Hk); [|apply iws_eolat; [exact Hi1|discriminate|discriminate]].
    assert (Hfront : forall rest st, Filled rest st -> Filled ([Gap GapWs; Tok tk; Gap GapInline; Tok [61]; Gap GapInline] ++ rest) (w ++ tk ++ i1 ++ [61] ++ i2 ++ st)).
    { intros rest st Hst. constructor; [constructor; exact Hw|]. constructor. constructor; [constructor; exact Hi1|]. constructor. constructor; [constructor; exact Hi2|exact Hst]. }
    destruct Hsep as [->|[(n & Hn & ->)|[-> [q Eq]]]].
    + assert (h = false) as -> by (destruct h; [|reflexivity]; destruct (iws_eolat i3 44 s4 Hi3); [discriminate|discriminate|apply Hh; reflexivity]).
      eexists _, (w ++ tk ++ i1 ++ [61] ++ i2 ++ t ++ i3 ++ [44] ++ t'). split; [subst s4; rewrite <- !app_assoc; reflexivity|]. split; [apply (LM_comma U k tk e ps l qs Hk HL HL')|].
      apply Hfront. apply Filled_app; [exact Hf|]. constructor; [constructor; exact Hi3|]. constructor. exact Hf'.
    + eexists _, (w ++ tk ++ i1 ++ [61] ++ i2 ++ t ++ i3 ++ n ++ t'). split; [subst s4; rewrite <- !app_assoc; reflexivity|]. split; [apply (LM_line U k tk e ps h l qs Hk HL HL')|].
      apply Hfront. apply Filled_app; [exact Hf|]. eapply end_after_in; eassumption.
    + assert (h = false) as -> by (destruct h; [|reflexivity]; destruct (iws_eolat i3 125 q Hi3); [discriminate|discriminate|rewrite <- Eq; apply Hh; reflexivity]).
      assert (l = [] /\ s4 = 125 :: r) as [-> ->].
      { clear E4. subst s4. remember (125 :: q) as z eqn:Ez. destruct Hm as [w0 r0 Hw0|k0 e0 l0 w0 j1 j2 j3 x x' x3 x4 r0 Hw0 _ _ _ Hkk _ _ _].
        - destruct Hw0 as [|d w0 Hd Hw0|d w0 [u Hu] Hw0|d w0 [u e1 Hu He1|u e1 Hu He1] Hw0]; cbn [app] in Ez; try discriminate; [injection Ez as E2; subst; auto|injection Ez as E1 E2; lia].
        - exfalso. destruct Hw0 as [|d w0 Hd Hw0|d w0 [u Hu] Hw0|d w0 [u e1 Hu He1|u e1 Hu He1] Hw0]; cbn [app] in Ez; try discriminate; try (injection Ez as E1 E2; lia).
          eapply key_not_brace; [exact Hkk|exact Ez]. }
      eexists _, (w ++ tk ++ i1 ++ [61] ++ i2 ++ t ++ i3 ++ [125]). split; [rewrite <- !app_assoc; reflexivity|]. split; [apply (LM_last U k tk e ps Hk HL)|].
      apply Hfront. apply Filled_app; [exact Hf|]. constructor; [constructor; exact Hi3|apply Filled_one].
  - auto.
  - auto.
Qed.

Lemma ident_in i s r : GIdent U i s r -> exists t, i = Borrowed t /\ s = t ++ r /\ IdentText U t.
Proof. intros (t & -> & -> & [H _]). exists t. auto. Qed.
Lemma attr_complete i e s r : GAttr U i e s r -> exists ps h t, s = t ++ r /\ LAttr U i e ps h /\ Filled ps t /\ (h = true -> EolAt r).
Proof.
  intros [i' e' i1 i2 s0 s' r0 Hi1 Hi2 Hi He]. apply ident_in in Hi as (ti & -> & -> & Hi).
  apply (proj1 (proj2 layout_complete)) in He as (ps & h & t & -> & HL & Hf & Hh).
  eexists _, h, (ti ++ i1 ++ [61] ++ i2 ++ t). split; [rewrite <- !app_assoc; reflexivity|]. split; [apply (LA U ti e' ps h Hi HL)|]. split; [|exact Hh].
  cbn [app]. constructor. constructor; [constructor; exact Hi1|]. apply (FL_tok [61]). constructor; [constructor; exact Hi2|exact Hf].
Qed.
Lemma labels_complete ls s r : GLabels U ls s r -> forall b, (b = true -> stops (id_char U) s) ->
  exists ps t, s = t ++ r /\ LLabels U b ls ps /\ Filled ps t.
Proof.
  induction 1 as [i r Hi|l ls i s s' r Hi Hl HL IH]; intros b Hb.
  - exists [Gap GapInline], i. split; [reflexivity|]. split; [constructor|]. rewrite <- (app_nil_r i). constructor; [constructor; exact Hi|constructor].
  - destruct Hl as [j s s' Hj|v s s' Hv].
    + destruct Hj as (t & -> & -> & HLg). apply Longest_ident in HLg as [Ht Hst]. destruct (IH true (fun _ => Hst)) as (ps & u & -> & HLL & Hf).
      eexists _, (i ++ t ++ u). split; [rewrite <- !app_assoc; reflexivity|]. split; [apply (LL_ident U b t ls ps Ht HLL)|].
      constructor; [|constructor; exact Hf]. destruct b; [|constructor; exact Hi]. apply InGap_inline1. split; [exact Hi|]. intros ->. cbn [app] in Hb.
      specialize (Hb eq_refl). destruct Ht as (c & cs & -> & Hc & _). cbn in Hb.
      assert (id_char U c = true); [|congruence]. apply id_char_spec. destruct Hc as [Hc| ->]; [left; left; exact Hc|left; right; right; left; reflexivity].
    + apply quoted_in in Hv as (t & -> & Hv). destruct (IH false) as (ps & u & -> & HLL & Hf); [discriminate|].
      eexists _, (i ++ ([34] ++ t) ++ u). split; [rewrite <- !app_assoc; reflexivity|]. split; [apply (LL_string U b v t ls ps Hv HLL)|].
      constructor; [constructor; exact Hi|]. constructor. exact Hf.
Qed.
Lemma start_complete t ls s s' q : GIdent U t s s' -> GLabels U ls s' (123 :: q) ->
  exists ti ps u, t = Borrowed ti /\ s = ti ++ u ++ 123 :: q /\ IdentText U ti /\ LLabels U true ls ps /\ Filled ps u.
Proof.
  intros (ti & -> & -> & HLg) HL. apply Longest_ident in HLg as [Ht Hst]. destruct (labels_complete _ _ _ HL true (fun _ => Hst)) as (ps & u & -> & HLL & Hf).
  exists ti, ps, u. auto.
Qed.
Lemma lbody_complete :
  (forall el s r, GElem U el s r -> exists ps h t, s = t ++ r /\ LElem U el ps h /\ Filled ps t /\ (h = true -> EolAt r)) /\
  (forall b s r, GBody U b s r -> (FirstIs 125 r -> exists ps t, s = t ++ r /\ LBody U b ps /\ Filled ps t) /\ (r = [] -> exists ps, LDoc U b ps /\ Filled ps s)).
Proof.
  apply (body_mut U (fun el s r _ => exists ps h t, s = t ++ r /\ LElem U el ps h /\ Filled ps t /\ (h = true -> EolAt r))
    (fun b s r _ => (FirstIs 125 r -> exists ps t, s = t ++ r /\ LBody U b ps /\ Filled ps t) /\ (r = [] -> exists ps, LDoc U b ps /\ Filled ps s))).
  - intros i e s r H. apply attr_complete in H as (ps & h & t & -> & HL & Hf & Hh). exists ps, h, t. split; [reflexivity|]. split; [constructor; exact HL|]. auto.
  - intros t ls i1 s s' r Hi1 Ht HL. destruct (start_complete _ _ _ _ _ Ht HL) as (ti & ps & u & -> & -> & Hti & HLL & Hf).
    eexists _, false, (ti ++ u ++ [123] ++ i1 ++ [125]). split; [rewrite <- !app_assoc; reflexivity|]. split; [apply (LE_one_line_empty U ti ls ps Hti HLL)|]. split; [|discriminate].
    apply (FL_tok ti). apply Filled_app; [exact Hf|]. constructor. constructor; [constructor; exact Hi1|apply Filled_one].
  - intros t ls n v i1 i2 s s' s2 r Hi1 Hi2 Ht HL Ha. destruct (start_complete _ _ _ _ _ Ht HL) as (ti & ps & u & -> & -> & Hti & HLL & Hf).
    apply attr_complete in Ha as (qs & h & ta & -> & HA & Hfa & Hh).
    assert (h = false) as -> by (destruct h; [|reflexivity]; destruct (iws_eolat i2 125 r Hi2); [discriminate|discriminate|apply Hh; reflexivity]).
    eexists _, false, (ti ++ u ++ [123] ++ i1 ++ ta ++ i2 ++ [125]). split; [rewrite <- !app_assoc; reflexivity|]. split; [apply (LE_one_line U ti ls ps n v qs Hti HLL HA)|]. split; [|discriminate].
    apply (FL_tok ti). apply Filled_app; [exact Hf|]. cbn [app]. apply (FL_tok [123]). constructor; [constructor; exact Hi1|]. apply Filled_app; [exact Hfa|].
    constructor; [constructor; exact Hi2|apply Filled_one].
  - intros t ls b i1 n s s' s2 r Hi1 Hn Ht HL _ [HB _]. destruct (start_complete _ _ _ _ _ Ht HL) as (ti & ps & u & -> & -> & Hti & HLL & Hf).
    destruct (HB (ex_intro _ r eq_refl)) as (qs & tb & -> & HLB & Hfb).
    eexists _, false, (ti ++ u ++ [123] ++ i1 ++ n ++ tb ++ [125]). split; [rewrite <- !app_assoc; reflexivity|]. split; [apply (LE_block U ti ls ps b qs Hti HLL HLB)|]. split; [|discriminate].
    apply (FL_tok ti). apply Filled_app; [exact Hf|]. cbn [app]. apply (FL_tok [123]). constructor; [constructor; exact Hi1|]. constructor; [constructor; exact Hn|].
    apply Filled_app; [exact Hfb|apply Filled_one].
  - intros w r Hw. split.
    + intros _. exists [Gap GapWs], w. split; [reflexivity|]. split; [constructor|]. rewrite <- (app_nil_r w). constructor; [constructor; exact Hw|constructor].
    + intros ->. exists [Gap GapWs]. split; [constructor|]. constructor; [constructor; exact Hw|constructor].
  - intros el b w i s s1 s2 r Hw Hi _ (ps & h & te & -> & HE & Hfe & Hh) Hsep Hb [HB HD]. split.
    + intros Hr. destruct (HB Hr) as (qs & tb & -> & HLB & Hfb). destruct Hsep as [(n & Hn & ->)|[-> E]].
      * eexists _, (w ++ te ++ i ++ n ++ tb). split; [rewrite <- !app_assoc; reflexivity|]. split; [apply (LB_cons U el b ps h qs HE HLB)|].
        constructor; [constructor; exact Hw|]. apply Filled_app; [exact Hfe|]. eapply end_after_in; eassumption.
      * destruct Hr as [q ->]. destruct tb; discriminate.
    + intros Hr. destruct (HD Hr) as (qs & HLB & Hfb). destruct Hsep as [(n & Hn & ->)|[-> ->]].
      * eexists. split; [apply (LD_cons U el b ps h qs HE HLB)|]. constructor; [constructor; exact Hw|]. apply Filled_app; [exact Hfe|]. eapply end_after_in; eassumption.
      * apply GBody_nil_inv in Hb as [-> _]; [|reflexivity].
        assert (h = false) as ->. { destruct h; [|reflexivity]. specialize (Hh eq_refl). rewrite app_nil_r in Hh. apply EolAt_iws in Hh; [contradiction|exact Hi]. }
        eexists. split; [apply (LD_last U el ps HE)|]. constructor; [constructor; exact Hw|]. apply Filled_app; [exact Hfe|].
        constructor; [constructor; exact Hi|constructor].
Qed.
Theorem doc_complete b s : GConfig U b s -> exists ps, LDoc U b ps /\ Filled ps s.
Proof. intros H. apply (proj2 lbody_complete) in H as [_ H]. apply H. reflexivity. Qed.
End WithTables.
