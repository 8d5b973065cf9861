(** * VCutProofs: documents of [value::from_str] that were cut short *)
From Coq Require Import ZArith.
From Verif Require Import Base Ast Grammar Nom NomFacts WsFacts NumFacts StrFacts HeredocFacts Lex Parser ParserFacts ExprProofs
  BodyProofs Locality DocProofs MoreProofs AppendProofs NumConv Kvp Value OldParser OldGrammar OldFacts OldProofs OldLocality CutProofs VCutSpec.
Close Scope Z_scope.

Section WithTables.
Context (U : ucd).

Lemma VKey_det k s r k' r' : VKey U k s r -> VKey U k' s r' -> k = k' /\ r = r'.
Proof. intros H H'. apply literal_key_ok in H. apply literal_key_ok in H'. rewrite H in H'. injection H' as -> ->. auto. Qed.
Lemma VEntry_det k v s r k' v' r' : VEntry U k v s r -> VEntry U k' v' s r' -> k = k' /\ v = v' /\ iws_rest r = iws_rest r'.
Proof.
  intros H H'. destruct (proj2 (proj2 (proj2 (old_complete_mut U))) _ _ _ _ H) as (_ & _ & _ & E).
  destruct (proj2 (proj2 (proj2 (old_complete_mut U))) _ _ _ _ H') as (_ & _ & _ & E').
  rewrite E in E'. injection E' as Er -> ->. auto.
Qed.
Lemma VEntry_ws k v s r : VEntry U k v s r -> ws_rest s = s /\ s <> [] /\ ~ FirstIs 44 s.
Proof. intros H. destruct (proj2 (proj2 (proj2 (old_complete_mut U))) _ _ _ _ H) as (Hl & E & Hc & _). split; [exact E|]. split; [intros ->; cbn in Hl; lia|exact Hc]. Qed.
Lemma VEntry_first k v s r : VEntry U k v s r -> exists c s', s = c :: s' /\ ws_char c = false /\ c <> 44.
Proof.
  intros He. assert (H : exists k' r', VKey U k' s r').
  { destruct He as [k0 v0 i1 i2 x s' r0 _ _ Hk _|t l1 w0 x s' r0 _ Ht _|t ls l1 w0 x s3' s' r0 _ _ Ht _ _]; [eauto|apply VK_ident in Ht; eauto..]. }
  destruct H as (k' & r' & H). apply VKey_first in H as (c & s' & -> & Hc). exists c, s'. split; [reflexivity|].
  split; [destruct Hc as [Hc| ->]; [apply id_first_nonws in Hc; exact Hc|reflexivity]|apply (id_first_not44 U), Hc].
Qed.
Lemma VTerm_ws v s r : VTerm U v s r -> ws_rest s = s \/ FirstIs 123 (ws_rest s).
Proof.
  intros [r0|r0|r0|n t v0 r0 Hn Hl Hv|v0 s0 r0 Hc|c s0 r0 Hh|l s0 r0 Hi|l w s0 r0 Hw He].
  - left. apply ws_rest_nonws. reflexivity.
  - left. apply ws_rest_nonws. reflexivity.
  - left. apply ws_rest_nonws. reflexivity.
  - left. destruct (NumLit_first _ _ Hn) as (c & t1 & -> & Hc). cbn [app]. apply ws_rest_nonws. unfold ws_char, is_dec_digit in *. destruct Hc as [Hc|Hc]; lia.
  - left. apply ws_rest_nonws. reflexivity.
  - left. assert (exists s', s0 = 60 :: s') as [s' ->] by (destruct Hh; eexists; reflexivity). apply ws_rest_nonws. reflexivity.
  - left. apply ws_rest_nonws. reflexivity.
  - right. rewrite ws_rest_ws by exact Hw. exists s0. apply ws_rest_nonws. reflexivity.
Qed.

(** White space before a document *)
Lemma VDoc_ws_rest l s : VDoc U l s <-> VDoc U l (ws_rest s).
Proof.
  unfold VDoc. split; intros H.
  - remember [] as z eqn:Ez in H. destruct H as [w r Hw|k v l w s s1 s2 r Hw He Hs Hl]; subst r.
    + rewrite ws_rest_ws by exact Hw. apply (VE_nil U []). constructor.
    + rewrite ws_rest_ws by exact Hw. destruct (VEntry_ws _ _ _ _ He) as [-> _]. apply (VE_cons U k v l [] s s1 s2); [constructor|assumption..].
  - destruct (ws_rest_sound s) as (w & Hw & E). rewrite E. apply OldLocality.VEntries_ws; assumption.
Qed.
(** The first entry of a document *)
Lemma vfirst_some w s l : Ws w -> ws_rest s = s -> s <> [] -> VDoc U l (w ++ s) ->
  exists k v l2 s1 s2, l = (k, v) :: l2 /\ VEntry U k v s s1 /\ VSep s1 s2 /\ VDoc U l2 s2.
Proof.
  intros Hw Es Hne HB. unfold VDoc in HB. remember (w ++ s) as x eqn:E. remember [] as z eqn:Ez in HB.
  destruct HB as [w' r' Hw'|k v l' w' s' s1 s2 r' Hw' He' Hsep Hb]; subst r'.
  - exfalso. rewrite app_nil_r in E. subst w'. pose proof (ws_rest_ws w s Hw) as H1. pose proof (ws_rest_ws _ [] Hw') as H2. rewrite app_nil_r in H2. rewrite H2, Es in H1. cbn in H1. congruence.
  - destruct (VEntry_ws _ _ _ _ He') as [Es' _]. assert (s' = s).
    { pose proof (ws_rest_ws w s Hw) as H1. pose proof (ws_rest_ws _ s' Hw') as H2. rewrite E in H2. congruence. }
    subst s'. exists k, v, l', s1, s2. auto.
Qed.
Lemma vfirst_entry k v w s r l : Ws w -> VEntry U k v s r -> VDoc U l (w ++ s) ->
  exists l2 s1 s2, l = (k, v) :: l2 /\ iws_rest s1 = iws_rest r /\ VSep s1 s2 /\ VDoc U l2 s2.
Proof.
  intros Hw He HB. destruct (VEntry_ws _ _ _ _ He) as (Es & Hne & _). destruct (vfirst_some _ _ _ Hw Es Hne HB) as (k' & v' & l2 & s1 & s2 & -> & He' & Hs & Hl).
  destruct (VEntry_det _ _ _ _ _ _ _ He He') as (<- & <- & E). exists l2, s1, s2. auto.
Qed.

(** A value at the end of the text is a number or goes on to be read whatever follows. *)
Lemma term_at_end v s r : VTerm U v s r -> r = [] -> (exists n, NumLit n s /\ NumberValue s v) \/ (forall q, VTerm U v (s ++ q) q).
Proof.
  intros [r0|r0|r0|n t v0 r0 Hn Hl Hv|v0 s0 r0 Hc|c s0 r0 Hh|l s0 r0 Hi|l w s0 r0 Hw He] ->.
  - right. intros q. rewrite app_nil_r. constructor.
  - right. intros q. rewrite app_nil_r. constructor.
  - right. intros q. rewrite app_nil_r. constructor.
  - left. exists n. rewrite app_nil_r. auto.
  - right. intros q. destruct (GChars_replace _ _ _ _ q Hc) as (t & -> & H'). rewrite <- !app_assoc. constructor. rewrite <- ?app_assoc. exact H'.
  - apply GHeredoc_EolAt in Hh. destruct Hh as (x & r' & [|] & E); discriminate.
  - right. intros q. destruct (proj1 (proj2 (old_replace U)) _ _ _ Hi) as (t & -> & _ & H'). rewrite app_nil_r, <- app_assoc. constructor. apply H'.
  - right. intros q. destruct (proj1 (proj2 (proj2 (old_replace U))) _ _ _ He (ex_intro _ [] eq_refl)) as (t & -> & H'). rewrite <- !app_assoc. constructor; [exact Hw|].
    apply H'. eexists; reflexivity.
Qed.
Lemma entry_at_end k v s r : VEntry U k v s r -> r = [] ->
  (exists n i1 i2 tk t, s = tk ++ i1 ++ [61] ++ i2 ++ t /\ Iws i1 /\ Iws i2 /\ NumLit n t /\ NumberValue t v /\
     forall q, VKey U k (tk ++ i1 ++ [61] ++ i2 ++ t ++ q) (i1 ++ [61] ++ i2 ++ t ++ q)) \/
  (forall q, VEntry U k v (s ++ q) q).
Proof.
  intros [k0 v0 i1 i2 s0 s' r0 Hi1 Hi2 Hk Hv|t l w s0 s' r0 Hw Ht He|t ls l w s0 s1 s' r0 Hw Hne Ht Hls He] ->.
  - apply (VKey_replace U k0 s0 i1 61 (i2 ++ s') Hi1 eq_refl) in Hk as (tk & -> & Htk & Hk).
    destruct (term_at_end _ _ _ Hv eq_refl) as [(n & Hn & HV)|HV].
    + left. exists n, i1, i2, tk, s'. split; [reflexivity|]. split; [exact Hi1|]. split; [exact Hi2|]. split; [exact Hn|]. split; [exact HV|].
      intros q. apply (Hk (i2 ++ s' ++ q)).
    + right. intros q. rewrite <- !app_assoc. cbn [app]. rewrite <- app_assoc. eapply (VE_attr U _ _ i1 i2); [exact Hi1|exact Hi2|apply (Hk (i2 ++ s' ++ q))|apply HV].
  - right. intros q. destruct (proj1 (proj2 (proj2 (old_replace U))) _ _ _ He (ex_intro _ [] eq_refl)) as (te & -> & HE).
    rewrite app_assoc in Ht. apply GIdent_head in Ht as (ti & -> & Hti & Ht); [|intros E; apply app_eq_nil in E as [_ [=]]].
    rewrite <- !app_assoc. eapply VE_object; [exact Hw| |apply HE; eexists; reflexivity].
    specialize (Ht (te ++ [125] ++ q)). rewrite <- !app_assoc in Ht. exact Ht.
  - right. intros q. destruct (proj1 (proj2 (proj2 (old_replace U))) _ _ _ He (ex_intro _ [] eq_refl)) as (te & -> & HE).
    apply VLabels_replace in Hls as (tl & -> & Htl & Hls). apply GIdent_head in Ht as (ti & -> & Hti & Ht); [|apply Htl, Hne].
    rewrite <- !app_assoc. eapply VE_block; [exact Hw|exact Hne| |apply Hls|apply HE; eexists; reflexivity].
    specialize (Ht (w ++ [123] ++ te ++ [125] ++ q)). exact Ht.
Qed.

(** A value that begins with a number is a number that begins with it. *)
Lemma number_vterm n t q v r0 : NumLit n t -> VTerm U v (t ++ q) r0 -> exists n' u, NumLit n' (t ++ u) /\ NumberValue (t ++ u) v /\ t ++ q = (t ++ u) ++ r0.
Proof.
  intros Hn Ht. destruct (NumLit_first _ _ Hn) as (c & t1 & Et & Hc). unfold is_dec_digit in Hc.
  remember (t ++ q) as x eqn:Ex. assert (Ec : exists y, x = c :: y) by (rewrite Ex, Et; eexists; reflexivity). destruct Ec as [y Ec].
  destruct Ht as [r|r|r|n' t' v0 r Hn' Hl' HV'|v0 s0 r Hv|v0 s0 r Hh|l s0 r HI|l w s0 r Hw He]; try (injection Ec as Ec _; lia).
  - destruct Hl' as [_ HL]. assert (Hle : (length t <= length t')%nat) by (eapply HL; [exact Ex|exists n; exact Hn]).
    destruct (app_prefix_le t q t' r) as (u & -> & _); [symmetry; exact Ex|exact Hle|]. exists n', u. auto.
  - exfalso. assert (Hs : exists s', s0 = 60 :: s') by (destruct Hh; eexists; reflexivity). destruct Hs as [s' Es]. rewrite Es in Ec. injection Ec as Ec _. lia.
  - exfalso. pose proof (ws_to_brace w s0 Hw) as E. rewrite Ec in E. rewrite ws_rest_nonws in E by (unfold ws_char; lia). injection E as E _. lia.
Qed.
(** An entry with a number: what it is with more text after it *)
Lemma vnumber_goes_on k n w tk i1 i2 t q l : Ws w -> Iws i1 -> Iws i2 -> NumLit n t -> VKey U k (tk ++ i1 ++ [61] ++ i2 ++ t ++ q) (i1 ++ [61] ++ i2 ++ t ++ q) ->
  VDoc U l (w ++ tk ++ i1 ++ [61] ++ i2 ++ t ++ q) -> exists n' u v' l2, l = (k, v') :: l2 /\ NumLit n' (t ++ u) /\ NumberValue (t ++ u) v'.
Proof.
  intros Hw Hi1 Hi2 Hn Hk HB. destruct (VKey_ws _ _ _ _ Hk) as [Es _].
  assert (Hne : tk ++ i1 ++ [61] ++ i2 ++ t ++ q <> []) by (intros E; apply VKey_len in Hk; rewrite E in Hk; cbn in Hk; lia).
  destruct (vfirst_some _ _ _ Hw Es Hne HB) as (k' & v' & l2 & s1 & s2 & -> & He & _).
  remember (tk ++ i1 ++ [61] ++ i2 ++ t ++ q) as S eqn:ES.
  assert (E61 : forall y, ws_rest (i1 ++ [61] ++ y) = 61 :: y /\ iws_rest (i1 ++ [61] ++ y) = 61 :: y).
  { intros y. split; [rewrite ws_rest_ws by (apply Iws_Ws, Hi1); apply ws_rest_nonws|rewrite iws_rest_iws by exact Hi1; apply iws_rest_nonws]; reflexivity. }
  assert (Hid : forall x s', GIdent U (Borrowed x) S s' -> k = KeyIdent x /\ i1 ++ [61] ++ i2 ++ t ++ q = s').
  { intros x s' H. apply (VKey_det _ _ _ _ _ Hk). apply VK_ident, H. }
  destruct He as [k0 v0 j1 j2 s0 s' r0 Hj1 Hj2 Hj He|x l0 w0 s0 s' r0 Hw0 Hx _|x ls l0 w0 s0 s3 s' r0 Hw0 Hls Hx HL _].
  - destruct (VKey_det _ _ _ _ _ Hk Hj) as [<- E].
    assert (Etq : iws_rest (t ++ q) = t ++ q /\ ws_rest (t ++ q) = t ++ q /\ ~ FirstIs 123 (t ++ q)).
    { destruct (NumLit_first _ _ Hn) as (c & t1 & -> & Hc). cbn [app]. assert (ws_char c = false /\ c <> 123) as [Hc' Hc2].
      { unfold ws_char, is_dec_digit in *. destruct Hc as [Hc|Hc]; lia. }
      split; [apply iws_rest_nonws; exact Hc'|]. split; [apply ws_rest_nonws; exact Hc'|]. intros [y [= -> _]]. congruence. }
    assert (E2 : i2 ++ t ++ q = j2 ++ s').
    { apply (f_equal iws_rest) in E. rewrite (iws_rest_iws i1 _ Hi1), (iws_rest_iws j1 _ Hj1) in E. cbn [app] in E. rewrite !iws_rest_stop in E by lia. injection E as E. exact E. }
    assert (E4 : ws_rest s' = t ++ q).
    { apply (f_equal ws_rest) in E2. rewrite (ws_rest_ws i2) in E2 by (apply Iws_Ws, Hi2). rewrite (ws_rest_ws j2) in E2 by (apply Iws_Ws, Hj2). rewrite (proj1 (proj2 Etq)) in E2. symmetry. exact E2. }
    destruct (VTerm_ws _ _ _ He) as [Ews|Hb]; [|exfalso; rewrite E4 in Hb; apply (proj2 (proj2 Etq) Hb)].
    rewrite Ews in E4. rewrite E4 in He. destruct (number_vterm n t q v0 r0 Hn He) as (n' & u & Hn' & HV' & _). exists n', u, v0, l2. auto.
  - exfalso. destruct (Hid _ _ Hx) as [_ E]. apply (f_equal ws_rest) in E. rewrite (proj1 (E61 _)), ws_to_brace in E by exact Hw0. discriminate.
  - exfalso. destruct (Hid _ _ Hx) as [_ E]. destruct (VLabels_first _ _ _ HL Hls) as [y Ey]. rewrite <- E in Ey. rewrite (proj2 (E61 _)) in Ey. discriminate.
Qed.

Lemma NumberValue_det t n v v' : NumLit n t -> NumberValue t v -> NumberValue t v' -> v = v'.
Proof. intros Hn H H'. apply (literal_from_str_spec n) in H; [|exact Hn]. apply (literal_from_str_spec n) in H'; [|exact Hn]. congruence. Qed.

(** The two cases; in the second the text ends with the number. *)
Definition VCutDoc (p : str) (lp l : list (key * Value.value)) : Prop :=
  (exists l2, l = lp ++ l2) \/
  (exists l1 k v v' l2, lp = l1 ++ [(k, v)] /\ l = l1 ++ (k, v') :: l2 /\ VCutNumber v v' /\ exists x n t, p = x ++ t /\ NumLit n t).

(** What comes after a separator *)
Lemma sep_rest s1 s2 q s1' s2' l' l : VSep s1 s2 ->
  VEntries U l' s2 [] -> iws_rest s1' = iws_rest (s1 ++ q) -> VSep s1' s2' -> VDoc U l s2' -> l' = [] \/ VDoc U l (s2 ++ q).
Proof.
  intros Hsep Hl' E Hsep' Hl. assert (Ew : ws_rest s1' = ws_rest (s1 ++ q)) by (rewrite <- ws_rest_iws_rest, E; apply ws_rest_iws_rest).
  assert (H44 : forall l s, VDoc U l s -> ~ FirstIs 44 (ws_rest s)).
  { intros l0 s H. apply (proj1 (proj2 (proj2 (old_complete_mut U))) _ _ _ H). left. reflexivity. }
  assert (Hbeg : l' <> [] -> ~ FirstIs 44 (ws_rest (s2 ++ q))).
  { intros Hl'ne. remember [] as z eqn:Ez in Hl'. destruct Hl' as [w r Hw|k v l0 w s s3 s4 r Hw He _ _]; [congruence|].
    rewrite <- app_assoc, ws_rest_ws by exact Hw. destruct (VEntry_first _ _ _ _ He) as (c & s' & -> & Hc' & Hc).
    cbn [app]. rewrite ws_rest_nonws by exact Hc'. intros [y [= -> _]]. congruence. }
  destruct l' as [|e l']; [left; reflexivity|right]. specialize (Hbeg ltac:(discriminate)).
  assert (Hcomma : FirstIs 44 (ws_rest s1') \/ ws_rest s1' = ws_rest s2').
  { destruct Hsep' as [w s Hw|i n s Hi Hn|i Hi].
    - left. rewrite ws_rest_ws by exact Hw. exists s. apply ws_rest_nonws. reflexivity.
    - right. rewrite ws_rest_ws by (apply Iws_Ws, Hi). apply LineEnd_ws_rest, Hn.
    - right. rewrite <- (app_nil_r i). rewrite ws_rest_ws by (apply Iws_Ws, Hi). reflexivity. }
  assert (Hline : ws_rest (s1 ++ q) = ws_rest (s2 ++ q) -> VDoc U l (s2 ++ q)).
  { intros El. apply VDoc_ws_rest. rewrite <- El, <- Ew. destruct Hcomma as [Hc|Hc]; [exfalso; apply Hbeg; rewrite <- El, <- Ew; exact Hc|].
    rewrite Hc. apply VDoc_ws_rest in Hl. exact Hl. }
  destruct Hsep as [w s Hw|i n s Hi Hn|i Hi].
  - rewrite <- !app_assoc in *. rewrite ws_rest_ws in Ew by exact Hw. cbn [app] in Ew. rewrite (ws_rest_nonws 44) in Ew by reflexivity.
    destruct Hsep' as [w' s' Hw'|i' n' s' Hi' Hn'|i' Hi'].
    + rewrite ws_rest_ws in Ew by exact Hw'. cbn [app] in Ew. rewrite (ws_rest_nonws 44) in Ew by reflexivity. injection Ew as ->. exact Hl.
    + exfalso. apply (H44 _ _ Hl). rewrite ws_rest_ws in Ew by (apply Iws_Ws, Hi'). rewrite LineEnd_ws_rest in Ew by exact Hn'. rewrite Ew. eexists; reflexivity.
    + exfalso. rewrite <- (app_nil_r i'), ws_rest_ws in Ew by (apply Iws_Ws, Hi'). discriminate.
  - apply Hline. rewrite <- !app_assoc, ws_rest_ws by (apply Iws_Ws, Hi). apply LineEnd_ws_rest, Hn.
  - exfalso. apply VEntries_nil_inv in Hl'; [|reflexivity]. destruct Hl' as [[=] _].
Qed.

Lemma VSep_suffix s1 s2 : VSep s1 s2 -> exists m, s1 = m ++ s2.
Proof. intros [w s _|i n s _ _|i _]; [exists (w ++ [44])|exists (i ++ n)|exists i]; rewrite <- ?app_assoc, ?app_nil_r; reflexivity. Qed.
Lemma vcut_doc lp p r : VEntries U lp p r -> r = [] -> forall q l, VDoc U l (p ++ q) -> VCutDoc p lp l.
Proof.
  induction 1 as [w r Hw|k v l' w s s1 s2 r Hw He Hsep Hl IH]; intros -> q l HB.
  - left. exists l. reflexivity.
  - assert (Hmid : Delim (s1 ++ q) -> (EolAt s1 -> EolAt (s1 ++ q)) -> VCutDoc (w ++ s) ((k, v) :: l') l).
    { intros HD HE. destruct (VEntry_replace U _ _ _ _ He) as (te & -> & Hte & HR). specialize (HR (s1 ++ q) HD HE). rewrite <- !app_assoc in HB.
      destruct (vfirst_entry _ _ _ _ _ _ Hw HR HB) as (l2 & s3 & s4 & -> & E & Hs & HL).
      destruct (sep_rest s1 s2 q s3 s4 l' l2 Hsep Hl E Hs HL) as [->|HB'].
      - left. exists l2. reflexivity.
      - destruct (IH eq_refl _ _ HB') as [(l3 & ->)|(l1 & k1 & v1 & v2 & l3 & -> & -> & Hc & x & n & t & -> & Hn)].
        + left. exists l3. reflexivity.
        + right. exists ((k, v) :: l1), k1, v1, v2, l3. split; [reflexivity|]. split; [reflexivity|]. split; [exact Hc|].
          destruct (VSep_suffix _ _ Hsep) as [m ->]. exists (w ++ te ++ m ++ x), n, t. split; [rewrite <- !app_assoc; reflexivity|exact Hn]. }
    destruct Hsep as [w0 s0 Hw0|i n s0 Hi Hn|i Hi].
    + apply Hmid; rewrite <- !app_assoc; [apply Delim_ws; [exact Hw0|reflexivity]|apply EolAt_mid; lia].
    + apply Hmid; rewrite <- !app_assoc; [apply Delim_iws; [exact Hi|apply Delim_LineEnd, Hn]|apply EolAt_LineEnd, Hn].
    + destruct i as [|c i].
      * apply VEntries_nil_inv in Hl as [-> _]; [|reflexivity]. rewrite <- app_assoc in HB.
        destruct (entry_at_end _ _ _ _ He eq_refl) as [(n & i1 & i2 & tk & t & -> & Hi1 & Hi2 & Hn & HV & HK)|Hq].
        -- rewrite <- !app_assoc in HB. destruct (vnumber_goes_on k n w tk i1 i2 t q l Hw Hi1 Hi2 Hn (HK q) HB) as (n' & u & v' & l2 & -> & Hn' & HV').
           destruct u as [|c u].
           ++ left. rewrite app_nil_r in *. rewrite (NumberValue_det _ _ _ _ Hn HV' HV). exists l2. reflexivity.
           ++ right. exists [], k, v, v', l2. split; [reflexivity|]. split; [reflexivity|]. split.
              ** exists t, (c :: u). split; [discriminate|]. split; [exists n; exact Hn|]. split; [exact HV|]. split; [exists n'; exact Hn'|exact HV'].
              ** exists (w ++ tk ++ i1 ++ [61] ++ i2), n, t. split; [rewrite <- !app_assoc; reflexivity|exact Hn].
        -- left. destruct (vfirst_entry _ _ _ _ _ _ Hw (Hq q) HB) as (l2 & s3 & s4 & -> & _). exists l2. reflexivity.
      * apply Hmid.
        -- apply delim_app; [discriminate|]. rewrite <- (app_nil_r (c :: i)). apply Delim_iws; [exact Hi|exact I].
        -- intros HE. apply EolAt_iws in HE; [contradiction|exact Hi].
Qed.
End WithTables.
