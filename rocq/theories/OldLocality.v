(** * OldLocality: texts of values can be put in other places *)
From Coq Require Import ZArith.
From Verif Require Import Base Ast Grammar Nom NomFacts WsFacts NumFacts StrFacts HeredocFacts Lex Parser ParserFacts ExprProofs
  BodyProofs Locality NumConv Kvp Value OldGrammar MeetsSpec OldMeetsSpec AppendProofs.
Close Scope Z_scope.

Section WithTables.
Context (U : ucd).

Lemma VLabels_replace ls s r : VLabels ls s r -> exists t, s = t ++ r /\ (ls <> [] -> t <> []) /\ forall r', VLabels ls (t ++ r') r'.
Proof.
  induction 1 as [r|v ls i s s' r Hi Hc _ (t & -> & _ & IH)]; [exists []; repeat split; [congruence|constructor]|].
  destruct (GChars_replace _ _ _ _ (t ++ r) Hc) as (tc & -> & _).
  exists (i ++ [34] ++ tc ++ [34] ++ t). split; [rewrite <- !app_assoc; reflexivity|]. split; [intros _ E; apply app_eq_nil in E as [_ [=]]|].
  intros r'. rewrite <- !app_assoc. econstructor; [exact Hi| |apply IH].
  destruct (GChars_replace _ _ _ _ (t ++ r') Hc) as (t' & E & H'). apply app_inv_tail in E as <-. exact H'.
Qed.
Lemma GIdent_head i s x y : x <> [] -> GIdent U i s (x ++ y) -> exists t, s = t ++ x ++ y /\ t <> [] /\ forall y', GIdent U i (t ++ x ++ y') (x ++ y').
Proof.
  intros Hx (t & -> & -> & H). apply Longest_ident in H as [H1 H2]. exists t. split; [reflexivity|].
  split; [destruct H1 as (? & ? & -> & _); discriminate|]. intros y'. exists t. split; [reflexivity|]. split; [reflexivity|].
  apply Longest_ident. split; [exact H1|]. destruct x as [|c x]; [congruence|exact H2].
Qed.
Lemma VKey_replace k s i c y : Iws i -> delim_char c = true -> VKey U k s (i ++ c :: y) ->
  exists t, s = t ++ i ++ c :: y /\ t <> [] /\ forall y', VKey U k (t ++ i ++ c :: y') (i ++ c :: y').
Proof.
  intros Hi Hc H. remember (i ++ c :: y) as R eqn:ER. destruct H as [t s r Ht|v s r Hv]; subst r.
  - apply GIdent_replace in Ht as (ti & -> & Hti & Ht). exists ti. split; [reflexivity|]. split; [exact Hti|].
    intros y'. constructor. apply Ht, Delim_iws; [exact Hi|exact Hc].
  - destruct (GChars_replace _ _ _ _ [] Hv) as (tc & -> & _). exists ([34] ++ tc ++ [34]). split; [rewrite <- !app_assoc; reflexivity|].
    split; [discriminate|]. intros y'. rewrite <- !app_assoc. constructor.
    destruct (GChars_replace _ _ _ _ (i ++ c :: y') Hv) as (t' & E & H'). apply app_inv_tail in E as <-. exact H'.
Qed.
Definition ReplEntries (l : list (key * Value.value)) (s r : str) : Prop :=
  FirstIs 125 r -> exists t, s = t ++ r /\ forall r', FirstIs 125 r' -> VEntries U l (t ++ r') r'.
Lemma VEntries_nonempty l s r : VEntries U l s r -> r <> [] -> s <> [].
Proof.
  induction 1 as [w r Hw|k v l w s s1 s2 r Hw He Hs Hl IH]; intros Hr E; apply app_eq_nil in E as [_ E]; [congruence|].
  subst s. apply IH; [exact Hr|]. assert (Hk : forall t r', ~ GIdent U t [] r').
  { intros t r' H. apply GIdent_replace in H as (t' & E & Ht & _). destruct t'; [congruence|discriminate]. }
  remember [] as z eqn:Ez in He. destruct He as [k v i1 i2 z s' r' _ _ H _|t l' w' z s' r' _ H _|t ls l' w' z z1 s' r' _ _ H _ _]; subst z;
    [inversion H; subst| |]; exfalso; eapply Hk; eassumption.
Qed.
Lemma VSep_replace s1 te s2 t r : s1 = te -> VSep s1 s2 -> s2 = t ++ r -> r <> [] ->
  exists m, s1 = m ++ t ++ r /\ forall r', r' <> [] -> VSep (m ++ t ++ r') (t ++ r') /\ Delim (m ++ t ++ r') /\ (EolAt (m ++ t ++ r) -> EolAt (m ++ t ++ r')).
Proof.
  intros _ [w s Hw|i n s Hi Hn|i Hi] E Hr; subst.
  - exists (w ++ [44]). split; [rewrite <- app_assoc; reflexivity|]. intros r' _. rewrite <- !app_assoc. split; [constructor; exact Hw|].
    split; [apply Delim_ws; [exact Hw|reflexivity]|apply EolAt_mid; lia].
  - exists (i ++ n). split; [rewrite <- app_assoc; reflexivity|]. intros r' _. rewrite <- !app_assoc. split; [constructor; assumption|].
    split; [apply Delim_iws; [exact Hi|apply Delim_LineEnd, Hn]|apply EolAt_LineEnd, Hn].
  - destruct t; [cbn in E; congruence|discriminate].
Qed.
Lemma old_replace :
  (forall v s r, VTerm U v s r -> Repl (VTerm U v) s r) /\
  (forall l s r, VItems U l s r -> ReplAll (VItems U l) s r) /\
  (forall l s r, VEntries U l s r -> ReplEntries l s r) /\
  (forall k v s r, VEntry U k v s r -> Repl (VEntry U k v) s r).
Proof.
  apply (old_mut U (fun v s r _ => Repl (VTerm U v) s r) (fun l s r _ => ReplAll (VItems U l) s r)
    (fun l s r _ => ReplEntries l s r) (fun k v s r _ => Repl (VEntry U k v) s r)).
  - intros r. exists (lit "null"). repeat split; [discriminate|]. constructor.
  - intros r. exists (lit "true"). repeat split; [discriminate|]. constructor.
  - intros r. exists (lit "false"). repeat split; [discriminate|]. constructor.
  - intros n t v r H Hl Hv. exists t. split; [reflexivity|]. split.
    + apply NumLit_first in H as (c & t' & -> & _). discriminate.
    + intros r' Hr _. econstructor; [exact H| |exact Hv]. apply (Longest_number n); [exact H|apply Delim_follow, Hr].
  - intros v s r H. destruct (GChars_replace _ _ _ _ r H) as (t & -> & _).
    exists ([34] ++ t ++ [34]). split; [rewrite <- !app_assoc; reflexivity|]. split; [discriminate|].
    intros r' _ _. destruct (GChars_replace _ _ _ _ r' H) as (t' & E & H').
    apply app_inv_tail in E as <-. rewrite <- !app_assoc. constructor. exact H'.
  - intros v s r H. pose proof (GHeredoc_EolAt U _ _ _ H) as HE.
    apply GHeredoc_replace in H as (t & -> & Ht & H). exists t. repeat split; [exact Ht|].
    intros r' _ Hr'. constructor. apply H, Hr', HE.
  - intros l s r _ (t & -> & Ht & H). exists ([91] ++ t). repeat split; [discriminate|].
    intros r' _ _. rewrite <- app_assoc. constructor. apply H.
  - intros l w s r Hw _ H. destruct H as (t & -> & H); [eexists; reflexivity|]. exists (w ++ [123] ++ t ++ [125]).
    split; [rewrite <- !app_assoc; reflexivity|]. split; [intros E; apply app_eq_nil in E as [_ [=]]|].
    intros r' _ _. rewrite <- !app_assoc. constructor; [exact Hw|]. apply H. eexists; reflexivity.
  - intros w r Hw. exists (w ++ [93]). split; [rewrite <- app_assoc; reflexivity|].
    split; [destruct w; discriminate|]. intros r'. rewrite <- app_assoc. constructor. exact Hw.
  - intros w1 w2 r Hw1 Hw2. exists (w1 ++ [44] ++ w2 ++ [93]). split; [rewrite <- !app_assoc; reflexivity|].
    split; [destruct w1; discriminate|]. intros r'. rewrite <- !app_assoc. constructor; assumption.
  - intros e w1 w2 s r Hw1 Hw2 _ (t & -> & Ht & H). exists (w1 ++ t ++ w2 ++ [93]).
    split; [rewrite <- !app_assoc; reflexivity|].
    split; [destruct w1, t; discriminate || congruence|]. intros r'. rewrite <- !app_assoc.
    eapply VI_last; [exact Hw1|exact Hw2|]. apply H; [apply Delim_ws; [exact Hw2|reflexivity]|]. apply EolAt_mid. lia.
  - intros e w1 w2 w3 s r Hw1 Hw2 Hw3 _ (t & -> & Ht & H). exists (w1 ++ t ++ w2 ++ [44] ++ w3 ++ [93]).
    split; [rewrite <- !app_assoc; reflexivity|].
    split; [destruct w1, t; discriminate || congruence|]. intros r'. rewrite <- !app_assoc.
    eapply VI_last_comma; [exact Hw1|exact Hw2|exact Hw3|].
    apply H; [apply Delim_ws; [exact Hw2|reflexivity]|]. apply EolAt_mid. lia.
  - intros e e' l w1 w2 s s' r Hw1 Hw2 _ (t & -> & Ht & H) _ (t' & -> & Ht' & H').
    exists (w1 ++ t ++ w2 ++ [44] ++ t').
    split; [rewrite <- !app_assoc; reflexivity|].
    split; [destruct w1, t; discriminate || congruence|]. intros r'. rewrite <- !app_assoc.
    eapply VI_cons; [exact Hw1|exact Hw2| |apply H'].
    apply H; [apply Delim_ws; [exact Hw2|reflexivity]|]. apply EolAt_mid. lia.
  - intros w r Hw _. exists w. split; [reflexivity|]. intros r' _. constructor. exact Hw.
  - intros k v l w s s1 s2 r Hw He (te & -> & Hte & HE) Hsep Hl HL Hr.
    destruct (HL Hr) as (tl & E2 & HL'). assert (Hrne : r <> []) by (destruct Hr as [q ->]; discriminate).
    destruct (VSep_replace s1 s1 s2 tl r eq_refl Hsep E2 Hrne) as (m & -> & Hm).
    exists (w ++ te ++ m ++ tl). split; [rewrite <- !app_assoc; reflexivity|]. intros r' Hr'. rewrite <- !app_assoc.
    destruct (Hm r') as (H1 & H2 & H3); [destruct Hr' as [q ->]; discriminate|].
    econstructor; [exact Hw|apply HE; assumption|exact H1|apply HL', Hr'].
  - intros k v i1 i2 s s' r Hi1 Hi2 Hk _ (tv & -> & Htv & HV).
    apply (VKey_replace k s i1 61 (i2 ++ tv ++ r) Hi1 eq_refl) in Hk as (tk & -> & Htk & Hk).
    exists (tk ++ i1 ++ [61] ++ i2 ++ tv). split; [rewrite <- !app_assoc; reflexivity|].
    split; [destruct tk; [congruence|discriminate]|]. intros r' H1 H2. rewrite <- !app_assoc.
    econstructor; [exact Hi1|exact Hi2|apply (Hk (i2 ++ tv ++ r'))|apply HV; assumption].
  - intros t l w s s' r Hw Ht _ H. destruct H as (te & -> & HE); [eexists; reflexivity|].
    rewrite app_assoc in Ht. apply GIdent_head in Ht as (ti & -> & Hti & Ht); [|intros E; apply app_eq_nil in E as [_ [=]]].
    exists (ti ++ w ++ [123] ++ te ++ [125]). split; [rewrite <- !app_assoc; reflexivity|].
    split; [destruct ti; [congruence|discriminate]|]. intros r' _ _. rewrite <- !app_assoc.
    econstructor; [exact Hw| |apply HE; eexists; reflexivity].
    specialize (Ht (te ++ [125] ++ r')). rewrite <- !app_assoc in Ht. exact Ht.
  - intros t ls l w s s1 s' r Hw Hne Ht Hls _ H. destruct H as (te & -> & HE); [eexists; reflexivity|].
    apply VLabels_replace in Hls as (tl & -> & Htl & Hls). apply GIdent_head in Ht as (ti & -> & Hti & Ht); [|apply Htl, Hne].
    exists (ti ++ tl ++ w ++ [123] ++ te ++ [125]). split; [rewrite <- !app_assoc; reflexivity|].
    split; [destruct ti; [congruence|discriminate]|]. intros r' _ _. rewrite <- !app_assoc.
    econstructor; [exact Hw|exact Hne| |apply Hls|apply HE; eexists; reflexivity].
    specialize (Ht (w ++ [123] ++ te ++ [125] ++ r')). exact Ht.
Qed.
Lemma VTerm_replace v s r : VTerm U v s r -> Repl (VTerm U v) s r.
Proof. apply old_replace. Qed.
Lemma VEntry_replace k v s r : VEntry U k v s r -> Repl (VEntry U k v) s r.
Proof. apply old_replace. Qed.

(** ** Concatenation *)
Lemma VEntries_ws w l s r : Ws w -> VEntries U l s r -> VEntries U l (w ++ s) r.
Proof.
  intros Hw [w' r' Hw'|k v l' w' s' s1 s2 r' Hw' He Hs Hl]; rewrite app_assoc; [constructor; apply Ws_app; assumption|].
  econstructor; [apply Ws_app; assumption|exact He|exact Hs|exact Hl].
Qed.
Lemma VEntry_ne k v s r : VEntry U k v s r -> s <> [].
Proof. intros H. apply VEntry_replace in H as (t & -> & Ht & _). destruct t; [congruence|discriminate]. Qed.
Lemma VEntries_nil_inv l s r : VEntries U l s r -> s = [] -> l = [] /\ r = [].
Proof.
  intros [w r' Hw|k v l' w s' s1 s2 r' Hw He Hs Hl] E; apply app_eq_nil in E as [_ E]; [auto|]. apply VEntry_ne in He. congruence.
Qed.
Lemma VDoc_app l1 d1 r n l2 d2 : VEntries U l1 d1 r -> r = [] -> LineEnd n -> VDoc U l2 d2 -> VDoc U (l1 ++ l2) (d1 ++ n ++ d2).
Proof.
  intros H ER Hn0 H2. unfold VDoc in *. induction H as [w r Hw|k v l w s s1 s2 r Hw He Hsep Hl IH].
  - subst. rewrite app_nil_r. cbn [app]. apply VEntries_ws; [exact Hw|]. apply VEntries_ws; [apply Ws_LineEnd, Hn0|exact H2].
  - specialize (IH ER). apply VEntry_replace in He as (te & -> & Hte & He). rewrite <- !app_assoc.
    destruct Hsep as [w' s2 Hw'|i n' s2 Hi Hn'|i Hi]; rewrite <- ?app_assoc.
    + econstructor; [exact Hw| |apply VS_comma, Hw'|exact IH].
      apply He; [apply Delim_ws; [exact Hw'|reflexivity]|apply EolAt_mid; lia].
    + econstructor; [exact Hw| |apply VS_line; [exact Hi|exact Hn']|exact IH].
      apply He; [apply Delim_iws; [exact Hi|apply Delim_LineEnd, Hn']|apply EolAt_LineEnd, Hn'].
    + apply VEntries_nil_inv in Hl as [-> _]; [|reflexivity]. cbn [app] in *.
      econstructor; [exact Hw| |apply VS_line; [exact Hi|exact Hn0]|exact H2].
      apply He; [apply Delim_iws; [exact Hi|apply Delim_LineEnd, Hn0]|]. intros HE. apply EolAt_iws in HE; [contradiction|exact Hi].
Qed.

(** ** What was met stays met *)
Lemma VTerm_append v s i c q x : Ws i -> delim_char c = true -> c <> 13 -> VTerm U v s (i ++ c :: q) -> VTerm U v (s ++ x) (i ++ c :: q ++ x).
Proof.
  intros Hi Hc Hc' H. apply VTerm_replace in H as (t & -> & _ & H). rewrite <- !app_assoc.
  apply H; [apply Delim_ws; [exact Hi|exact Hc]|apply EolAt_mid, Hc'].
Qed.
Section Meets.
Context (T T' L L' : str -> Prop) (x : str).
Context (HT : forall s, T s -> T' (s ++ x)) (HL : forall s, L s -> L' (s ++ x)) (HLne : forall s, L s -> s <> []).
Lemma VMeetsEntries_ne_aux :
  (forall s, VMeets U T L s -> True) /\ (forall s, VMeetsItems U T L s -> True) /\
  (forall s, VMeetsEntries U T L s -> s <> []) /\ (forall s, VMeetsEntry U T L s -> s <> []).
Proof.
  assert (Hid : forall t s r, GIdent U t s r -> s <> []).
  { intros t s r H. apply GIdent_replace in H as (t' & -> & Ht & _). destruct t'; [congruence|discriminate]. }
  apply vmeets_mut; intros; auto.
  - intros E. apply app_eq_nil in E as [_ E]. contradiction.
  - intros E. apply app_eq_nil in E as [_ E]. eapply VEntry_ne; eassumption.
  - inversion v; subst; [eapply Hid; eassumption|discriminate].
  - eapply Hid; eassumption.
  - eapply Hid; eassumption.
Qed.
Lemma VMeetsEntries_ne s : VMeetsEntries U T L s -> s <> [].
Proof. apply VMeetsEntries_ne_aux. Qed.
Lemma vmeets_append :
  (forall s, VMeets U T L s -> VMeets U T' L' (s ++ x)) /\ (forall s, VMeetsItems U T L s -> VMeetsItems U T' L' (s ++ x)) /\
  (forall s, VMeetsEntries U T L s -> VMeetsEntries U T' L' (s ++ x)) /\ (forall s, VMeetsEntry U T L s -> VMeetsEntry U T' L' (s ++ x)).
Proof.
  apply vmeets_mut.
  - intros s H. apply VM_here, HT, H.
  - intros s _ IH. rewrite <- app_assoc. apply VM_list, IH.
  - intros w s Hw _ IH. rewrite <- !app_assoc. apply VM_object; assumption.
  - intros w s Hw _ IH. rewrite <- app_assoc. apply VMI_here; assumption.
  - intros v w1 w2 s s' Hw1 Hw2 Hv _ IH. rewrite <- app_assoc.
    eapply VMI_next; [exact Hw1|exact Hw2|apply (VTerm_append v s w2 44 s' x Hw2 eq_refl); [lia|exact Hv]|exact IH].
  - intros w s Hw _ IH. rewrite <- app_assoc. apply VMS_here; assumption.
  - intros k v w s s1 s2 Hw He Hs Hm IH. apply VMeetsEntries_ne in Hm. rewrite <- app_assoc.
    destruct (VSep_replace s1 s1 s2 [] s2 eq_refl Hs eq_refl Hm) as (m & -> & Hsep). cbn [app] in *.
    destruct (Hsep (s2 ++ x)) as (H1 & H2 & H3); [destruct s2; [congruence|discriminate]|].
    apply VEntry_replace in He as (te & -> & _ & He). rewrite <- !app_assoc.
    eapply VMS_next; [exact Hw|apply He; [exact H2|exact H3]|exact H1|exact IH].
  - intros s H. apply VME_key, HL, H.
  - intros k i1 i2 s s' Hi1 Hi2 Hk _ IH. apply (VKey_replace k s i1 61 (i2 ++ s') Hi1 eq_refl) in Hk as (tk & -> & _ & Hk).
    rewrite <- !app_assoc. cbn [app]. rewrite <- !app_assoc. eapply VME_attr; [exact Hi1|exact Hi2|apply (Hk (i2 ++ s' ++ x))|exact IH].
  - intros t ls w s s1 s' Hw Ht Hls _ IH. apply VLabels_replace in Hls as (tl & -> & _ & Hls).
    rewrite !app_assoc in Ht. rewrite <- (app_assoc tl w [123]) in Ht.
    apply GIdent_head in Ht as (ti & -> & _ & Ht); [|intros E; apply app_eq_nil in E as [_ E]; apply app_eq_nil in E as [_ [=]]].
    rewrite <- !app_assoc. eapply VME_block; [exact Hw| |apply Hls|exact IH].
    specialize (Ht (s' ++ x)). rewrite <- !app_assoc in Ht. exact Ht.
  - intros t ls i s s1 s' Hi Ht Hls Hl. apply VLabels_replace in Hls as (tl & -> & _ & Hls).
    pose proof (HLne _ Hl) as Hne. rewrite <- (app_nil_r (tl ++ i ++ s')) in Ht.
    apply GIdent_head in Ht as (ti & -> & _ & Ht);
      [|intros E; apply app_eq_nil in E as [_ E]; apply app_eq_nil in E as [_ E]; congruence].
    rewrite app_nil_r, <- !app_assoc. eapply VME_label; [exact Hi| |apply Hls|apply HL, Hl].
    specialize (Ht x). rewrite <- !app_assoc in Ht. exact Ht.
Qed.
End Meets.
Lemma vmeets_heredoc_append s x : VMeetsHeredoc U s -> VMeetsHeredoc U (s ++ x).
Proof.
  apply (vmeets_append (BadHeredoc U) (BadHeredoc U) (fun _ => False) (fun _ => False) x);
    [intros s0; apply bad_heredoc_append|intros ? []|intros ? []].
Qed.
Lemma vmeets_escape_append p s x : NotHex x -> VMeetsEscape U p s -> VMeetsEscape U (p ++ x) (s ++ x).
Proof.
  intros Hx. apply (vmeets_append (BadEscape Plain p) (BadEscape Plain (p ++ x)) (BadEscape PlainLine p) (BadEscape PlainLine (p ++ x)) x).
  - intros s0 H. apply bad_escape_append; assumption.
  - intros s0 H. apply bad_escape_append; assumption.
  - intros s0 H. eapply bad_escape_ne, H.
Qed.
End WithTables.
