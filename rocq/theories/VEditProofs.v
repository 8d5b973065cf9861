(** * VEditProofs: replacing a part of a text that [value::from_str] reads *)
From Coq Require Import ZArith.
From Verif Require Import Base Ast Grammar Nom NomFacts WsFacts Lex Parser ParserFacts ExprProofs
  BodyProofs Locality NumConv Kvp Value OldGrammar OldLocality CommonSpec VEditSpec.
Close Scope Z_scope.
Open Scope N_scope.
Open Scope list_scope.

Section WithTables.
Context (U : ucd).
Ltac asc := rewrite <- ?app_assoc; cbn [app]; rewrite <- ?app_assoc; reflexivity.

Definition HoleKind (v : Value.value) (H : Value.value -> str -> str -> Prop) : Prop :=
  H = VTerm U \/ exists k, H = VEntry U k /\ BlockLike v.
Definition EditV {A} (f : Value.value -> A) (v : Value.value) (G : A -> str -> str -> Prop) (s r : str) : Prop :=
  exists H s1 t s2 s3, HoleKind v H /\ s = s1 ++ t ++ s2 /\ Delim s2 /\ s2 = s3 ++ r /\ H v (t ++ s2) s2 /\
    forall t' v', H v' (t' ++ s2) s2 -> G (f v') (s1 ++ t' ++ s2) r.

Lemma edit_map {A B} (f : Value.value -> A) (g : Value.value -> B) v (G : A -> str -> str -> Prop) (G' : B -> str -> str -> Prop) x s y r :
  EditV f v G s (y ++ r) ->
  (forall v' z, G (f v') z (y ++ r) -> G' (g v') (x ++ z) r) ->
  EditV g v G' (x ++ s) r.
Proof.
  intros (H & s1 & t & s2 & s3 & HK & -> & HD & -> & Hv & HG) HM.
  exists H, (x ++ s1), t, (s3 ++ y ++ r), (s3 ++ y). split; [exact HK|]. split; [asc|]. split; [exact HD|]. split; [asc|]. split; [exact Hv|].
  intros t' v' Hv'. rewrite <- app_assoc. apply HM, HG, Hv'.
Qed.

Definition PT (c : vctx) : Prop := forall v s r, Delim r -> VTerm U (vplug c v) s r -> EditV (vplug c) v (VTerm U) s r.
Definition PE (c : vctx) : Prop := forall k v s r, Delim r -> VEntry U k (vplug c v) s r -> EditV (vplug c) v (VEntry U k) s r.
Definition PL (c : vctx) : Prop := forall l1 k l2 v s r, VEntries U (l1 ++ (k, vplug c v) :: l2) s r ->
  EditV (fun v' => l1 ++ (k, vplug c v') :: l2) v (VEntries U) s r.

Lemma VEntries_suffix l s r : VEntries U l s r -> exists t, s = t ++ r.
Proof.
  induction 1 as [w r Hw|k v l w s s1 s2 r Hw He Hs Hl [t ->]]; [exists w; reflexivity|].
  apply VEntry_replace in He as (te & -> & _ & _).
  remember (t ++ r) as z eqn:Ez. destruct Hs as [w' s Hw'|i n s Hi Hn|i Hi]; subst.
  - exists (w ++ te ++ w' ++ [44] ++ t). asc.
  - exists (w ++ te ++ i ++ n ++ t). asc.
  - symmetry in Ez. apply app_eq_nil in Ez as [-> ->]. exists (w ++ te ++ i). rewrite app_nil_r. reflexivity.
Qed.
Lemma VSep_suffix s1 s2 : VSep s1 s2 -> Delim s1 /\ exists m, s1 = m ++ s2.
Proof.
  intros [w s Hw|i n s Hi Hn|i Hi].
  - split; [apply Delim_ws; [exact Hw|reflexivity]|]. exists (w ++ [44]). asc.
  - split; [apply Delim_iws; [exact Hi|apply Delim_LineEnd, Hn]|]. exists (i ++ n). asc.
  - split; [rewrite <- (app_nil_r i); apply Delim_iws; [exact Hi|exact I]|]. exists i. rewrite app_nil_r. reflexivity.
Qed.

Lemma items_edit c l2 v : PT c -> forall l1 s r, VItems U (l1 ++ vplug c v :: l2) s r -> EditV (fun v' => l1 ++ vplug c v' :: l2) v (VItems U) s r.
Proof.
  intros IH. induction l1 as [|x l1 IHl]; intros s r H; cbn [app] in *.
  - inversion H as [| |e0 w1 w2 s0 r0 Hw1 Hw2 He E1 E2 E3|e0 w1 w2 w3 s0 r0 Hw1 Hw2 Hw3 He E1 E2 E3|e0 e' l w1 w2 s0 s' r0 Hw1 Hw2 He Hl E1 E2 E3]; subst.
    + apply IH in He; [|apply Delim_ws; [exact Hw2|reflexivity]]. rewrite app_assoc in He. apply (edit_map _ _ _ _ _ w1 _ _ _ He).
      intros v' z Hz. rewrite <- app_assoc in Hz. eapply VI_last; [exact Hw1|exact Hw2|exact Hz].
    + apply IH in He; [|apply Delim_ws; [exact Hw2|reflexivity]]. replace (w2 ++ [44] ++ w3 ++ [93] ++ r) with ((w2 ++ [44] ++ w3 ++ [93]) ++ r) in He by asc. apply (edit_map _ _ _ _ _ w1 _ _ _ He).
      intros v' z Hz. replace ((w2 ++ [44] ++ w3 ++ [93]) ++ r) with (w2 ++ [44] ++ w3 ++ [93] ++ r) in Hz by asc. eapply VI_last_comma; [exact Hw1|exact Hw2|exact Hw3|exact Hz].
    + assert (HS : exists t, s' = t ++ r) by (apply old_replace in Hl as (t & -> & _ & _); exists t; reflexivity). destruct HS as [tr ->].
      apply IH in He; [|apply Delim_ws; [exact Hw2|reflexivity]]. replace (w2 ++ [44] ++ tr ++ r) with ((w2 ++ [44] ++ tr) ++ r) in He by asc. apply (edit_map _ _ _ _ _ w1 _ _ _ He).
      intros v' z Hz. replace ((w2 ++ [44] ++ tr) ++ r) with (w2 ++ [44] ++ tr ++ r) in Hz by asc. eapply VI_cons; [exact Hw1|exact Hw2|exact Hz|exact Hl].
  - inversion H as [| |e0 w1 w2 s0 r0 Hw1 Hw2 He E1 E2 E3|e0 w1 w2 w3 s0 r0 Hw1 Hw2 Hw3 He E1 E2 E3|e0 e' l w1 w2 s0 s' r0 Hw1 Hw2 He Hl E1 E2 E3]; subst; try (destruct l1; discriminate).
    match goal with [ E : _ :: _ = l1 ++ _ |- _ ] => rewrite E in Hl end. apply IHl in Hl.
    apply VTerm_replace in He as (te & -> & Hte & He).
    replace (w1 ++ te ++ w2 ++ [44] ++ s') with ((w1 ++ te ++ w2 ++ [44]) ++ s') by asc.
    apply (edit_map (fun v' => l1 ++ vplug c v' :: l2) _ _ _ _ _ _ [] _ Hl). intros v' z Hz. cbn [app] in Hz.
    replace ((w1 ++ te ++ w2 ++ [44]) ++ z) with (w1 ++ te ++ w2 ++ [44] ++ z) by asc.
    destruct (l1 ++ vplug c v' :: l2) as [|y q] eqn:Ey; [destruct l1; discriminate|].
    eapply VI_cons; [exact Hw1|exact Hw2| |exact Hz]. apply He; [apply Delim_ws; [exact Hw2|reflexivity]|]. apply EolAt_mid. lia.
Qed.

Lemma PE_PL c : PE c -> PL c.
Proof.
  intros IH. intros l1. induction l1 as [|[kx x] l1 IHl]; intros k l2 v s r H; cbn [app] in *;
    inversion H as [|k0 v0 l w s0 s1 s2 r0 Hw He Hsep Hl E1 E2 E3]; subst.
  - destruct (VSep_suffix _ _ Hsep) as [HD [m Em]]. destruct (VEntries_suffix _ _ _ Hl) as [tl El].
    apply IH in He; [|exact HD]. assert (Es : s1 = (m ++ tl) ++ r) by (rewrite Em, El; asc). rewrite Es in He.
    apply (edit_map _ _ _ _ _ w _ _ _ He). intros v' z Hz. rewrite <- Es in Hz. eapply VE_cons; eassumption.
  - assert (Hne : s2 <> []) by (intros ->; apply VEntries_nil_inv in Hl as [E _]; [destruct l1; discriminate|reflexivity]).
    destruct (VSep_replace s1 s1 s2 [] s2 eq_refl Hsep eq_refl Hne) as (m & -> & Hm). cbn [app] in *.
    apply IHl in Hl. apply VEntry_replace in He as (te & -> & Hte & He).
    replace (w ++ te ++ m ++ s2) with ((w ++ te ++ m) ++ s2) by asc.
    apply (edit_map (fun v' => l1 ++ (k, vplug c v') :: l2) _ _ _ _ _ _ [] _ Hl). intros v' z Hz. cbn [app] in Hz.
    assert (Hz' : z <> []) by (intros ->; apply VEntries_nil_inv in Hz as [E _]; [destruct l1; discriminate|reflexivity]).
    destruct (Hm z Hz') as (H1 & H2 & H3). replace ((w ++ te ++ m) ++ z) with (w ++ te ++ m ++ z) by asc.
    eapply VE_cons; [exact Hw|apply He; assumption|exact H1|exact Hz].
Qed.

Definition PLin (c : vctx) : Prop := match c with VInObject _ _ c' _ | VInBlock _ _ _ c' _ => PL c' | _ => True end.
Definition PTin (c : vctx) : Prop := match c with VInList _ c' _ => PT c' | _ => True end.

Lemma PT_step c : PTin c -> PLin c -> PT c.
Proof.
  intros H1 H2 v s r Hr H. destruct c as [|l1 c l2|l1 k c l2|ls l1 k c l2].
  - destruct (VTerm_replace U _ _ _ H) as (t & -> & _ & _). exists (VTerm U), [], t, r, []. repeat split; [left; reflexivity|exact Hr|exact H|]. intros t' v' Hv'. exact Hv'.
  - cbn [vplug] in *. inversion H as [| | |n t v0 r0 Hn Hl Hv| | |l s0 r0 Hl E1 E2 E3|]; subst; [inversion Hv|].
    apply (items_edit c l2 v H1) in Hl. apply (edit_map (fun v' => l1 ++ vplug c v' :: l2) _ _ _ _ [91] _ [] _ Hl). intros v' z Hz. apply VT_list, Hz.
  - cbn [vplug] in *. inversion H as [| | |n t v0 r0 Hn Hl Hv| | | |l w s0 r0 Hw Hl E1 E2 E3]; subst; [inversion Hv|].
    apply H2 in Hl. rewrite app_assoc. apply (edit_map (fun v' => l1 ++ (k, vplug c v') :: l2) _ _ _ _ (w ++ [123]) _ [125] _ Hl). intros v' z Hz. rewrite <- app_assoc. apply VT_object; [exact Hw|exact Hz].
  - cbn [vplug] in *. inversion H as [| | |n t v0 r0 Hn Hl Hv| | | |]; subst. inversion Hv.
Qed.
Lemma PE_step c : PT c -> PLin c -> PE c.
Proof.
  intros H1 H2 k v s r Hr H. inversion H as [k0 v0 i1 i2 s0 s' r0 Hi1 Hi2 Hk Hv E1 E2 E3|t l w s0 s' r0 Hw Ht Hl E1 E2 E3|t ls l w s0 s1 s' r0 Hw Hne Ht Hls Hl E1 E2 E3]; subst.
  - apply H1 in Hv; [|exact Hr]. apply (VKey_replace U k s i1 61 (i2 ++ s') Hi1 eq_refl) in Hk as (tk & -> & Htk & Hk).
    replace (tk ++ i1 ++ 61 :: i2 ++ s') with ((tk ++ i1 ++ [61] ++ i2) ++ s') by asc.
    apply (edit_map (vplug c) _ _ _ _ _ _ [] _ Hv). intros v' z Hz.
    replace ((tk ++ i1 ++ [61] ++ i2) ++ z) with (tk ++ i1 ++ [61] ++ i2 ++ z) by asc. eapply VE_attr; [exact Hi1|exact Hi2|apply Hk|exact Hz].
  - destruct c as [|l1 c l2|l1 k c l2|ls l1 k c l2]; cbn [vplug] in *; try discriminate.
    + destruct (VEntry_replace U _ _ _ _ H) as (t0 & -> & _ & _). exists (VEntry U (KeyIdent t)), [], t0, r, [].
      repeat split; [right; exists (KeyIdent t); split; [reflexivity|]; subst v; exact I|exact Hr|exact H|]. intros t' v' Hv'. exact Hv'.
    + match goal with [ E : VObject _ = VObject _ |- _ ] => injection E as -> end. apply H2 in Hl.
      rewrite app_assoc in Ht. apply GIdent_head in Ht as (ti & -> & Hti & Ht); [|intros E; apply app_eq_nil in E as [_ [=]]].
      rewrite app_assoc. apply (edit_map (fun v' => l1 ++ (k, vplug c v') :: l2) _ _ _ _ (ti ++ w ++ [123]) _ [125] _ Hl). intros v' z Hz.
      specialize (Ht z). rewrite <- !app_assoc in Ht. replace ((ti ++ w ++ [123]) ++ z) with (ti ++ w ++ [123] ++ z) by asc. eapply VE_object; [exact Hw|exact Ht|exact Hz].
  - destruct c as [|l1 c l2|l1 k c l2|ls0 l1 k c l2]; cbn [vplug] in *; try discriminate.
    + destruct (VEntry_replace U _ _ _ _ H) as (t0 & -> & _ & _). exists (VEntry U (KeyIdent t)), [], t0, r, [].
      repeat split; [right; exists (KeyIdent t); split; [reflexivity|]; subst v; exact I|exact Hr|exact H|]. intros t' v' Hv'. exact Hv'.
    + match goal with [ E : VBlock _ = VBlock _ |- _ ] => injection E as -> -> end. apply H2 in Hl.
      apply VLabels_replace in Hls as (tl & -> & Htl & Hls). apply GIdent_head in Ht as (ti & -> & Hti & Ht); [|apply Htl, Hne].
      replace (ti ++ tl ++ w ++ [123] ++ s') with ((ti ++ tl ++ w ++ [123]) ++ s') by asc.
      apply (edit_map (fun v' => l1 ++ (k, vplug c v') :: l2) _ _ _ _ (ti ++ tl ++ w ++ [123]) _ [125] _ Hl). intros v' z Hz.
      replace ((ti ++ tl ++ w ++ [123]) ++ z) with (ti ++ tl ++ w ++ [123] ++ z) by asc.
      eapply VE_block; [exact Hw|exact Hne|apply (Ht (w ++ [123] ++ z))|apply Hls|exact Hz].
Qed.
Lemma edit_all c : PT c /\ PE c /\ PL c.
Proof.
  assert (HS : forall c, PTin c -> PLin c -> PT c /\ PE c /\ PL c).
  { clear c. intros c H1 H2. assert (PT c) by (apply PT_step; assumption). assert (PE c) by (apply PE_step; assumption). split; [assumption|]. split; [assumption|]. apply PE_PL; assumption. }
  induction c; apply HS; unfold PTin, PLin; tauto.
Qed.

(** ** A value that is not written as a block *)
Theorem value_edit l1 k c v l2 s : ~ BlockLike v -> VDoc U (l1 ++ (k, vplug c v) :: l2) s ->
  exists s1 t s2, s = s1 ++ t ++ s2 /\ VTerm U v (t ++ s2) s2 /\ Delim s2 /\
    forall t' v', VTerm U v' (t' ++ s2) s2 -> VDoc U (l1 ++ (k, vplug c v') :: l2) (s1 ++ t' ++ s2).
Proof.
  intros Hb H. apply edit_all in H as (H & s1 & t & s2 & s3 & [->|(k0 & -> & HB)] & -> & HD & E & Hv & HG); [|contradiction].
  exists s1, t, s2. split; [reflexivity|]. split; [exact Hv|]. split; [exact HD|]. exact HG.
Qed.

(** ** The entries of an object or a block *)
Lemma entries_doc l : forall s r, VEntries U l s (125 :: r) -> exists t, s = t ++ 125 :: r /\ VDoc U l t.
Proof.
  induction l as [|[k v] l IH]; intros s r H; inversion H as [w r0 Hw E1 E2 E3|k0 v0 l0 w s0 s1 s2 r0 Hw He Hsep Hl E1 E2 E3]; subst.
  - exists w. split; [reflexivity|]. unfold VDoc. rewrite <- (app_nil_r w). apply VE_nil, Hw.
  - apply IH in Hl as (t & -> & Hl). apply VEntry_replace in He as (te & -> & Hte & He).
    remember (t ++ 125 :: r) as z eqn:Ez. destruct Hsep as [w' s Hw'|i n s Hi Hn|i Hi]; subst.
    + exists (w ++ te ++ w' ++ [44] ++ t). split; [asc|]. eapply VE_cons; [exact Hw| |apply VS_comma, Hw'|exact Hl].
      apply He; [apply Delim_ws; [exact Hw'|reflexivity]|apply EolAt_mid; lia].
    + exists (w ++ te ++ i ++ n ++ t). split; [asc|]. eapply VE_cons; [exact Hw| |apply VS_line; [exact Hi|exact Hn]|exact Hl].
      apply He; [apply Delim_iws; [exact Hi|apply Delim_LineEnd, Hn]|apply EolAt_LineEnd, Hn].
    + destruct t; discriminate.
Qed.
Theorem entries_edit l1 k c ls l l2 s : VDoc U (l1 ++ (k, vplug c (block_value ls l)) :: l2) s ->
  exists s1 x s2, s = s1 ++ x ++ s2 /\ VDoc U l x /\
    forall t l', (forall r, VEntries U l' (t ++ r) r) -> VDoc U (l1 ++ (k, vplug c (block_value ls l')) :: l2) (s1 ++ t ++ s2).
Proof.
  intros H. apply edit_all in H as (H & s1 & t0 & s2 & s3 & HK & -> & HD & E & Hv & HG).
  assert (HX : exists h x, t0 ++ s2 = h ++ x ++ 125 :: s2 /\ VDoc U l x /\ forall t l', (forall r, VEntries U l' (t ++ r) r) -> H (block_value ls l') (h ++ t ++ 125 :: s2) s2).
  { destruct HK as [->|(k0 & -> & _)].
    - destruct ls as [|lb ls]; cbn [block_value] in *; inversion Hv as [| | |n t v0 r0 Hn Hl Hnv| | | |l0 w s0 r0 Hw Hl E1 E2 E3]; subst; try (inversion Hnv; fail).
      apply entries_doc in Hl as (x & -> & Hx). exists (w ++ [123]), x. split; [|split; [exact Hx|]].
      { asc. }
      intros t l' Ht. rewrite <- app_assoc. apply VT_object; [exact Hw|]. apply Ht.
    - inversion Hv as [k1 v0 i1 i2 z s' r0 Hi1 Hi2 Hk Hvv E1 E2 E3|t l0 w z s' r0 Hw Ht Hl E1 E2 E3|t ls0 l0 w z z1 s' r0 Hw Hne Ht Hls Hl E1 E2 E3].
      + subst. destruct ls as [|lb ls]; cbn [block_value] in *; inversion Hvv as [| | |n t v0 r0 Hn Hl Hnv| | | |l0 w s0 r0 Hw Hl E1 E2 E3]; subst; try (inversion Hnv; fail).
        apply entries_doc in Hl as (x & -> & Hx).
        match goal with [ Hk : VKey U k0 ?S _ |- _ ] => apply (VKey_replace U k0 S i1 61 (i2 ++ w ++ [123] ++ x ++ 125 :: s3 ++ []) Hi1 eq_refl) in Hk as (tk & Ek & Htk & Hk) end.
        exists (tk ++ i1 ++ [61] ++ i2 ++ w ++ [123]), x. split; [rewrite Ek; asc|]. split; [exact Hx|].
        intros t l' Ht. replace ((tk ++ i1 ++ [61] ++ i2 ++ w ++ [123]) ++ t ++ 125 :: s3 ++ []) with (tk ++ i1 ++ [61] ++ i2 ++ (w ++ [123] ++ t ++ 125 :: s3 ++ [])) by asc.
        eapply VE_attr; [exact Hi1|exact Hi2|apply Hk|]. apply VT_object; [exact Hw|apply Ht].
      + subst. destruct ls as [|lb ls]; cbn [block_value] in *; [|discriminate]. match goal with [ E : VObject _ = VObject _ |- _ ] => injection E as -> end.
        apply entries_doc in Hl as (x & -> & Hx).
        replace (w ++ [123] ++ x ++ 125 :: s3 ++ []) with ((w ++ [123]) ++ x ++ 125 :: s3 ++ []) in Ht by asc. apply GIdent_head in Ht as (ti & Ei & Hti & Ht); [|intros E; apply app_eq_nil in E as [_ [=]]].
        exists (ti ++ w ++ [123]), x. split; [rewrite Ei; asc|]. split; [exact Hx|].
        intros t' l' Ht'. specialize (Ht (t' ++ 125 :: s3 ++ [])). rewrite <- !app_assoc in Ht. rewrite <- !app_assoc. eapply VE_object; [exact Hw|exact Ht|]. apply Ht'.
      + subst. destruct ls as [|lb ls]; cbn [block_value] in *; [discriminate|]. match goal with [ E : VBlock _ = VBlock _ |- _ ] => injection E as -> -> end.
        apply entries_doc in Hl as (x & -> & Hx).
        apply VLabels_replace in Hls as (tl & -> & Htl & Hls). apply GIdent_head in Ht as (ti & Ei & Hti & Ht); [|apply Htl, Hne].
        exists (ti ++ tl ++ w ++ [123]), x. split; [rewrite Ei; asc|]. split; [exact Hx|].
        intros t' l' Ht'. rewrite <- !app_assoc. eapply VE_block; [exact Hw|exact Hne|apply (Ht (w ++ [123] ++ t' ++ 125 :: s3 ++ []))|apply Hls|apply Ht']. }
  destruct HX as (h & x & Ex & Hx & HR). exists (s1 ++ h), x, (125 :: s2). split; [rewrite Ex; asc|]. split; [exact Hx|].
  intros t l' Ht. replace ((s1 ++ h) ++ t ++ 125 :: s2) with (s1 ++ (h ++ t ++ [125]) ++ s2) by asc. apply HG.
  replace ((h ++ t ++ [125]) ++ s2) with (h ++ t ++ 125 :: s2) by asc. apply HR, Ht.
Qed.
End WithTables.
