(** * EditProofs: replacing a part of a text *)
From Verif Require Import Base Nom NomFacts Ast Lex Grammar WsFacts Parser ParserFacts ExprProofs BodyProofs Locality LayoutSpec LayoutProofs EditSpec.

Section WithTables.
Context (U : ucd).

Ltac asc := rewrite <- ?app_assoc; cbn [app]; rewrite <- ?app_assoc; reflexivity.

(** ** Expressions *)
Definition EditE (c : ectx) (e : expr) (G : expr -> str -> str -> Prop) (s r : str) : Prop :=
  exists s1 t s2, s = s1 ++ t ++ s2 /\ GExpr U e (t ++ s2) s2 /\ Delim s2 /\
    forall t' e', GExpr U e' (t' ++ s2) s2 -> G (plug c e') (s1 ++ t' ++ s2) r.
(** The same with something before the hole *)
Definition EditT {A} (f : expr -> A) (e : expr) (G : A -> str -> str -> Prop) (s r : str) : Prop :=
  exists s1 t s2, s1 <> [] /\ s = s1 ++ t ++ s2 /\ GExpr U e (t ++ s2) s2 /\ Delim s2 /\
    forall t' e', GExpr U e' (t' ++ s2) s2 -> G (f e') (s1 ++ t' ++ s2) r.
Definition EditAll {A} (f : expr -> A) (e : expr) (G : A -> str -> str -> Prop) (s r : str) : Prop :=
  exists s1 t s2, s = s1 ++ t ++ s2 /\ GExpr U e (t ++ s2) s2 /\ Delim s2 /\
    forall t' e', GExpr U e' (t' ++ s2) s2 -> G (f e') (s1 ++ t' ++ s2) r.

Lemma items_edit c e l2 :
  (forall s r, Delim r -> GExpr U (plug c e) s r -> EditE c e (GExpr U) s r) ->
  forall l1 s r, GItems U (l1 ++ plug c e :: l2) s r -> EditAll (fun e' => l1 ++ plug c e' :: l2) e (GItems U) s r.
Proof.
  intros IH. induction l1 as [|x l1 IHl]; intros s r H; cbn [app] in *.
  - inversion H as [| |e0 w1 w2 s0 r0 Hw1 Hw2 He E1 E2 E3|e0 w1 w2 w3 s0 r0 Hw1 Hw2 Hw3 He E1 E2 E3|e0 e' l w1 w2 s0 s' r0 Hw1 Hw2 He Hl E1 E2 E3]; subst.
    + apply IH in He as (s1 & t & s2 & -> & Ht & HD & HG); [|apply Delim_ws; [exact Hw2|reflexivity]].
      exists (w1 ++ s1), t, s2. split; [asc|]. split; [exact Ht|]. split; [exact HD|]. intros t' e' He'. rewrite <- app_assoc. eapply GI_last; [exact Hw1|exact Hw2|apply HG, He'].
    + apply IH in He as (s1 & t & s2 & -> & Ht & HD & HG); [|apply Delim_ws; [exact Hw2|reflexivity]].
      exists (w1 ++ s1), t, s2. split; [asc|]. split; [exact Ht|]. split; [exact HD|]. intros t' e' He'. rewrite <- app_assoc. eapply GI_last_comma; [exact Hw1|exact Hw2|exact Hw3|apply HG, He'].
    + apply IH in He as (s1 & t & s2 & -> & Ht & HD & HG); [|apply Delim_ws; [exact Hw2|reflexivity]].
      exists (w1 ++ s1), t, s2. split; [asc|]. split; [exact Ht|]. split; [exact HD|]. intros t' e1 He1. rewrite <- app_assoc. eapply GI_cons; [exact Hw1|exact Hw2|apply HG, He1|exact Hl].
  - inversion H as [| |e0 w1 w2 s0 r0 Hw1 Hw2 He E1 E2 E3|e0 w1 w2 w3 s0 r0 Hw1 Hw2 Hw3 He E1 E2 E3|e0 e' l w1 w2 s0 s' r0 Hw1 Hw2 He Hl E1 E2 E3]; subst; try (destruct l1; discriminate).
    match goal with [ E : _ :: _ = l1 ++ _ |- _ ] => rewrite E in Hl end. apply IHl in Hl as (s1 & t & s2 & -> & Ht & HD & HG).
    apply GExpr_replace in He as (te & -> & Hte & He).
    exists (w1 ++ te ++ w2 ++ [44] ++ s1), t, s2. split; [asc|]. split; [exact Ht|]. split; [exact HD|]. intros t' e1 He1.
    replace ((w1 ++ te ++ w2 ++ [44] ++ s1) ++ t' ++ s2) with (w1 ++ te ++ w2 ++ [44] ++ s1 ++ t' ++ s2) by asc.
    specialize (HG _ _ He1). destruct (l1 ++ plug c e1 :: l2) as [|y q] eqn:Ey; [destruct l1; discriminate|].
    eapply GI_cons; [exact Hw1|exact Hw2| |exact HG]. apply He; [apply Delim_ws; [exact Hw2|reflexivity]|]. apply EolAt_mid. lia.
Qed.

Lemma sep_delim i s3 s4 : Iws i -> (s3 = [44] ++ s4 \/ (exists n, LineEnd n /\ s3 = n ++ s4) \/ (s3 = s4 /\ FirstIs 125 s3)) -> Delim (i ++ s3).
Proof. intros Hi [->|[(n & Hn & ->)|(_ & q & ->)]]; apply Delim_iws; try exact Hi; [reflexivity|apply Delim_LineEnd, Hn|reflexivity]. Qed.

Lemma members_not_brace l s r q : GMembers U l s r -> l <> [] -> s = 125 :: q -> False.
Proof.
  intros [w r0 Hw|k e l' w i1 i2 i3 s0 s' s3 s4 r0 Hw Hi1 Hi2 Hi3 Hk He Hsep Hl] Hn E; [congruence|].
  destruct Hw as [|c w' Hc Hw|c w' [t Ht] Hw|c w' [t e0 Ht He0|t e0 Ht He0] Hw]; cbn [app] in E; [eapply key_not_brace; eassumption|injection E as -> _; lia|discriminate..].
Qed.
Lemma members_edit c e k l2 :
  (forall s r, Delim r -> GExpr U (plug c e) s r -> EditE c e (GExpr U) s r) ->
  forall l1 s r, GMembers U (l1 ++ (k, plug c e) :: l2) s r -> EditAll (fun e' => l1 ++ (k, plug c e') :: l2) e (GMembers U) s r.
Proof.
  intros IH. induction l1 as [|[kx x] l1 IHl]; intros s r H; cbn [app] in *.
  - inversion H as [|k0 e0 l w i1 i2 i3 s0 s' s3 s4 r0 Hw Hi1 Hi2 Hi3 Hk He Hsep Hl E1 E2 E3]; subst.
    apply IH in He as (s1 & t & s2 & -> & Ht & HD & HG); [|eapply sep_delim; eassumption].
    apply GKey_replace in Hk as (tk & -> & Htk & Hk).
    exists (w ++ tk ++ i1 ++ [61] ++ i2 ++ s1), t, s2. split; [asc|]. split; [exact Ht|]. split; [exact HD|]. intros t' e' He'.
    replace ((w ++ tk ++ i1 ++ [61] ++ i2 ++ s1) ++ t' ++ s2) with (w ++ tk ++ i1 ++ [61] ++ i2 ++ s1 ++ t' ++ s2) by asc.
    eapply (GM_cons U k (plug c e') l2 w i1 i2 i3 _ (s1 ++ t' ++ s2) s3 s4); try eassumption; [|apply HG, He'].
    apply Hk; [apply Delim_iws; [exact Hi1|reflexivity]|]. apply EolAt_mid. lia.
  - inversion H as [|k0 e0 l w i1 i2 i3 s0 s' s3 s4 r0 Hw Hi1 Hi2 Hi3 Hk He Hsep Hl E1 E2 E3]; subst.
    apply IHl in Hl as (s1 & t & s2 & -> & Ht & HD & HG).
    apply GExpr_replace in He as (te & -> & Hte & He). apply GKey_replace in Hk as (tk & -> & Htk & Hk).
    destruct Hsep as [->|[(n & Hn & ->)|[-> [q E]]]].
    + exists (w ++ tk ++ i1 ++ [61] ++ i2 ++ te ++ i3 ++ [44] ++ s1), t, s2. split; [asc|]. split; [exact Ht|]. split; [exact HD|]. intros t' e' He'.
      replace ((w ++ tk ++ i1 ++ [61] ++ i2 ++ te ++ i3 ++ [44] ++ s1) ++ t' ++ s2) with (w ++ tk ++ i1 ++ [61] ++ i2 ++ te ++ i3 ++ [44] ++ s1 ++ t' ++ s2) by asc.
      eapply (GM_cons U kx x _ w i1 i2 i3 _ (te ++ i3 ++ [44] ++ s1 ++ t' ++ s2) ([44] ++ s1 ++ t' ++ s2) (s1 ++ t' ++ s2)); try eassumption.
      * apply Hk; [apply Delim_iws; [exact Hi1|reflexivity]|]. apply EolAt_mid. lia.
      * apply He; [apply Delim_iws; [exact Hi3|reflexivity]|]. apply EolAt_mid. lia.
      * left. reflexivity.
      * apply HG, He'.
    + exists (w ++ tk ++ i1 ++ [61] ++ i2 ++ te ++ i3 ++ n ++ s1), t, s2. split; [asc|]. split; [exact Ht|]. split; [exact HD|]. intros t' e' He'.
      replace ((w ++ tk ++ i1 ++ [61] ++ i2 ++ te ++ i3 ++ n ++ s1) ++ t' ++ s2) with (w ++ tk ++ i1 ++ [61] ++ i2 ++ te ++ i3 ++ n ++ s1 ++ t' ++ s2) by asc.
      eapply (GM_cons U kx x _ w i1 i2 i3 _ (te ++ i3 ++ n ++ s1 ++ t' ++ s2) (n ++ s1 ++ t' ++ s2) (s1 ++ t' ++ s2)); try eassumption.
      * apply Hk; [apply Delim_iws; [exact Hi1|reflexivity]|]. apply EolAt_mid. lia.
      * apply He; [apply Delim_iws; [exact Hi3|apply Delim_LineEnd, Hn]|]. apply EolAt_LineEnd, Hn.
      * right; left. exists n. auto.
      * apply HG, He'.
    + (* the last member is not followed by another one *)
      exfalso. eapply members_not_brace; [exact (HG t e Ht)| |exact E]. intros En. destruct l1; discriminate.
Qed.

Lemma term_edit c e : c <> Hole ->
  (forall c1, match c with InTuple _ c0 _ => c1 = c0 | InObject _ _ c0 _ => c1 = c0 | Hole => False end ->
     forall s r, Delim r -> GExpr U (plug c1 e) s r -> EditE c1 e (GExpr U) s r) ->
  forall n s r, (length s <= n)%nat -> GTerm U (plug c e) s r -> EditT (plug c) e (GTerm U) s r.
Proof.
  intros Hc IH. induction n as [|n IHn]; intros s r Hn H.
  - exfalso. destruct s; [|cbn in Hn; lia]. apply GTerm_first in H as (x & y & E & _). discriminate.
  - inversion H as [| | | | | |l s0 r0 Hl E1 E2 E3|l s0 r0 Hl E1 E2 E3|e0 w1 w2 s0 r0 Hw1 He Hw2 E1 E2 E3]; try (destruct c; [congruence|discriminate..]).
    + destruct c as [|l1 c l2|]; [congruence| |discriminate]. cbn [plug] in E1. injection E1 as ->. subst.
      apply items_edit in Hl as (s1 & t & s2 & -> & Ht & HD & HG); [|apply IH; reflexivity].
      exists ([91] ++ s1), t, s2. split; [discriminate|]. split; [asc|]. split; [exact Ht|]. split; [exact HD|].
      intros t' e' He'. cbn [plug]. rewrite <- app_assoc. apply GT_tuple, HG, He'.
    + destruct c as [| |l1 k c l2]; [congruence|discriminate|]. cbn [plug] in E1. injection E1 as ->. subst.
      apply members_edit in Hl as (s1 & t & s2 & -> & Ht & HD & HG); [|apply IH; reflexivity].
      exists ([123] ++ s1), t, s2. split; [discriminate|]. split; [asc|]. split; [exact Ht|]. split; [exact HD|].
      intros t' e' He'. cbn [plug]. rewrite <- app_assoc. apply GT_object, HG, He'.
    + subst. inversion He as [e1 s1 r1 Ht E1 E2 E3|e1 w s1 r1 Hw Hf Ht E1 E2 E3]; subst.
      * apply IHn in Ht as (s1 & t & s2 & H1 & -> & Ht & HD & HG); [|rewrite !app_length in Hn; cbn in Hn; lia].
        exists ([40] ++ w1 ++ s1), t, s2. split; [discriminate|]. split; [asc|]. split; [exact Ht|]. split; [exact HD|].
        intros t' e' He'. replace (([40] ++ w1 ++ s1) ++ t' ++ s2) with ([40] ++ w1 ++ s1 ++ t' ++ s2) by asc. eapply GT_paren; [exact Hw1| |exact Hw2]. apply GE_term, HG, He'.
      * apply IHn in Ht as (s2 & t & s3 & H1 & -> & Ht & HD & HG); [|rewrite !app_length in Hn; cbn in Hn; lia].
        exists ([40] ++ w1 ++ w ++ s2), t, s3. split; [discriminate|]. split; [asc|]. split; [exact Ht|]. split; [exact HD|].
        intros t' e' He'. replace (([40] ++ w1 ++ w ++ s2) ++ t' ++ s3) with ([40] ++ w1 ++ w ++ s2 ++ t' ++ s3) by asc. eapply GT_paren; [exact Hw1| |exact Hw2].
        apply GE_lead; [exact Hw| |apply HG, He']. destruct Hf as [Hf|Hf]; [left|right]; eapply FirstIs_app; eauto.
Qed.
Lemma expr_edit e c : forall s r, Delim r -> GExpr U (plug c e) s r -> EditE c e (GExpr U) s r.
Proof.
  assert (HH : forall s r, Delim r -> GExpr U e s r -> EditE Hole e (GExpr U) s r).
  { intros s r Hr H. destruct (GExpr_replace U _ _ _ H) as (t & -> & _ & _). exists [], t, r. split; [reflexivity|]. split; [exact H|]. split; [exact Hr|]. intros t' e' He'. exact He'. }
  assert (HP : forall c, c <> Hole -> (forall c1, match c with InTuple _ c0 _ => c1 = c0 | InObject _ _ c0 _ => c1 = c0 | Hole => False end ->
     forall s r, Delim r -> GExpr U (plug c1 e) s r -> EditE c1 e (GExpr U) s r) -> forall s r, Delim r -> GExpr U (plug c e) s r -> EditE c e (GExpr U) s r).
  { intros c0 Hc IH s r Hr H. inversion H as [e1 s1 r1 Ht E1 E2 E3|e1 w s1 r1 Hw Hf Ht E1 E2 E3]; subst.
    - eapply term_edit in Ht as (s1 & t & s2 & H1 & -> & Ht & HD & HG); [|exact Hc|exact IH|apply le_n].
      exists s1, t, s2. split; [reflexivity|]. split; [exact Ht|]. split; [exact HD|]. intros t' e' He'. apply GE_term, HG, He'.
    - eapply term_edit in Ht as (s2 & t & s3 & H1 & -> & Ht & HD & HG); [|exact Hc|exact IH|apply le_n].
      exists (w ++ s2), t, s3. split; [asc|]. split; [exact Ht|]. split; [exact HD|]. intros t' e' He'. rewrite <- app_assoc.
      apply GE_lead; [exact Hw| |apply HG, He']. destruct Hf as [Hf|Hf]; [left|right]; eapply FirstIs_app; eauto. }
  induction c as [|l1 c IH l2|l1 k c IH l2]; [exact HH|apply HP; [discriminate|intros c1 ->; exact IH]..].
Qed.

(** ** Elements *)
Definition EditEl (f : element -> body_t) (el : element) (s r : str) : Prop :=
  exists s1 t s2 s3, s = s1 ++ t ++ s2 /\ GElem U el (t ++ s2) s2 /\ Delim s2 /\ s2 = s3 ++ r /\
    forall t' el', (is_attr el' = true \/ is_attr el = false) -> GElem U el' (t' ++ s2) s2 -> GBody U (f el') (s1 ++ t' ++ s2) r.
Lemma GBody_suffix b s r : GBody U b s r -> exists t, s = t ++ r.
Proof.
  induction 1 as [w r Hw|el b w i s s1 s2 r Hw Hi He Hsep Hb [t ->]]; [exists w; reflexivity|].
  apply GElem_replace in He as (te & -> & _ & _). destruct Hsep as [(n & Hn & ->)|[-> E]].
  - exists (w ++ te ++ i ++ n ++ t). asc.
  - apply app_eq_nil in E as [-> ->]. exists (w ++ te ++ i). rewrite !app_nil_r. reflexivity.
Qed.
Lemma body_edit el b2 : forall b1 s r, GBody U (b1 ++ el :: b2) s r ->
  exists s1 t s2 s3, s = s1 ++ t ++ s2 /\ GElem U el (t ++ s2) s2 /\ Delim s2 /\ s2 = s3 ++ r /\
    forall t' el', GElem U el' (t' ++ s2) s2 -> GBody U (b1 ++ el' :: b2) (s1 ++ t' ++ s2) r.
Proof.
  induction b1 as [|el0 b1 IH]; intros s r H; cbn [app] in *; inversion H as [|el1 b w i s0 s1 s2 r0 Hw Hi He Hsep Hb E1 E2 E3]; subst.
  - destruct (GElem_replace U _ _ _ He) as (te & -> & _ & _).
    assert (HS : exists s3, i ++ s1 = s3 ++ r).
    { destruct (GBody_suffix _ _ _ Hb) as (tb & ->). destruct Hsep as [(n & Hn & ->)|[-> E]]; [exists (i ++ n ++ tb); asc|].
      apply app_eq_nil in E as [-> ->]. exists i. reflexivity. }
    destruct HS as [s3 HS]. exists w, te, (i ++ s1), s3. split; [reflexivity|]. split; [exact He|].
    split; [apply Delim_iws; [exact Hi|]; destruct Hsep as [(n & Hn & ->)|[-> _]]; [apply Delim_LineEnd, Hn|exact I]|]. split; [exact HS|].
    intros t' el' He'. eapply GB_cons; eassumption.
  - destruct Hsep as [(n & Hn & ->)|[-> ->]].
    + apply IH in Hb as (x1 & t & x2 & x3 & -> & Ht & HD & HS & HG). apply GElem_replace in He as (te & -> & Hte & He).
      exists (w ++ te ++ i ++ n ++ x1), t, x2, x3. split; [asc|]. split; [exact Ht|]. split; [exact HD|]. split; [exact HS|]. intros t' el' He'.
      replace ((w ++ te ++ i ++ n ++ x1) ++ t' ++ x2) with (w ++ te ++ i ++ n ++ x1 ++ t' ++ x2) by asc.
      eapply (GB_cons U el0 _ w i _ (n ++ x1 ++ t' ++ x2) (x1 ++ t' ++ x2)); [exact Hw|exact Hi| | |apply HG, He'].
      * apply He; [apply Delim_iws; [exact Hi|apply Delim_LineEnd, Hn]|apply EolAt_LineEnd, Hn].
      * left. exists n. auto.
    + exfalso. apply GBody_nil_inv in Hb as [E _]; [|reflexivity]. destruct b1; discriminate.
Qed.
Lemma bplug_blk c b1 el b2 n v : bplug c (b1 ++ el :: b2) = [Attr n v] -> c = Top /\ b1 = [] /\ b2 = [] /\ el = Attr n v.
Proof.
  destruct c as [|c1 t ls c c2]; cbn [bplug]; intros E.
  - destruct b1 as [|x [|]]; [injection E as -> ->; auto|discriminate..].
  - destruct c1 as [|x [|]]; discriminate.
Qed.
Lemma bplug_nil c b1 el b2 : bplug c (b1 ++ el :: b2) <> [].
Proof. destruct c as [|c1 t ls c c2]; cbn [bplug]; intros E; [destruct b1|destruct c1]; discriminate. Qed.
Lemma elem_edit b1 el b2 c : forall s r, GBody U (bplug c (b1 ++ el :: b2)) s r -> EditEl (fun el' => bplug c (b1 ++ el' :: b2)) el s r.
Proof.
  induction c as [|c1 t ls c IH c2]; cbn [bplug]; intros s r H; apply body_edit in H as (s1 & t0 & s2 & s3 & -> & Ht & HD & HS & HG).
  - exists s1, t0, s2, s3. split; [reflexivity|]. split; [exact Ht|]. split; [exact HD|]. split; [exact HS|]. intros t' el' _. apply HG.
  - inversion Ht as [|tb lsb i1 z z' r0 Hi1 Hid HL E1 E2 E3|tb lsb n v i1 i2 z z' z2 r0 Hi1 Hi2 Hid HL Ha E1 E2 E3|tb lsb b i1 n z z' z2 r0 Hi1 Hn Hid HL HB E1 E2 E3]; subst.
    + exfalso. match goal with [ E : [] = bplug _ _ |- _ ] => symmetry in E; apply bplug_nil in E; exact E end.
    + match goal with [ E : [Attr n v] = bplug _ _ |- _ ] => symmetry in E; apply bplug_blk in E as (-> & -> & -> & ->) end.
      destruct (GIdentLabels_replace U _ _ _ _ _ Hid HL) as (ti & tl & E & Hti & HR).
      destruct (GAttr_replace U _ _ _ _ Ha) as (ta & -> & Hta & _).
      exists (s1 ++ ti ++ tl ++ [123] ++ i1), ta, (i2 ++ [125] ++ s3 ++ r), (i2 ++ [125] ++ s3). split; [rewrite E; asc|]. split; [apply GE_attr; exact Ha|].
      split; [apply Delim_iws; [exact Hi2|reflexivity]|]. split; [asc|]. intros t' el' Hk He'. destruct Hk as [Hk|Hk]; [|discriminate]. destruct el' as [n' v'|]; [|discriminate].
      replace ((s1 ++ ti ++ tl ++ [123] ++ i1) ++ t' ++ i2 ++ [125] ++ s3 ++ r) with (s1 ++ (ti ++ tl ++ [123] ++ i1 ++ t' ++ i2 ++ [125]) ++ s3 ++ r) by asc.
      apply HG. replace ((ti ++ tl ++ [123] ++ i1 ++ t' ++ i2 ++ [125]) ++ s3 ++ r) with (ti ++ tl ++ 123 :: i1 ++ t' ++ i2 ++ [125] ++ s3 ++ r) by asc.
      destruct (HR (i1 ++ t' ++ i2 ++ [125] ++ s3 ++ r)) as [Q1 Q2]. cbn [bplug app].
      eapply (GE_one_line U _ _ _ _ i1 i2); [exact Hi1|exact Hi2|exact Q1|exact Q2|]. inversion He'; subst. assumption.
    + destruct (GIdentLabels_replace U _ _ _ _ _ Hid HL) as (ti & tl & E & Hti & HR).
      apply IH in HB as (x1 & x & x2 & x3 & -> & Hx & HDx & -> & HGx).
      exists (s1 ++ ti ++ tl ++ [123] ++ i1 ++ n ++ x1), x, (x3 ++ [125] ++ s3 ++ r), (x3 ++ [125] ++ s3).
      split; [rewrite E; asc|]. split; [exact Hx|]. split; [exact HDx|]. split; [asc|].
      intros t' el' Hk He'.
      replace ((s1 ++ ti ++ tl ++ [123] ++ i1 ++ n ++ x1) ++ t' ++ x3 ++ [125] ++ s3 ++ r) with (s1 ++ (ti ++ tl ++ [123] ++ i1 ++ n ++ x1 ++ t' ++ x3 ++ [125]) ++ s3 ++ r) by asc.
      apply HG. replace ((ti ++ tl ++ [123] ++ i1 ++ n ++ x1 ++ t' ++ x3 ++ [125]) ++ s3 ++ r) with (ti ++ tl ++ 123 :: i1 ++ n ++ x1 ++ t' ++ x3 ++ [125] ++ s3 ++ r) by asc.
      destruct (HR (i1 ++ n ++ x1 ++ t' ++ x3 ++ [125] ++ s3 ++ r)) as [Q1 Q2].
      eapply (GE_block U _ _ _ i1 n); [exact Hi1|exact Hn|exact Q1|exact Q2|]. apply (HGx t' el' Hk He').
Qed.

(** ** Sub-expressions of a document *)
Lemma doc_expr_edit c b1 n x e b2 s : GConfig U (bplug c (b1 ++ Attr n (plug x e) :: b2)) s ->
  exists s1 t s2, s = s1 ++ t ++ s2 /\ GExpr U e (t ++ s2) s2 /\ Delim s2 /\
    forall t' e', GExpr U e' (t' ++ s2) s2 -> GConfig U (bplug c (b1 ++ Attr n (plug x e') :: b2)) (s1 ++ t' ++ s2).
Proof.
  intros H. apply elem_edit in H as (s1 & t0 & s2 & s3 & -> & Ht & HD & HS & HG).
  inversion Ht as [i e0 z z' Ha E1 E2 E3| | |]; subst. inversion Ha as [i e0 i1 i2 z z' r Hi1 Hi2 Hi He]; subst.
  apply expr_edit in He as (x1 & t & x2 & -> & Hx & HDx & HGx); [|exact HD].
  apply GIdent_replace in Hi as (ti & E & Hti & Hi).
  exists (s1 ++ ti ++ i1 ++ [61] ++ i2 ++ x1), t, x2. split; [rewrite E; asc|]. split; [exact Hx|]. split; [exact HDx|].
  intros t' e' He'. specialize (HGx _ _ He').
  (* the expression's text ends where it ended *)
  destruct (GExpr_replace U _ _ _ HGx) as (q & Eq & _ & _).
  replace ((s1 ++ ti ++ i1 ++ [61] ++ i2 ++ x1) ++ t' ++ x2) with (s1 ++ (ti ++ i1 ++ [61] ++ i2 ++ q) ++ s3 ++ []) by (rewrite <- !app_assoc; rewrite Eq; asc).
  apply HG; [left; reflexivity|]. apply GE_attr.
  replace ((ti ++ i1 ++ [61] ++ i2 ++ q) ++ s3 ++ []) with (ti ++ i1 ++ [61] ++ i2 ++ q ++ s3 ++ []) by asc.
  apply (GA U n _ i1 i2 _ (q ++ s3 ++ [])); [exact Hi1|exact Hi2| |].
  - apply Hi. apply Delim_iws; [exact Hi1|reflexivity].
  - rewrite <- Eq. exact HGx.
Qed.

(** ** Bodies *)
Lemma body_doc b : forall s r, GBody U b s (125 :: r) -> exists t, s = t ++ 125 :: r /\ GConfig U b t.
Proof.
  induction b as [|el b IH]; intros s r H; inversion H as [w r0 Hw E1 E2 E3|el1 b0 w i s0 s1 s2 r0 Hw Hi He Hsep Hb E1 E2 E3]; subst.
  - exists w. split; [reflexivity|]. rewrite <- (app_nil_r w). apply GB_nil, Hw.
  - apply IH in Hb as (t & -> & Hb). destruct Hsep as [(n & Hn & ->)|[-> E]]; [|destruct t; discriminate].
    apply GElem_replace in He as (te & -> & Hte & He). exists (w ++ te ++ i ++ n ++ t). split; [asc|].
    eapply (GB_cons U el b w i _ (n ++ t) t); [exact Hw|exact Hi| | |exact Hb].
    + apply He; [apply Delim_iws; [exact Hi|apply Delim_LineEnd, Hn]|apply EolAt_LineEnd, Hn].
    + left. exists n. auto.
Qed.
Lemma doc_body b t n r : GConfig U b t -> LineEnd n -> GBody U b (t ++ n ++ r) r.
Proof.
  intros H Hn. rewrite <- (app_nil_r b). apply (GBody_app U b [] t [] n r r H eq_refl Hn). apply (GB_nil U [] r). constructor.
Qed.
Lemma bctx_last c : c = Top \/ exists c' b1 t ls b2, forall b, bplug c b = bplug c' (b1 ++ Blk t ls b :: b2).
Proof.
  induction c as [|b1 t ls c IH b2]; [left; reflexivity|right]. destruct IH as [->|(c1 & d1 & t1 & ls1 & d2 & E)].
  - exists Top, b1, t, ls, b2. reflexivity.
  - exists (Within b1 t ls c1 b2), d1, t1, ls1, d2. intros b. cbn [bplug]. rewrite E. reflexivity.
Qed.
Lemma doc_body_edit c b s : GConfig U (bplug c b) s ->
  exists s1 x s2, s = s1 ++ x ++ s2 /\ GConfig U b x /\
    forall t b', (forall r, GBody U b' (t ++ r) r) -> GConfig U (bplug c b') (s1 ++ [10] ++ t ++ s2).
Proof.
  destruct (bctx_last c) as [->|(c' & b1 & t & ls & b2 & Hc)].
  - intros H. exists [], s, []. split; [rewrite app_nil_r; reflexivity|]. split; [exact H|]. intros t b' Hb'. cbn [bplug app].
    unfold GConfig. apply (GBody_ws U [10]); [apply Ws_LineEnd; repeat constructor|]. apply (Hb' []).
  - rewrite (Hc b). intros H. apply elem_edit in H as (s1 & t0 & s2 & s3 & -> & Ht & HD & HS & HG).
    assert (HX : exists h x, t0 ++ s2 = h ++ 123 :: x ++ 125 :: s2 /\ GConfig U b x /\
      forall b' z, GBody U b' (z ++ 125 :: s2) (125 :: s2) -> GElem U (Blk t ls b') (h ++ 123 :: 10 :: z ++ 125 :: s2) s2).
    { assert (HN : forall ti tl, (forall q', GIdent U t (ti ++ tl ++ 123 :: q') (tl ++ 123 :: q') /\ GLabels U ls (tl ++ 123 :: q') (123 :: q')) ->
        forall b' z, GBody U b' (z ++ 125 :: s2) (125 :: s2) -> GElem U (Blk t ls b') ((ti ++ tl) ++ 123 :: 10 :: z ++ 125 :: s2) s2).
      { intros ti tl HR b' z Hz. rewrite <- app_assoc. destruct (HR (10 :: z ++ 125 :: s2)) as [Q1 Q2].
        eapply (GE_block U t ls b' [] [10]); [constructor|repeat constructor|exact Q1|exact Q2|exact Hz]. }
      inversion Ht as [|tb lsb i1 z z' r0 Hi1 Hid HL E1 E2 E3|tb lsb n v i1 i2 z z' z2 r0 Hi1 Hi2 Hid HL Ha E1 E2 E3|tb lsb bb i1 n z z' z2 r0 Hi1 Hn Hid HL HB E1 E2 E3];
        clear HG; subst tb lsb r0 z; destruct (GIdentLabels_replace U _ _ _ _ _ Hid HL) as (ti & tl & E & Hti & HR); exists (ti ++ tl).
      - exists i1. split; [rewrite E; asc|]. split; [|apply HN, HR]. unfold GConfig. rewrite <- (app_nil_r i1). apply GB_nil, Iws_Ws, Hi1.
      - apply GAttr_replace in Ha as (ta & -> & Hta & Ha). exists (i1 ++ ta ++ i2). split; [rewrite E; asc|]. split; [|apply HN, HR].
        unfold GConfig. eapply (GB_cons U _ _ i1 i2 _ [] []); [apply Iws_Ws, Hi1|exact Hi2| |right; auto|apply (GB_nil U [] []); constructor].
        apply GE_attr. rewrite !app_nil_r. apply Ha; [rewrite <- (app_nil_r i2); apply Delim_iws; [exact Hi2|exact I]|].
        intros HE. exfalso. revert HE. apply iws_eolat; [exact Hi2|lia|lia].
      - apply body_doc in HB as (tb & -> & HB). exists (i1 ++ n ++ tb). split; [rewrite E; asc|]. split; [|apply HN, HR].
        apply (GBody_ws U); [apply Iws_Ws, Hi1|]. apply (GBody_ws U); [apply Ws_LineEnd, Hn|exact HB]. }
    destruct HX as (h & x & E & Hx & HR). exists (s1 ++ h ++ [123]), x, ([125] ++ s2). split; [rewrite E; asc|]. split; [exact Hx|].
    intros t' b' Hb'. rewrite Hc.
    replace ((s1 ++ h ++ [123]) ++ [10] ++ t' ++ [125] ++ s2) with (s1 ++ (h ++ [123; 10] ++ t' ++ [125]) ++ s2) by asc.
    apply HG; [right; reflexivity|]. replace ((h ++ [123; 10] ++ t' ++ [125]) ++ s2) with (h ++ 123 :: 10 :: t' ++ 125 :: s2) by asc.
    apply HR, Hb'.
Qed.
End WithTables.
