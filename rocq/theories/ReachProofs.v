(** * ReachProofs: which values documents stand for *)
From Coq Require Import Permutation ZArith Reals SpecFloat Lia.
From Verif Require Import Base Ast NomFacts NumFacts StrFacts Blocks BlockSpec NumConv NumSpec NumProofs PropNum IoSpec
  Serde SerdeSpec Grammar Printer PrinterProofs FloatSpec PropFloatRead DenSpec ReachSpec ReachFloat.
Local Open Scope nat_scope.

Section WithTables.
Context (U : ucd).

(** ** Trees of texts *)
Inductive TextE : expr -> Prop :=
| TE_null : TextE ENull
| TE_bool b : TextE (EBool b)
| TE_number n : TextE (ENumber n)
| TE_string v : IsStr (cow_str v) -> TextE (EString v)
| TE_tuple l : Forall TextE l -> TextE (ETuple l)
| TE_object l : Forall (fun ke => TextK (fst ke) /\ TextE (snd ke)) l -> TextE (EObject l)
with TextK : okey -> Prop :=
| TK_ident i : Name U (cow_str i) -> TextK (KIdent i)
| TK_expr t : TextK (KExpr t).
Inductive TextEl : element -> Prop :=
| TEl_attr n e : Name U (cow_str n) -> TextE e -> TextEl (Attr n e)
| TEl_blk t ls b : Name U (cow_str t) -> Forall TextEl b -> TextEl (Blk t ls b).
Definition TextB (b : body_t) : Prop := Forall TextEl b.

Lemma str_app a b : IsStr (a ++ b) <-> IsStr a /\ IsStr b.
Proof. apply Forall_app. Qed.
Lemma str_cons c s : IsStr (c :: s) <-> valid_char c = true /\ IsStr s.
Proof. split; [inversion 1; auto|intros [? ?]; constructor; auto]. Qed.
Lemma str_repeat c n : valid_char c = true -> IsStr (repeat c n).
Proof. intros H. induction n; constructor; assumption. Qed.
Ltac strs := repeat rewrite ?str_app, ?str_cons in *; intuition.

Lemma chars_str P v s r : GChars P v s r -> IsStr s -> IsStr v /\ IsStr r.
Proof.
  induction 1 as [r|c v s r Hc _ IH|n t v s r He HL Hn _ IH]; intros H.
  - split; [constructor|exact H].
  - apply str_cons in H as [? H]. apply IH in H as [? ?]. split; [constructor|]; assumption.
  - apply str_cons in H as [_ H]. apply str_app in H as [_ H]. apply IH in H as [? ?]. split; [constructor; [apply valid_char_spec|]|]; assumption.
Qed.
Lemma unlines_str ls : Forall IsStr ls <-> IsStr (unlines ls).
Proof.
  induction ls as [|l [|l' ls] IH]; [split; constructor|split; [inversion 1; assumption|intros H; constructor; [exact H|constructor]]|].
  change (unlines (l :: l' :: ls)) with (l ++ [10%N] ++ unlines (l' :: ls)). rewrite !str_app, <- IH. split.
  - inversion 1; subst. split; [assumption|]. split; [repeat constructor|assumption].
  - intros (? & _ & ?). constructor; assumption.
Qed.
Lemma unindent_str n c o : Unindent n c o -> IsStr c -> IsStr o.
Proof.
  intros (ls & os & _ & _ & -> & -> & H). rewrite <- !unlines_str. induction H as [|l o' ls os H _ IH]; intros HF; [constructor|].
  inversion HF as [|? ? Hl HF']; subst. constructor; [|auto]. destruct H; apply str_app in Hl; apply Hl.
Qed.
Lemma heredoc_str v s r : GHeredoc U v s r -> IsStr s -> IsStr (cow_str v) /\ IsStr r.
Proof.
  intros [d m p b t r' v' Hm Hd HC _ Hv] H. destruct HC as (e & e' & r2 & _ & _ & _ & -> & ->).
  rewrite !str_app in H. destruct H as (_ & _ & _ & Hp & _ & _ & _ & Hr). split; [|apply str_app; exact Hr].
  destruct p as [|c p]; [subst; constructor|]. destruct Hv as (e0 & content & _ & E & Hv). rewrite E, str_app in Hp. destruct Hp as [_ Hp].
  destruct (match d with [45%N] => match b with _ :: _ => true | _ => false end | _ => false end).
  - destruct Hv as (out & Ho & ->). eapply unindent_str; eassumption.
  - subst. exact Hp.
Qed.
Lemma ident_str i s r : GIdent U i s r -> IsStr s -> Name U (cow_str i) /\ IsStr r.
Proof. intros (t & -> & -> & [HT _]) H. apply str_app in H as [? ?]. split; [split|]; assumption. Qed.

Lemma expr_str :
  (forall e s r, GTerm U e s r -> IsStr s -> TextE e /\ IsStr r) /\
  (forall e s r, GExpr U e s r -> IsStr s -> TextE e /\ IsStr r) /\
  (forall l s r, GItems U l s r -> IsStr s -> Forall TextE l /\ IsStr r) /\
  (forall l s r, GMembers U l s r -> IsStr s -> Forall (fun ke => TextK (fst ke) /\ TextE (snd ke)) l /\ IsStr r) /\
  (forall k s r, GKey U k s r -> IsStr s -> TextK k /\ IsStr r).
Proof.
  apply (grammar_mut U (fun e s r _ => IsStr s -> TextE e /\ IsStr r) (fun e s r _ => IsStr s -> TextE e /\ IsStr r)
    (fun l s r _ => IsStr s -> Forall TextE l /\ IsStr r)
    (fun l s r _ => IsStr s -> Forall (fun ke => TextK (fst ke) /\ TextE (snd ke)) l /\ IsStr r)
    (fun k s r _ => IsStr s -> TextK k /\ IsStr r)).
  - intros r H. apply str_app in H as [_ H]. split; [constructor|exact H].
  - intros r H. apply str_app in H as [_ H]. split; [constructor|exact H].
  - intros r H. apply str_app in H as [_ H]. split; [constructor|exact H].
  - intros n t r _ _ H. apply str_app in H as [_ H]. split; [constructor|exact H].
  - intros v s r HC H. apply str_app in H as [_ H]. destruct (chars_str _ _ _ _ HC H) as [H1 H2]. apply str_app in H2 as [_ H2]. split; [constructor; exact H1|exact H2].
  - intros v s r HH H. destruct (heredoc_str _ _ _ HH H). split; [constructor|]; assumption.
  - intros l s r _ IH H. apply str_app in H as [_ H]. apply IH in H as [? ?]. split; [constructor|]; assumption.
  - intros l s r _ IH H. apply str_app in H as [_ H]. apply IH in H as [? ?]. split; [constructor|]; assumption.
  - intros e w1 w2 s r _ _ IH _ H. apply str_app in H as [_ H]. apply str_app in H as [_ H]. apply IH in H as [? H]. rewrite !str_app in H. tauto.
  - auto.
  - intros e w s r _ _ _ IH H. apply str_app in H as [_ H]. auto.
  - intros w r _ H. rewrite !str_app in H. split; [constructor|tauto].
  - intros w1 w2 r _ _ H. rewrite !str_app in H. split; [constructor|tauto].
  - intros e w1 w2 s r _ _ _ IH H. apply str_app in H as [_ H]. apply IH in H as [? H]. rewrite !str_app in H. split; [repeat constructor; assumption|tauto].
  - intros e w1 w2 w3 s r _ _ _ _ IH H. apply str_app in H as [_ H]. apply IH in H as [? H]. rewrite !str_app in H. split; [repeat constructor; assumption|tauto].
  - intros e e' l w1 w2 s s' r _ _ _ IH _ IH' H. apply str_app in H as [_ H]. apply IH in H as [? H]. rewrite !str_app in H. destruct H as (_ & _ & H).
    apply IH' in H as [? ?]. split; [constructor|]; assumption.
  - intros w r _ H. rewrite !str_app in H. split; [constructor|tauto].
  - intros k e l w i1 i2 i3 s s' s3 s4 r _ _ _ _ _ IHk _ IHe Hs _ IHl H. apply str_app in H as [_ H]. apply IHk in H as [? H]. rewrite !str_app in H.
    destruct H as (_ & _ & _ & H). apply IHe in H as [? H]. apply str_app in H as [_ H].
    assert (H4 : IsStr s4). { destruct Hs as [->|[(n & _ & ->)|[-> _]]]; [apply str_app in H; apply H|apply str_app in H; apply H|exact H]. }
    apply IHl in H4 as [? ?]. split; [constructor; [split|]|]; assumption.
  - intros i s r Hi H. destruct (ident_str _ _ _ Hi H). split; [constructor|]; assumption.
  - intros e t r _ _ _ H. apply str_app in H as [_ H]. split; [constructor|exact H].
Qed.
Lemma labels_str ls s r : GLabels U ls s r -> IsStr s -> IsStr r.
Proof.
  induction 1 as [i r _|l ls i s s' r _ Hl _ IH]; intros H; apply str_app in H as [_ H]; [exact H|]. apply IH.
  destruct Hl as [i' s r' Hi|v s r' Hc]; [apply (ident_str _ _ _ Hi H)|]. apply str_app in H as [_ H]. destruct (chars_str _ _ _ _ Hc H) as [_ H']. apply str_app in H'. apply H'.
Qed.
Lemma attr_str n v s r : GAttr U n v s r -> IsStr s -> Name U (cow_str n) /\ TextE v /\ IsStr r.
Proof.
  intros [i e i1 i2 s0 s' r0 _ _ Hi He] H. destruct (ident_str _ _ _ Hi H) as [? H']. rewrite !str_app in H'. destruct H' as (_ & _ & _ & H').
  destruct (proj1 (proj2 expr_str) _ _ _ He H'). auto.
Qed.
Lemma body_str :
  (forall el s r, GElem U el s r -> IsStr s -> TextEl el /\ IsStr r) /\
  (forall b s r, GBody U b s r -> IsStr s -> TextB b /\ IsStr r).
Proof.
  apply (body_mut U (fun el s r _ => IsStr s -> TextEl el /\ IsStr r) (fun b s r _ => IsStr s -> TextB b /\ IsStr r)).
  - intros i e s r Ha H. destruct (attr_str _ _ _ _ Ha H) as (? & ? & ?). split; [constructor|]; assumption.
  - intros t ls i1 s s' r _ Hi Hl H. destruct (ident_str _ _ _ Hi H) as [? H']. apply (labels_str _ _ _ Hl) in H'. rewrite !str_app in H'. split; [constructor; [assumption|constructor]|tauto].
  - intros t ls n v i1 i2 s s' s2 r _ _ Hi Hl Ha H. destruct (ident_str _ _ _ Hi H) as [? H']. apply (labels_str _ _ _ Hl) in H'. rewrite !str_app in H'. destruct H' as (_ & _ & H').
    destruct (attr_str _ _ _ _ Ha H') as (? & ? & H2). rewrite !str_app in H2. split; [apply TEl_blk; [assumption|apply Forall_cons; [apply TEl_attr; assumption|apply Forall_nil]]|tauto].
  - intros t ls b i1 n s s' s2 r _ _ Hi Hl _ IH H. destruct (ident_str _ _ _ Hi H) as [? H']. apply (labels_str _ _ _ Hl) in H'. rewrite !str_app in H'. destruct H' as (_ & _ & _ & H').
    apply IH in H' as [? H']. apply str_app in H' as [_ H']. split; [constructor|]; assumption.
  - intros w r _ H. apply str_app in H as [_ H]. split; [constructor|exact H].
  - intros el b w i s s1 s2 r _ _ _ IHe Hs _ IHb H. apply str_app in H as [_ H]. apply IHe in H as [? H]. apply str_app in H as [_ H].
    assert (H2 : IsStr s2) by (destruct Hs as [(n & _ & ->)|[_ ->]]; [apply str_app in H; apply H|constructor]).
    apply IHb in H2 as [? ?]. split; [constructor|]; assumption.
Qed.

(** ** What a part of a document means is a value *)
Inductive TextN : node -> Prop :=
| TN_expr e : TextE e -> TextN (Expr e)
| TN_body b : TextB b -> TextN (Body b)
| TN_group bs : Forall TextB bs -> TextN (Group bs).
Lemma items_text x items : Items x items -> TextN x -> Forall TextN items.
Proof.
  intros [l|b b' bs] H; inversion H as [e He|?|? HB]; subst.
  - inversion He; subst. apply Forall_forall. intros y Hy. apply in_map_iff in Hy as (e & <- & Hin). apply TN_expr. match goal with [ HF : Forall TextE l |- _ ] => exact (proj1 (Forall_forall _ _) HF _ Hin) end.
  - apply Forall_forall. intros y Hy. apply in_map_iff in Hy as (c & <- & Hin). apply TN_body. exact (proj1 (Forall_forall _ _) HB _ Hin).
Qed.
Lemma text_block b c : TextB b -> In c (block_list b) -> Name U (cow_str (b_type c)) /\ TextB (b_body c).
Proof.
  intros H Hc. unfold block_list in Hc. apply in_flat_map in Hc as ([n e|t ls bd] & Hin & Hc); [destruct Hc|]. destruct Hc as [<-|[]].
  apply (proj1 (Forall_forall _ _) H) in Hin. inversion Hin; subst. auto.
Qed.
Lemma text_attr b n e : TextB b -> In (n, e) (attr_list b) -> Name U n /\ TextE e.
Proof.
  intros H Hc. unfold attr_list in Hc. apply in_flat_map in Hc as ([n' e'|t ls bd] & Hin & Hc); [|destruct Hc]. destruct Hc as [[= <- <-]|[]].
  apply (proj1 (Forall_forall _ _) H) in Hin. inversion Hin; subst. auto.
Qed.
Lemma members_text x ms : Members x ms -> TextN x -> Names U (map fst ms) /\ Forall (fun m => TextN (snd m)) ms.
Proof.
  induction 1 as [l ms HF HN|b groups ms Hg HF -> HN|b ms _ IH]; intros H.
  - inversion H as [e He| |]; subst. inversion He as [| | | | |? HO]; subst. split; [split; [exact HN|]|].
    + clear HN H He. induction HF as [|ke m l ms (i & Ek & ->) _ IH]; [constructor|]. inversion HO as [|? ? [Hk _] HO']; subst.
      rewrite Ek in Hk. inversion Hk; subst. constructor; [assumption|auto].
    + clear HN H He. induction HF as [|ke m l ms (i & Ek & ->) _ IH]; [constructor|]. inversion HO as [|? ? [_ Hv] HO']; subst. constructor; [constructor; exact Hv|auto].
  - inversion H as [|? HB|]; subst.
    assert (HP : Forall (fun m => Name U (fst m) /\ TextN (snd m)) (map (fun a => (fst a, Expr (snd a))) (attr_list b) ++ groups)).
    { apply Forall_app. split.
      - apply Forall_forall. intros m Hm. apply in_map_iff in Hm as ([n e] & <- & Hin). destruct (text_attr _ _ _ HB Hin). split; [assumption|constructor; assumption].
      - apply Forall_forall. intros g Hin. pose proof (proj1 (Forall_forall _ _) HF _ Hin) as (r & [l1 l2 El _ _ _] & _ & Es). split.
        + destruct (proj1 (Hg (fst g)) (in_map fst _ _ Hin)) as (c & Hc & <-). apply (text_block b); assumption.
        + rewrite Es. constructor. apply Forall_forall. intros y Hy. apply in_map_iff in Hy as (c & <- & Hc). apply (text_block b); [assumption|].
          rewrite El, !in_app_iff. auto. }
    split; [split; [exact HN|]|].
    + apply Forall_forall. intros n Hn. apply in_map_iff in Hn as (m & <- & Hm). apply (proj1 (Forall_forall _ _) HP _ Hm).
    + eapply Forall_impl; [|exact HP]. intros m [_ Hm]. exact Hm.
  - inversion H as [| |? HG]; subst. apply IH. constructor. inversion HG; assumption.
Qed.

Lemma den_not_null t x d : Den t x d -> x <> Expr ENull -> ~ OnlyNull t d.
Proof.
  revert t x d. fix IH 4. intros t x d H Hx.
  destruct H; cbn; try tauto; try congruence.
  - apply (IH _ _ _ H Hx).
  - apply (IH _ _ _ H). discriminate.
Qed.

Lemma utf8_bytes s : IsStr s -> Forall (fun b => (b < 256)%N) (utf8 s).
Proof.
  induction s as [|c s IH]; intros H; [constructor|]. apply str_cons in H as [Hc H]. unfold utf8. cbn [flat_map]. apply Forall_app. split; [|apply IH, H].
  assert (Hb : (c <= 1114111)%N).
  { unfold valid_char in Hc. destruct (N.ltb_spec c 55296); [lia|]. cbn in Hc. destruct (N.leb_spec 57344 c); [|discriminate]. cbn in Hc. apply N.leb_le in Hc. exact Hc. }
  assert (Hm : forall n, (n mod 64 < 64)%N) by (intros; apply N.mod_lt; lia).
  unfold utf8_char. destruct (N.ltb_spec c 128); [repeat constructor; lia|]. destruct (N.ltb_spec c 2048).
  { assert (c / 64 < 32)%N by (apply N.div_lt_upper_bound; lia). pose proof (Hm c). repeat constructor; lia. }
  destruct (N.ltb_spec c 65536).
  { assert (c / 4096 < 16)%N by (apply N.div_lt_upper_bound; lia). pose proof (Hm c). pose proof (Hm (c / 64)%N). repeat constructor; lia. }
  assert (c / 262144 < 16)%N by (apply N.div_lt_upper_bound; lia). pose proof (Hm c). pose proof (Hm (c / 64)%N). pose proof (Hm (c / 4096)%N). repeat constructor; lia.
Qed.

Lemma float_lit_NotNaN n f : FloatLit n f -> NotNaN 53 1024 f.
Proof. intros (t & neg & v & _ & _ & _ & H). eapply rounded_NotNaN, H. Qed.

Theorem den_val : forall t x d, Den t x d -> TextN x -> Val U t d.
Proof.
  fix IH 4. intros t x d H HX. destruct H.
  - constructor.
  - constructor.
  - constructor; [assumption|]. destruct H as (? & _ & _ & ?). assumption.
  - constructor. eapply rounded_NotNaN; eassumption.
  - constructor. eapply float_lit_NotNaN; eassumption.
  - constructor. eapply rounded_NotNaN; eassumption.
  - constructor. eapply narrowed_NotNaN; [eapply float_lit_NotNaN|]; eassumption.
  - constructor. inversion HX as [? He| |]; subst. inversion He; subst. rewrite <- H. assumption.
  - constructor. inversion HX as [? He| |]; subst. inversion He; subst. assumption.
  - constructor. inversion HX as [? He| |]; subst. inversion He; subst. assumption.
  - constructor. apply utf8_bytes. inversion HX as [? He| |]; subst. inversion He; subst. assumption.
  - constructor. clear H. induction H0 as [|y b items bs Hb _ IHl]; constructor; [|exact IHl].
    inversion Hb; subst. match goal with [ HR : InRange U8 _ |- _ ] => cbn in HR end. lia.
  - constructor.
  - constructor; [exact (IH _ _ _ H0 HX)|]. eapply den_not_null; [exact H0|congruence].
  - constructor; [exact (IH _ _ _ H HX)|]. eapply den_not_null; [exact H|discriminate].
  - constructor. exact (IH _ _ _ H HX).
  - constructor. refine (IH _ _ _ H _). constructor. inversion HX as [| |? HG]; subst. inversion HG; assumption.
  - constructor. pose proof (items_text _ _ H HX) as HT. clear H. induction H0 as [|y d items ds Hd _ IHl]; [constructor|]. inversion HT; subst. constructor; [eapply IH; eassumption|auto].
  - constructor. repeat constructor. refine (IH _ _ _ H _). constructor. inversion HX as [| |? HG]; subst. inversion HG; assumption.
  - constructor. pose proof (items_text _ _ (It_tuple l) HX) as HT. clear HX. revert HT H. generalize (map Expr l). intros ys HT H.
    induction H as [|t y d ts ys ds Hd _ IHl]; [constructor|]. inversion HT; subst. constructor; [eapply IH; eassumption|auto].
  - constructor. assert (HT : Forall TextN (map Body here)).
    { pose proof (items_text _ _ (It_blocks b b' bs) HX) as HT. rewrite H, map_app in HT. apply Forall_app in HT. apply HT. }
    clear HX H. revert HT H0. generalize (map Body here). intros ys HT H.
    induction H as [|t y d ts ys ds Hd _ IHl]; [constructor|]. inversion HT; subst. constructor; [eapply IH; eassumption|auto].
  - destruct (members_text _ _ H HX) as [HN HT]. assert (E : map fst es = map fst ms) by (clear - H1; induction H1 as [|m e ms es [E _] _ IHl]; cbn; congruence).
    constructor; [rewrite E; exact HN|rewrite E; assumption|]. clear - IH H1 HT. induction H1 as [|m e ms es [_ Hd] _ IHl]; [constructor|]. inversion HT; subst. constructor; [eapply IH; eassumption|auto].
  - destruct (members_text _ _ H HX) as [_ HT]. constructor. clear - IH H1 HT.
    induction H1 as [|ft v fs vs [E Hv] _ IHl]; [constructor|]. constructor; [|exact IHl]. split; [exact E|].
    destruct Hv as [(y & Hin & Hd)|(_ & (t & Et) & En)].
    + refine (IH _ _ _ Hd _). apply (proj1 (Forall_forall _ _) HT _ Hin).
    + rewrite Et, En. constructor.
  - constructor. assert (HT : Forall TextN here) by (pose proof (items_text _ _ H HX) as HT; apply Forall_app in HT; apply HT).
    clear - IH H0 HT. induction H0 as [|ft y v fs here vs [E Hd] _ IHl]; [constructor|]. inversion HT; subst. constructor; [split; [exact E|eapply IH; eassumption]|auto].
  - constructor.
  - constructor.
  - constructor.
  - constructor.
  - constructor.
  - constructor.
  - constructor.
  - constructor.
  - constructor.
  - constructor. inversion HX as [? He| |]; subst. inversion He; subst. assumption.
  - constructor. destruct H as (? & _ & _ & ?). assumption.
  - constructor. eapply float_lit_NotNaN; eassumption.
  - constructor. pose proof (items_text _ _ H HX) as HT. clear H. induction H0 as [|y d items ds Hd _ IHl]; [constructor|]. inversion HT; subst. constructor; [eapply IH; eassumption|auto].
  - destruct (members_text _ _ H HX) as [HN HT]. assert (E : map fst es = map fst ms) by (clear - H0; induction H0 as [|m e ms es [E _] _ IHl]; cbn; congruence).
    constructor; [rewrite E; exact HN|]. clear - IH H0 HT. induction H0 as [|m e ms es [_ Hd] _ IHl]; [constructor|]. inversion HT; subst. constructor; [eapply IH; eassumption|auto].
Qed.
Theorem den_doc t b d : Den t (Body b) d -> TextB b -> Doc U t d.
Proof.
  intros H HB. assert (HX : TextN (Body b)) by (constructor; exact HB). pose proof (den_val _ _ _ H HX) as HV.
  inversion H; subst; try (match goal with [ HI : Items (Body _) _ |- _ ] => inversion HI end); try (constructor; assumption).
  destruct (members_text _ _ H0 HX) as [[_ HN] _]. inversion HV as [| | | | | | | | | | | | | | |? ? HV'| | | | | | | |]; subst. constructor.
  clear - H2 HV' HN. induction H2 as [|ft v fs vs [E Hv] _ IHl]; [constructor|]. inversion HV' as [|? ? ? ? [_ HV1] HV2]; subst. constructor; [|auto].
  split; [exact E|]. split; [exact HV1|]. destruct Hv as [(y & Hin & _)|(_ & Ht & En)]; [left|right; auto].
  apply (proj1 (Forall_forall _ _) HN). apply (in_map fst) in Hin. exact Hin.
Qed.
End WithTables.
