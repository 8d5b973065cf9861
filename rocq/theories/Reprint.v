(** * Reprint: whatever was parsed can be written down and parsed again *)
From Verif Require Import Base Nom NomFacts Ast Grammar Lex WsFacts NumFacts StrFacts HeredocFacts
  Parser ParserFacts ExprProofs BodyProofs Locality DocProofs Printer PrinterProofs MoreProofs.

Section WithTables.
Context (U : ucd).

Lemma valid_mut :
  (forall e s r, GTerm U e s r -> ValidExpr U (own_expr e)) /\
  (forall e s r, GExpr U e s r -> ValidExpr U (own_expr e)) /\
  (forall l s r, GItems U l s r -> Forall (fun e => ValidExpr U (own_expr e)) l) /\
  (forall l s r, GMembers U l s r -> Forall (fun kv => ValidKey U (fst kv) /\ ValidExpr U (own_expr (snd kv))) l) /\
  (forall k s r, GKey U k s r -> ~ EolAt r -> ValidKey U k).
Proof.
  apply grammar_mut; intros; cbn [own_expr] in *; try (constructor; assumption); try assumption;
    try (repeat constructor; assumption).
  - eapply VE_number; eassumption.
  - constructor. apply Forall_map. assumption.
  - constructor. apply Forall_map. assumption.
  - constructor; [|assumption]. cbn [fst snd]. split; [|assumption].
    match goal with H : ~ EolAt _ -> ValidKey _ _ |- _ => apply H end.
    intros HE. destruct i1 as [|c i1']; cbn [app] in HE.
    + apply EolAt_cons in HE as [HE|[HE _]]; discriminate.
    + apply EolAt_cons in HE. assert (HE2 : c = 10 \/ c = 13) by tauto. match goal with H : Iws (c :: _) |- _ => inversion H as [|c9 w9 Hc9 Hi9 E9|c9 w9 [q Hq] Hi9 E9] end; subst; lia.
  - match goal with H : GIdent _ _ _ _ |- _ => destruct H as (t & -> & _ & [Ht _]) end. constructor. exact Ht.
  - match goal with Ht : GTerm _ _ _ _, Hn : forall i r', ~ _ |- _ => 
      pose proof (GTerm_replace _ _ _ _ Ht) as (t' & E & Hne & HR); pose proof Hn as Hno end.
    apply app_inv_tail in E. subst t'. destruct t as [|c t]; [congruence|]. 
    assert (Hc : id_first U c = false).
    { destruct (id_first U c) eqn:Hc; [|reflexivity]. exfalso. cbn [app] in Hno.
      destruct (identifier_exists U c (t ++ r) Hc) as (i & r' & Hi). eapply Hno, Hi. }
    assert (Hc1 : ~ IdStart U c) by (intros G; assert (id_first U c = true) by (apply id_first_spec; auto); congruence).
    assert (Hc2 : c <> 95) by (intros G; assert (id_first U c = true) by (apply id_first_spec; auto); congruence).
    eapply (VK_expr U e); [|exact Hc1|exact Hc2].
    specialize (HR [] I). rewrite app_nil_r in HR. apply HR. intros HE. contradiction.
Qed.
Lemma GExpr_valid e s r : GExpr U e s r -> ValidExpr U (own_expr e).
Proof. apply valid_mut. Qed.
Lemma GIdent_valid i s r : GIdent U i s r -> exists t, i = Borrowed t /\ IdentText U t.
Proof. intros (t & -> & _ & [H _]). eauto. Qed.
Lemma GAttr_valid i e s r : GAttr U i e s r -> ValidElem U (Attr i (own_expr e)).
Proof.
  intros [i' e' i1 i2 s0 s' r0 _ _ Hi He]. apply GIdent_valid in Hi as (t & -> & Ht). constructor; [exact Ht|].
  eapply GExpr_valid, He.
Qed.
Lemma GLabels_valid ls s r : GLabels U ls s r -> Forall (ValidLabel U) ls.
Proof.
  induction 1 as [|l ls i s s' r Hi Hl H IH]; constructor; [|exact IH].
  destruct Hl as [i0 s0 r0 H0|]; [|constructor]. apply GIdent_valid in H0 as (t & -> & Ht). constructor. exact Ht.
Qed.
Lemma body_valid :
  (forall el s r, GElem U el s r -> ValidElem U (own_elem el)) /\
  (forall b s r, GBody U b s r -> ValidDoc U (own_doc b)).
Proof.
  apply body_mut; cbn [own_elem].
  - intros. eapply GAttr_valid; eassumption.
  - intros t ls i1 s s' r Hi Ht Hl. apply GIdent_valid in Ht as (t' & -> & Ht). constructor; [exact Ht| |constructor].
    eapply GLabels_valid, Hl.
  - intros t ls n v i1 i2 s s' s2 r Hi1 Hi2 Ht Hl Ha. apply GIdent_valid in Ht as (t' & -> & Ht). constructor; [exact Ht| |].
    + eapply GLabels_valid, Hl.
    + constructor; [|constructor]. eapply GAttr_valid, Ha.
  - intros t ls b i1 n s s' s2 r Hi Hn Ht Hl Hb IH. apply GIdent_valid in Ht as (t' & -> & Ht). constructor; [exact Ht| |exact IH].
    eapply GLabels_valid, Hl.
  - constructor.
  - intros. constructor; assumption.
Qed.

Theorem reprint s b : parse_str U s = OkR b -> ValidDoc U (own_doc b) /\
  forall s', Fill (shape_doc (own_doc b)) s' -> parse_str U s' = OkR (own_doc b).
Proof.
  intros H. apply parse_str_spec in H. pose proof (proj2 body_valid _ _ _ H) as HV. split; [exact HV|].
  intros s' Hs'. apply parse_str_spec. apply doc_fill; assumption.
Qed.
Lemma own_expr_idem e : own_expr (own_expr e) = own_expr e.
Proof.
  induction e as [|n|b|v|l IH|l IH] using expr_ind'; cbn [own_expr]; try reflexivity.
  - f_equal. rewrite map_map. apply map_ext_Forall, IH.
  - f_equal. rewrite map_map. apply map_ext_Forall. eapply Forall_impl; [|exact IH]. cbn. intros a ->. reflexivity.
Qed.
End WithTables.
