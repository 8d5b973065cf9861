(** * MoreProofs: further consequences used by the property theorems *)
From Verif Require Import Base Nom NomFacts Ast Grammar Lex WsFacts NumFacts StrFacts HeredocFacts
  Parser ParserFacts ExprProofs BodyProofs Locality DocProofs Printer PrinterProofs PanicProofs.

Lemma Forall2_impl {A B} (P Q : A -> B -> Prop) : (forall a b, P a b -> Q a b) ->
  forall la lb, Forall2 P la lb -> Forall2 Q la lb.
Proof. intros H la lb HF. induction HF; constructor; auto. Qed.

Section WithTables.
Context (U : ucd).

(** ** The grammar is unambiguous *)
Lemma GConfig_unique s b b' : GConfig U b s -> GConfig U b' s -> b = b'.
Proof. intros H H'. apply parse_str_spec in H, H'. congruence. Qed.
Lemma GExpr_unique s r r' e e' : GExpr U e s r -> GExpr U e' s r' -> e = e' /\ r = r'.
Proof. intros H H'. apply expression_spec in H, H'. rewrite H in H'. injection H' as -> ->. auto. Qed.

Lemma Eol_Ws e : Eol e -> Ws e.
Proof. intros [|]; repeat (apply Ws_blank; [auto|]); constructor. Qed.
Lemma LineEnd_Ws n : LineEnd n -> Ws n.
Proof.
  intros [e H|c H]; [apply Eol_Ws, H|]. rewrite <- (app_nil_r c). apply Ws_line; [exact H|constructor].
Qed.

(** ** The first attribute of a document *)
Definition ElemEnd (r s2 : str) : Prop :=
  exists i s1, r = i ++ s1 /\ Iws i /\ ((exists n, LineEnd n /\ s1 = n ++ s2) \/ (s1 = [] /\ s2 = [])).

Lemma ws_whole w : Ws w -> ws_rest w = [].
Proof. intros H. rewrite <- (app_nil_r w), ws_rest_ws by exact H. apply ws_rest_nil. Qed.
Lemma app_same_tail (w s : str) : s = w ++ s -> w = [].
Proof.
  intros H. apply (f_equal (@length _)) in H. rewrite app_length in H. destruct w; [reflexivity|cbn in H; lia].
Qed.
Lemma GBody_head_inv i s s' b : GIdent U i s s' -> GConfig U b s ->
  exists el b' j s1 s2, b = el :: b' /\ Iws j /\ GElem U el s (j ++ s1) /\
    ((exists n, LineEnd n /\ s1 = n ++ s2) \/ (s1 = [] /\ s2 = [])) /\ GConfig U b' s2.
Proof.
  intros Hi H. destruct (GIdent_ws _ _ _ _ Hi) as [Hs _].
  inversion H as [w r Hw E1 E2 E3|el b' w j s0 s1 s2 r Hw Hj He Hsep Hb E1 E2 E3]; subst.
  - rewrite app_nil_r in *. rewrite ws_whole in Hs by exact Hw. subst w.
    apply GIdent_first in Hi as (? & ? & [=] & _).
  - assert (Hs0 : ws_rest s0 = s0).
    { inversion He; subst; [eapply GAttr_ws; eassumption|eapply GIdent_ws; eassumption..]. }
    rewrite ws_rest_ws, Hs0 in Hs by exact Hw. apply app_same_tail in Hs. subst w.
    exists el, b', j, s1, s2. auto.
Qed.

Lemma first_attr n i1 i2 s' e r b : IdentText U n -> Iws i1 -> Iws i2 -> GExpr U e s' r ->
  GConfig U b (n ++ i1 ++ [61] ++ i2 ++ s') <->
  exists b' s2, b = Attr (Borrowed n) e :: b' /\ ElemEnd r s2 /\ GConfig U b' s2.
Proof.
  intros Hn Hi1 Hi2 He.
  assert (Hid : GIdent U (Borrowed n) (n ++ i1 ++ [61] ++ i2 ++ s') (i1 ++ [61] ++ i2 ++ s')).
  { apply GIdent_intro; [exact Hn|]. apply Delim_iws; [exact Hi1|reflexivity]. }
  assert (HA : GAttr U (Borrowed n) e (n ++ i1 ++ [61] ++ i2 ++ s') r).
  { eapply (GA U _ _ i1 i2); eassumption. }
  split.
  - intros H. destruct (GBody_head_inv _ _ _ _ Hid H) as (el & b' & j & s1 & s2 & -> & Hj & Hel & Hsep & Hb).
    assert (Hno : forall t ls s0' q, GIdent U t (n ++ i1 ++ [61] ++ i2 ++ s') s0' -> ~ GLabels U ls s0' (123 :: q)).
    { intros t ls s0' q Ht Hl. destruct (GIdent_unique U _ _ _ _ _ Hid Ht) as [_ <-].
      apply labels_not_eq in Hl; [|eexists; reflexivity]. apply Hl. rewrite iws_rest_iws by exact Hi1.
      cbn [app]. rewrite iws_rest_stop by lia. eexists; reflexivity. }
    inversion Hel as [i e' s r0 Ha|t ls j1 s s0' r0 Hj1 Ht Hl|t ls n0 v j1 j2 s s0' s3 r0 Hj1 Hj2 Ht Hl|t ls b0 j1 n0 s s0' s3 r0 Hj1 Hn0 Ht Hl];
      subst; try (exfalso; eapply Hno; eassumption).
    pose proof (proj2 (GAttr_ws _ _ _ _ _ HA)) as Hx.
    pose proof (attribute_complete _ _ _ _ _ _ HA Hx) as E1. pose proof (attribute_complete _ _ _ _ _ _ Ha Hx) as E2.
    rewrite E1 in E2. injection E2 as Er <- <-. exists b', s2. split; [reflexivity|]. split; [|exact Hb].
    destruct (iws_rest_sound r) as (k & Hk & Ek).
    assert (Es : iws_rest s1 = s1).
    { destruct Hsep as [(n0 & Hn0 & ->)|[-> ->]]; [apply iws_rest_LineEnd, Hn0|apply iws_rest_nil]. }
    rewrite (iws_rest_iws j s1) in Er by exact Hj. rewrite Es in Er.
    exists k, s1. split; [congruence|]. split; [exact Hk|exact Hsep].
  - intros (b' & s2 & -> & (i & s1 & -> & Hi & Hsep) & Hb).
    eapply (GB_cons U _ _ [] i _ s1 s2); [constructor|exact Hi|constructor; exact HA|exact Hsep|exact Hb].
Qed.

Lemma ElemEnd_ws i s1 : Iws i -> forall n s2, LineEnd n -> s1 = n ++ s2 -> ElemEnd (i ++ s1) s2.
Proof. intros Hi n s2 Hn ->. exists i, (n ++ s2). eauto 6. Qed.

(** ** Keywords *)
Definition keyword (k : str) (e : expr) : Prop :=
  (k = lit "null" /\ e = ENull) \/ (k = lit "true" /\ e = EBool true) \/ (k = lit "false" /\ e = EBool false).
Lemma keyword_term k e r : keyword k e -> GExpr U e (k ++ r) r.
Proof. intros [[-> ->]|[[-> ->]|[-> ->]]]; apply GE_term; constructor. Qed.
Lemma keyword_ident k e : keyword k e -> IdentText U k.
Proof.
  intros H. apply IdentText_spec.
  destruct H as [[-> _]|[[-> _]|[-> _]]]; eexists _, _; (split; [reflexivity|]); split; reflexivity.
Qed.
Lemma keyword_whole k e s e' : keyword k e -> GWholeExpr U e' (k ++ s) <-> (s = [] /\ e' = e).
Proof.
  intros H. pose proof (keyword_term k e s H) as Hk. split.
  - intros H'. destruct (GExpr_unique _ _ _ _ _ Hk H'); auto.
  - intros [-> ->]. exact Hk.
Qed.
Lemma ElemEnd_delim r s2 : ElemEnd r s2 -> Delim r.
Proof.
  intros (i & s1 & -> & Hi & [(n & Hn & ->)|[-> ->]]); apply Delim_iws; try exact Hi; [apply Delim_LineEnd, Hn|exact I].
Qed.
Lemma delim_not_id_char c r : Delim (c :: r) -> id_char U c = false.
Proof. intros H. apply (delim_not_id U). exact H. Qed.

(** ** Numbers *)
Lemma NumLit_input n t : NumLit n t -> cow_str (num_input n) = t.
Proof. intros [b sg w f m x xt _ _ _]. reflexivity. Qed.
Lemma number_inv e s r : GExpr U e s r -> forall n, e = ENumber n ->
  exists x y, s = x ++ cow_str (num_input n) ++ y ++ r /\ NumLit n (cow_str (num_input n)) /\
    (x = [] -> y = [] /\ Longest NumberText (cow_str (num_input n)) r) /\
    (x <> [] -> exists w x', x = w ++ 40 :: x' /\ Ws w).
Proof.
  intros H.
  assert (HT : forall e s r, GTerm U e s r -> (forall e1 s1 r1, (length s1 < length s)%nat -> GExpr U e1 s1 r1 -> forall n, e1 = ENumber n ->
    exists x y, s1 = x ++ cow_str (num_input n) ++ y ++ r1 /\ NumLit n (cow_str (num_input n)) /\
    (x = [] -> y = [] /\ Longest NumberText (cow_str (num_input n)) r1) /\
    (x <> [] -> exists w x', x = w ++ 40 :: x' /\ Ws w)) ->
    forall n, e = ENumber n -> exists x y, s = x ++ cow_str (num_input n) ++ y ++ r /\ NumLit n (cow_str (num_input n)) /\
    (x = [] -> y = [] /\ Longest NumberText (cow_str (num_input n)) r) /\ (x <> [] -> FirstIs 40 x)).
  { clear. intros e s r H IH n ->. inversion H as [| | |n0 t r0 Hn HL| | | | |e w1 w2 s0 r0 Hw1 He Hw2]; subst.
    - exists [], []. rewrite (NumLit_input _ _ Hn). split; [reflexivity|]. split; [exact Hn|]. split; [auto|congruence].
    - destruct (IH (ENumber n) s0 (w2 ++ [41] ++ r)) with (n := n) as (x & y & -> & Hn & _ & _); [|exact He|reflexivity|].
      { cbn [app length]. rewrite app_length. lia. }
      exists (40 :: w1 ++ x), (y ++ w2 ++ [41]). split; [cbn [app]; rewrite <- !app_assoc; reflexivity|].
      split; [exact Hn|]. split; [discriminate|]. intros _. eexists; reflexivity. }
  remember (length s) as k eqn:Ek. revert e s r Ek H.
  induction k as [k IH] using lt_wf_ind; intros e s r -> H n En.
  destruct H as [e s r H|e w s r Hw Hf H].
  - destruct (HT _ _ _ H) with (n := n) as (x & y & Hs & Hn & H1 & H2); [|exact En|].
    { intros e1 s1 r1 Hl H1 n1 E1. eapply IH; [exact Hl|reflexivity|exact H1|exact E1]. }
    exists x, y. split; [exact Hs|]. split; [exact Hn|]. split; [exact H1|]. intros Hx. destruct (H2 Hx) as (x' & ->).
    exists [], x'. split; [reflexivity|constructor].
  - destruct (HT _ _ _ H) with (n := n) as (x & y & Hs & Hn & H1 & H2); [|exact En|].
    { intros e1 s1 r1 Hl H1 n1 E1. eapply IH; [|reflexivity|exact H1|exact E1]. rewrite app_length. lia. }
    exists (w ++ x), y. split; [rewrite Hs, <- app_assoc; reflexivity|]. split; [exact Hn|].
    destruct x as [|c x].
    + exfalso. rewrite Hs in Hf. pose proof Hn as Hn'. apply NumLit_first in Hn' as (c & q & E & Hc). rewrite E in Hf.
      destruct Hf as [[z Hz]|[z Hz]]; cbn [app] in Hz; injection Hz as -> _; destruct Hc as [Hc|[Hc|[Hc|Hc]]]; discriminate.
    + split; [destruct w; discriminate|]. intros _. destruct H2 as (x' & ->); [discriminate|]. exists w, x'. auto.
Qed.

(** ** Heredocs in documents *)
Definition NoClosing (m p t : str) : Prop :=
  forall x y b r, p = x ++ y -> y <> [] -> ~ Closing m b (y ++ t) r.

Lemma heredoc_value n m d e content b t r : IdentText U n -> MarkerText U m -> d = [] \/ d = [45] -> Eol e ->
  Closing m b t r -> NoClosing m (e ++ content) t ->
  forall v, (if match d, b with [45], _ :: _ => true | _, _ => false end
    then exists out, Unindent (length b) content out /\ v = Owned out else v = Borrowed content) ->
  forall b' s2, r = s2 ->
  GConfig U (Attr (Borrowed n) (EString v) :: b') (n ++ lit " = <<" ++ d ++ m ++ e ++ content ++ t) <-> GConfig U b' s2.
Proof.
  intros Hn Hm Hd He Hc HN v Hv b' s2 <-.
  assert (HG : GExpr U (EString v) ([60; 60] ++ d ++ m ++ (e ++ content) ++ t) r).
  { apply GE_term, GT_heredoc. eapply GH; [exact Hm|exact Hd|exact Hc|exact HN|].
    assert (He' : exists c q, e ++ content = c :: q) by (destruct He; eexists _, _; reflexivity).
    destruct He' as (c & q & Eq). rewrite Eq. exists e, content. split; [exact He|]. split; [symmetry; exact Eq|exact Hv]. }
  pose proof (first_attr n [32] [32] _ _ _ (Attr (Borrowed n) (EString v) :: b') Hn Iws_space Iws_space HG) as HF.
  change (lit " = <<") with ([32] ++ [61] ++ [32] ++ [60; 60]). rewrite <- !app_assoc in *.
  rewrite HF. destruct Hc as (e1 & e' & r' & He1 & Hb & He' & -> & ->). split.
  - intros (b2 & s2 & [= <-] & (i & s1 & E & Hi & Hsep) & Hb'). destruct i as [|c i].
    + cbn [app] in E. subst s1. destruct Hsep as [(nl & Hnl & E)|[E _]]; [|destruct He'; discriminate].
      assert (e' ++ r' = nl ++ s2 -> ws_rest (e' ++ r') = ws_rest s2) as HW.
      { intros ->. apply ws_rest_ws, LineEnd_Ws, Hnl. }
      rewrite E. apply (GBody_ws U); [apply LineEnd_Ws, Hnl|exact Hb'].
    + exfalso. assert (Hcc : c = 32 \/ c = 9 \/ c = 47).
      { inversion Hi as [|c' w Hc' Hi' E1|c' w [q Hq] Hi' E1]; subst; [tauto|auto]. }
      destruct He'; cbn [app] in E; injection E as <- _; lia.
  - intros HB. exists b', r'. split; [reflexivity|]. split.
    + exists [], (e' ++ r'). split; [reflexivity|]. split; [constructor|]. left. exists e'. split; [constructor; exact He'|reflexivity].
    + apply parse_str_spec. apply parse_str_spec in HB. rewrite <- HB. symmetry. apply parse_str_ws.
      apply LineEnd_Ws. constructor. exact He'.
Qed.

Lemma heredoc_panic n m e content b t r : IdentText U n -> MarkerText U m -> Eol e ->
  Closing m b t r -> NoClosing m (e ++ content) t -> b <> [] -> ~ (exists out, Unindent (length b) content out) ->
  parse_str U (n ++ lit " = <<-" ++ m ++ e ++ content ++ t) = PanicR.
Proof.
  intros Hn Hm He Hc HN Hb Hout.
  change (lit " = <<-") with ([32] ++ [61] ++ [32] ++ [60; 60] ++ [45]).
  set (h := [60; 60] ++ [45] ++ m ++ (e ++ content) ++ t).
  replace (n ++ ([32] ++ [61] ++ [32] ++ [60; 60] ++ [45]) ++ m ++ e ++ content ++ t)
    with (n ++ [32] ++ [61] ++ [32] ++ h) by (unfold h; rewrite <- !app_assoc; reflexivity).
  assert (Eh : heredoc_string U h = Panic).
  { apply heredoc_string_panic. exists [45], m, (e ++ content), b, t, r, content, (length b).
    split; [reflexivity|]. split.
    - split; [exact Hm|]. split; [auto|]. split; [exact Hc|]. split; [exact HN|].
      destruct (e ++ content) as [|c q] eqn:Eq; [destruct He; discriminate|]. rewrite <- Eq. exists e. auto.
    - destruct (unindent_heredoc content (length b)) as [v|] eqn:E; [|reflexivity]. exfalso. apply Hout.
      apply unindent_ok in E as (out & Ho & _); [eauto|]. destruct b; [congruence|cbn; lia]. }
  assert (Ee : expression U h = Panic).
  { rewrite expression_eq. unfold expression_step, h in *. cbn [app] in *.
    rewrite alt_err by (apply pmap_err, null_first; lia).
    rewrite alt_err by (apply pmap_err, number_first_err; (reflexivity || lia)).
    rewrite alt_err by (apply pmap_err, boolean_first; lia).
    unfold alt at 1, pmap at 1, string_p, alt at 1, pmap at 1. rewrite quoted_string_first by lia. cbn [map_res bind].
    rewrite Eh. reflexivity. }
  assert (Hid : GIdent U (Borrowed n) (n ++ [32] ++ [61] ++ [32] ++ h) ([32] ++ [61] ++ [32] ++ h)).
  { apply GIdent_intro; [exact Hn|reflexivity]. }
  destruct (GIdent_ws _ _ _ _ Hid) as [Hw1 Hw2]. apply identifier_ok in Hid.
  set (D := n ++ [32] ++ [61] ++ [32] ++ h) in *.
  assert (Ea : attribute U D = Panic).
  { unfold attribute. rewrite iws_m, wrap_iws, Hw2, Hid. cbn [bind]. rewrite wrap_iws.
    change (iws_rest ([32] ++ [61] ++ [32] ++ h)) with (iws_rest ([32] ++ 61 :: [32] ++ h)).
    rewrite iws_rest_iws by exact Iws_space. rewrite iws_rest_stop by lia. unfold char_p. change (61 =? c_eq) with true. cbn [bind].
    rewrite wrap_iws, (iws_rest_iws [32] h) by exact Iws_space.
    replace (iws_rest h) with h by (symmetry; apply iws_rest_stop; lia). rewrite Ee. reflexivity. }
  unfold parse_str, config_file, exact, terminated. rewrite body_unfold.
  rewrite many0_eq by apply wf_upto_of, wf_body_item. unfold body_item at 1. rewrite wrap_ws, Hw1.
  unfold terminated, body_element, alt at 1, pmap at 1. rewrite Ea. reflexivity.
Qed.

Lemma GConfig_ext b s s' : s = s' -> GConfig U b s' -> GConfig U b s.
Proof. intros ->. auto. Qed.
Lemma heredoc_empty_doc n m d b t r b' : IdentText U n -> MarkerText U m -> d = [] \/ d = lit "-" ->
  Closing m b t r -> parse_str U r = OkR b' ->
  parse_str U (n ++ lit " = <<" ++ d ++ m ++ t) = OkR (Attr (Borrowed n) (EString (Borrowed [])) :: b').
Proof.
  intros Hn Hm Hd Hc Hb'. apply parse_str_spec in Hb'. apply parse_str_spec.
  assert (HG : GExpr U (EString (Borrowed [])) ([60; 60] ++ d ++ m ++ [] ++ t) r).
  { apply GE_term, GT_heredoc. eapply GH; [exact Hm|exact Hd|exact Hc| |reflexivity].
    intros x y b0 r0 E Hy. symmetry in E. apply app_eq_nil in E as [_ ->]. congruence. }
  apply (first_attr n [32] [32] _ _ _ _ Hn Iws_space Iws_space HG).
  destruct Hc as (e1 & e' & r' & He1 & Hb & He' & -> & ->). exists b', r'. split; [reflexivity|]. split.
  + exists [], (e' ++ r'). split; [reflexivity|]. split; [constructor|]. left. exists e'. split; [constructor; exact He'|reflexivity].
  + apply parse_str_spec. apply parse_str_spec in Hb'. rewrite <- Hb'. symmetry. apply parse_str_ws, Eol_Ws, He'.
Qed.

(** ** A member of an object must be followed by a separator *)
Lemma GKey_unique k s r k' r' : GKey U k s r -> GKey U k' s r' -> k = k' /\ r = r'.
Proof.
  intros H H'. apply (expression_complete_mut U) in H as [_ H]. apply (expression_complete_mut U) in H' as [_ H'].
  rewrite H in H'. injection H' as -> ->. auto.
Qed.
Lemma object_missing_sep k kt e et r : KeyText U k kt -> GExpr U e (et ++ r) r ->
  (forall i s, r = i ++ s -> Iws i -> ~ (FirstIs 44 s \/ FirstIs 125 s \/ exists n q, LineEnd n /\ s = n ++ q)) ->
  forall e', expression_parse U (lit "{" ++ kt ++ lit " = " ++ et ++ r) <> OkR e'.
Proof.
  intros Hk He Hno e' H. apply expression_parse_spec in H. unfold GWholeExpr in H.
  change (lit "{" ++ ?x) with (123 :: x) in H.
  apply GExpr_term in H; [|apply ws_rest_stop; lia].
  change (lit " = ") with ([32] ++ [61] ++ [32]) in H. rewrite <- !app_assoc in H.
  assert (HM : exists l, GMembers U l (kt ++ [32] ++ [61] ++ [32] ++ et ++ r) []).
  { inversion H; subst;
    try match goal with
    | Hn : NumLit _ ?t, E : ?t ++ _ = _ :: _ |- _ =>
        exfalso; apply NumLit_first in Hn as (? & ? & -> & Hn); cbn in E; injection E as -> _;
        destruct Hn as [Hn|[Hn|[Hn|Hn]]]; discriminate
    | Hh : GHeredoc _ _ (_ :: _) _ |- _ => exfalso; inversion Hh
    end. eauto. }
  destruct HM as (l & HM). clear H e'.
  assert (HK : GKey U k (kt ++ [32] ++ [61] ++ [32] ++ et ++ r) ([32] ++ [61] ++ [32] ++ et ++ r)).
  { apply KeyText_spec; [exact Hk|reflexivity]. }
  set (T := [32] ++ [61] ++ [32] ++ et ++ r) in HK, HM. assert (ET : T = [32] ++ [61] ++ [32] ++ et ++ r) by reflexivity. clearbody T.
  remember (kt ++ T) as D eqn:ED.
  pose proof (GKey_ws _ _ _ _ HK) as [Hw _].
  inversion HM as [w r0 Hw0 E1 E2 E3|k' e' l' w i1 i2 i3 s0 s' s3 s4 r0 Hw0 Hi1 Hi2 Hi3 Hk' He' Hsep HM' E1 E2 E3].
  - rewrite <- E2 in Hw. rewrite ws_rest_ws in Hw by exact Hw0. cbn [app] in Hw. rewrite ws_rest_stop in Hw by lia.
    change (w ++ [125]) with (w ++ 125 :: []) in Hw. apply app_same_tail in Hw. subst w.
    rewrite <- E2 in HK.
    apply GKey_first in HK as (c & q & E & Hc). subst r0. injection E as <- _.
    destruct Hc as [Hc|Hc]; [rewrite id_first_ascii in Hc by lia|]; discriminate.
  - rewrite <- E2 in Hw. rewrite ws_rest_ws in Hw by exact Hw0. destruct (GKey_ws _ _ _ _ Hk') as [Hw' _]. rewrite Hw' in Hw.
    apply app_same_tail in Hw. subst w. cbn [app] in E2. rewrite E2 in Hk'.
    destruct (GKey_unique _ _ _ _ _ HK Hk') as [_ E]. rewrite ET in E.
    apply (f_equal iws_rest) in E. rewrite (iws_rest_iws [32]) in E by exact Iws_space.
    rewrite (iws_rest_iws i1) in E by exact Hi1. cbn [app] in E. rewrite !iws_rest_stop in E by lia.
    injection E as E. apply (f_equal iws_rest) in E. change (32 :: et ++ r) with ([32] ++ et ++ r) in E.
    rewrite (iws_rest_iws [32]) in E by exact Iws_space. rewrite (iws_rest_iws i2) in E by exact Hi2.
    apply expression_reads in He as (_ & _ & He & _). apply expression_reads in He' as (_ & _ & He' & _).
    rewrite <- E, He in He'. injection He' as Er _.
    apply (Hno i3 s3 Er Hi3). destruct Hsep as [->|[(n & Hn & ->)|[-> Hf]]]; [left; eexists; reflexivity|right; right; eauto|auto].
Qed.

(** ** Comments that the end of input leaves unterminated *)
Lemma unterminated_comment t : NoEol t -> forall b, ~ GConfig U b (35 :: t).
Proof.
  intros Ht b H. 
  assert (HW : forall w r, Ws w -> 35 :: t = w ++ r -> w = []).
  { intros w r Hw E. destruct Hw as [|c w Hc Hw|c w [x Hx] Hw|c w [x y Hx Hy|x y Hx Hy] Hw]; [reflexivity|..]; cbn [app] in E; try discriminate.
    - injection E as <- _. lia.
    - exfalso. injection E as E. assert (Hin : In 10 t). { rewrite E, !in_app_iff. assert (In 10 y) by (destruct Hy; cbn; auto). auto. }
      apply Ht in Hin. lia. }
  inversion H as [w r Hw E1 E2 E3|el b' w j s0 s1 s2 r Hw Hj He Hsep Hb E1 E2 E3]; subst.
  - pose proof (HW w [] Hw (eq_sym E2)) as ->. discriminate.
  - pose proof (HW w s0 Hw (eq_sym E2)) as ->. cbn [app] in E2. subst s0.
    assert (exists i r, GIdent U i (35 :: t) r) as (i & r & Hi).
    { inversion He as [i e s r0 [i' e' j1 j2 s' s'' r' _ _ Hi _]| | |]; subst; eauto. }
    apply GIdent_first in Hi as (c & q & [= <- _] & Hc). rewrite id_first_ascii in Hc by lia. discriminate.
Qed.
End WithTables.
