(** * PubStruct: the public parser functions for expressions, attributes, blocks and bodies *)
From Verif Require Import Base Nom NomFacts Ast Lex Grammar WsFacts NumFacts StrFacts HeredocFacts
  Parser ParserFacts ExprProofs BodyProofs MeetsSpec MeetsProofs PubSpec PubProofs.

Lemma content_exact s r v : string_literal_content s = Ok r v <->
  GChars PlainLine v s r /\ (r = [] \/ exists c r', r = c :: r' /\ (c = 34 \/ c = 10 \/ c = 13)).
Proof.
  unfold string_literal_content. split.
  - intros H. split; [exact (chars_sound _ _ legal_line_spec eq_refl _ _ _ H)|].
    assert (Hstop : forall k s r v, (length s <= k)%nat -> escaped_transform legal_string_literal_single_line_character unescape s = Ok r v ->
      forall c r', r = c :: r' -> legal_string_literal_single_line_character c = false /\ c <> 92).
    { clear. induction k as [|k IH]; intros s r v Hk H c r' ->.
      - destruct s; [|cbn in Hk; lia]. rewrite escaped_transform_nil in H by apply wf_unescape. discriminate.
      - destruct s as [|x s]; [rewrite escaped_transform_nil in H by apply wf_unescape; discriminate|]. cbn in Hk.
        destruct (legal_string_literal_single_line_character x) eqn:Ex.
        + rewrite escaped_transform_normal in H by (apply wf_unescape || exact Ex). apply map_res_ok in H as (v' & H & ->).
          eapply IH; [|exact H|reflexivity]. lia.
        + destruct (N.eq_dec x 92) as [->|Hx].
          * rewrite escaped_transform_esc in H by (apply wf_unescape || reflexivity). destruct s as [|y s]; [discriminate|].
            apply bind_ok in H as (r1 & o & H1 & H). apply map_res_ok in H as (v' & H & ->).
            pose proof (wf_unescape (y :: s)) as Hg. rewrite H1 in Hg. cbn in Hg. apply suffix_len in Hg.
            eapply IH; [|exact H|reflexivity]. lia.
          * rewrite escaped_transform_stop in H by (apply wf_unescape || exact Ex || exact Hx). injection H as -> -> _. auto. }
    destruct r as [|c r']; [auto|]. right. exists c, r'. split; [reflexivity|].
    destruct (Hstop _ _ _ _ (Nat.le_refl _) H c r' eq_refl) as [H1 H2].
    assert (Hn : ~ PlainLine c) by (intros Hp; apply legal_line_spec in Hp; congruence). unfold PlainLine in Hn. lia.
  - intros [H Hr]. apply (chars_complete _ _ legal_line_spec eq_refl _ _ _ H).
    intros c r' ->. destruct Hr as [Hr|(c0 & r0 & [= <- <-] & Hc)]; [discriminate|].
    split; [|lia]. apply not_true_is_false. rewrite legal_line_spec. unfold PlainLine. lia.
Qed.
Lemma content_err s : string_literal_content s = Err <-> exists v, GChars PlainLine v s [92].
Proof.
  unfold string_literal_content. split.
  - remember (length s) as k eqn:Ek. revert s Ek. induction k as [k IH] using lt_wf_ind; intros s -> H.
    destruct s as [|c s]; [rewrite escaped_transform_nil in H by apply wf_unescape; discriminate|].
    destruct (legal_string_literal_single_line_character c) eqn:Ec.
    + rewrite escaped_transform_normal in H by (apply wf_unescape || exact Ec).
      destruct (escaped_transform legal_string_literal_single_line_character unescape s) as [r v| | | |] eqn:Es; try discriminate.
      destruct (IH (length s) ltac:(cbn; lia) s eq_refl Es) as (v & Hv). exists (c :: v). constructor; [apply legal_line_spec, Ec|exact Hv].
    + destruct (N.eq_dec c 92) as [->|Hc].
      * rewrite escaped_transform_esc in H by (apply wf_unescape || reflexivity). destruct s as [|x s]; [exists []; constructor|].
        destruct (unescape_outcome (x :: s)) as [(r & o & E)|E]; rewrite E in H; cbn [bind] in H; [|discriminate].
        pose proof (wf_unescape (x :: s)) as Hg. rewrite E in Hg. cbn in Hg. apply suffix_len in Hg. cbn [length] in Hg.
        destruct (escaped_transform legal_string_literal_single_line_character unescape r) as [r2 v| | | |] eqn:Es; try discriminate.
        destruct (IH (length r) ltac:(cbn; lia) r eq_refl Es) as (v & Hv).
        apply unescape_ok in E as (n & t & -> & E & HE & HL & Hn). rewrite E. exists (n :: v).
        exact (GC_esc _ n t v r _ HE HL Hn Hv).
      * rewrite escaped_transform_stop in H by (apply wf_unescape || exact Ec || exact Hc). discriminate.
  - intros (v & H). remember [92] as r eqn:Er. induction H as [r|c v s r Hc H IH|n t v s r HE HL Hv H IH]; subst.
    + rewrite escaped_transform_esc by (apply wf_unescape || reflexivity). reflexivity.
    + rewrite escaped_transform_normal by (apply wf_unescape || apply legal_line_spec, Hc). rewrite IH by reflexivity. reflexivity.
    + cbn [app]. rewrite escaped_transform_esc by (apply wf_unescape || reflexivity).
      assert (E : unescape (t ++ s) = Ok s [n]) by (apply unescape_ok; exists n, t; auto 6).
      destruct (t ++ s) as [|x ts] eqn:Ets.
      * apply app_eq_nil in Ets as [-> _]. exfalso. apply EscShape_nonempty in HE. apply HE; reflexivity.
      * rewrite E. cbn [bind]. rewrite IH by reflexivity. reflexivity.
Qed.
Lemma content_fails s q : string_literal_content s = Fail q <-> BadEscape PlainLine q ([34] ++ s).
Proof.
  rewrite <- literal_bad. unfold string_literal, delimited. cbn [app]. change (tag [c_dquote] (34 :: s)) with (tag [34] ([34] ++ s)).
  rewrite tag_app. cbn [bind]. destruct (string_literal_content s) as [r v| | | |]; cbn [bind]; try tauto; try (split; discriminate).
  destruct (simple_tag [c_dquote] r) as [(r1 & v1 & E)|E]; rewrite E; cbn [bind]; split; discriminate.
Qed.

Section WithTables.
Context (U : ucd).
Local Notation E := (expression U).
Local Notation B := (body U).

(** ** Success *)
Lemma tuple_exact s r l : tuple E s = Ok r l <-> exists s1, s = [91] ++ s1 /\ GItems U l s1 r.
Proof.
  split.
  - intros H. apply (tuple_sound U (length s)) in H; [exact H|apply SoundAll|lia].
  - intros (s1 & -> & H). apply expression_complete_mut in H as (r1 & H1 & H2 & _). apply tuple_ok. exists s1, r1. auto.
Qed.
Lemma object_exact s r l : object U E s = Ok r l <-> exists s1, SkipWs s ([123] ++ s1) /\ GMembers U l s1 r.
Proof.
  rewrite object_ok. split.
  - intros (s1 & r1 & H1 & H2 & H3). exists s1. split; [apply skip_ws; symmetry; exact H1|].
    destruct (ws_split s1) as (w1 & Hw1 & Es1). rewrite Es1. apply GMembers_ws; [exact Hw1|].
    eapply (members_sound U (S (length (ws_rest s1))) (SoundAll U _) (length (ws_rest s1))); [| |exact H2|exact H3]; lia.
  - intros (s1 & H1 & H). apply skip_ws in H1. apply expression_complete_mut in H as [_ H].
    destruct (H (ws_rest s1) (ws_rest_idem s1)) as (r1 & H2 & H3). exists s1, r1. auto.
Qed.
Lemma paren_exact s r e : bracket_expression E s = Ok r e <->
  exists s1 s2 r1, SkipWs s ([40] ++ s1) /\ SkipWs s1 s2 /\ GExpr U e s2 r1 /\ SkipWs r1 ([41] ++ r).
Proof.
  rewrite bracket_ok. split.
  - intros (s1 & r1 & H1 & H2 & H3). exists s1, (ws_rest s1), r1. split; [apply skip_ws; auto|]. split; [apply skip_ws_here|].
    split; [apply expression_spec, H2|]. apply skip_ws; auto.
  - intros (s1 & s2 & r1 & H1 & H2 & H3 & H4). apply skip_ws in H1, H2, H4. subst s2. apply expression_spec in H3. exists s1, r1. auto.
Qed.
Lemma key_exact s r k : object_element_identifier U E s = Ok r k <-> KeyText U k s r.
Proof.
  unfold object_element_identifier. split.
  - intros H. apply alt_inv in H as [H|[H0 H]]; apply pmap_inv in H as (v & H & ->).
    + apply identifier_ok in H. constructor. exact H.
    + unfold recognize in H. apply bind_ok in H as (r' & e & H & E1). injection E1 as <- <-.
      pose proof (wf_expression U s) as Hg. rewrite H in Hg. destruct Hg as [t ->].
      rewrite firstn_consumed. apply expression_spec in H. apply (KT_expr U e); [exact H|].
      intros i r1 Hi. apply identifier_ok in Hi. unfold pmap in H0. rewrite Hi in H0. discriminate.
  - intros [i s' r' H|e t r' H Hno].
    + apply identifier_ok in H. apply alt_ok_l, pmap_ok, H.
    + rewrite alt_err by (apply pmap_err, identifier_err; exact Hno).
      apply (pmap_ok (fun t => KExpr (Borrowed t))). apply expression_spec in H. unfold recognize. rewrite H. cbn [bind].
      rewrite firstn_consumed. reflexivity.
Qed.
Lemma element_exact s r ke : object_element U E s = Ok r ke <-> ObjElement U ke s r.
Proof.
  unfold object_element. rewrite iws_m. split.
  - intros H. apply bind_ok in H as (r3 & ke' & H & H9). injection H9 as <- <-.
    apply bind_ok in H as (q1 & k & Hk & H). rewrite wrap_iws in Hk. apply key_exact in Hk.
    apply bind_ok in H as (q2 & c & Hc & H). rewrite wrap_iws in Hc. apply char_p_ok in Hc as [Hc _].
    apply bind_ok in H as (q3 & e & He & H). rewrite wrap_iws in He. injection H as -> <-. apply expression_spec in He.
    eapply OE; [apply skip_iws_here|exact Hk|apply skip_iws; symmetry; exact Hc|apply skip_iws_here|exact He|apply skip_iws_here].
  - intros [k e s' s0 s1 s2 s3 s4 r' H0 Hk H1 H2 He H4]. apply skip_iws in H0, H1, H2, H4. subst.
    apply key_exact in Hk. rewrite wrap_iws, Hk. cbn [bind]. rewrite wrap_iws, <- H1. cbn [app]. rewrite char_p_eq. cbn [bind].
    rewrite wrap_iws. apply expression_spec in He. rewrite He. reflexivity.
Qed.
Lemma separator_exact s r v : object_separator s = Ok r v <-> ObjSeparator v s r.
Proof.
  unfold object_separator. change (lit ",") with [44]. split.
  - intros H. apply alt_inv in H as [H|[_ H]].
    + apply tag_ok in H as [-> ->]. constructor.
    + apply alt_inv in H as [H|[_ H]]; apply pmap_inv in H as (x & H & ->).
      * apply newline_exact in H. eapply OS_newline, H.
      * unfold peek in H. apply bind_ok in H as (r1 & v1 & H1 & H). injection H as -> ->.
        apply char_p_ok in H1 as [-> _]. apply OS_end. eexists; reflexivity.
  - intros [r'|l s' r' H|r' [q ->]].
    + apply alt_ok_l, tag_app.
    + assert (Hc : tag [44] s' = Err).
      { destruct H as [Hl H]. destruct H as [s1 _|v1 l1 s1 s2 r1 Hi _]; [congruence|]. destruct Hi as [t e r2 ? ?|t e r2 ? ?|t e r2 ? ?|e r2 He]; [..|destruct He]; apply tag_first; lia. }
      rewrite alt_err by exact Hc. apply newline_exact in H. apply alt_ok_l. apply (pmap_ok (fun _ => @nil char)) in H. exact H.
    + rewrite alt_err by (apply tag_first; lia). rewrite alt_err by (apply pmap_err, newline_first_err; lia). reflexivity.
Qed.
Lemma attr_exact s r i e : attribute U s = Ok r (i, e) <->
  exists s0 r0, SkipIws s s0 /\ GAttr U i e s0 r0 /\ SkipIws r0 r.
Proof.
  split.
  - intros H. apply attribute_sound in H as (r0 & H & ->). exists (iws_rest s), r0. split; [apply skip_iws_here|]. split; [exact H|apply skip_iws_here].
  - intros (s0 & r0 & H0 & H & H1). apply skip_iws in H0, H1. subst. eapply attribute_complete; [exact H|reflexivity].
Qed.
Lemma opt_attr_exact s r o : one_line_block_body U s = Ok r o <->
  match o with
  | Some (i, e) => exists s0 r0, SkipIws s s0 /\ GAttr U i e s0 r0 /\ SkipIws r0 r
  | None => r = s /\ attribute U s = Err
  end.
Proof.
  unfold one_line_block_body, opt. destruct o as [[i e]|].
  - rewrite <- attr_exact. destruct (attribute U s) as [r1 v| | | |]; split; intros H; try discriminate; injection H as -> ->; reflexivity.
  - destruct (attribute U s) as [r1 v| | | |]; split; intros H; try discriminate; try (destruct H; discriminate).
    + injection H as ->. auto.
    + destruct H as [-> _]. reflexivity.
Qed.
Lemma labels_glabels s r1 ls q : block_labels U (iws_rest s) = Ok r1 ls -> iws_rest r1 = 123 :: q -> GLabels U ls s (123 :: q).
Proof.
  intros H2 H3. apply (labels_sound U (length (iws_rest s))) in H2; [|lia]. rewrite H3 in H2.
  destruct (iws_rest_sound s) as (w & Hw & Ew). rewrite Ew. apply GLabels_iws; assumption.
Qed.
Lemma one_line_exact s r el : one_line_block U s = Ok r el <->
  exists s0 r0, SkipIws s s0 /\ OneLine U el s0 r0 /\ SkipIws r0 r.
Proof.
  split.
  - unfold one_line_block. rewrite iws_m. intros H. apply bind_ok in H as (r0 & el' & H & H9). injection H9 as <- ->.
    change (lit "{") with [123] in H. change (lit "}") with [125] in H.
    apply bind_ok in H as (r1 & t & H1 & H). rewrite wrap_iws in H1. apply identifier_ok in H1.
    apply bind_ok in H as (r2 & ls & H2 & H). rewrite wrap_iws in H2.
    apply bind_ok in H as (r3 & c & H3 & H). rewrite wrap_iws in H3. apply tag1_ok in H3.
    apply bind_ok in H as (r4 & a & H4 & H). rewrite wrap_iws in H4.
    apply bind_ok in H as (r5 & c' & H5 & H). rewrite wrap_iws in H5. apply tag1_ok in H5.
    injection H as -> <-. pose proof (labels_glabels _ _ _ _ H2 H3) as HL.
    exists (iws_rest s), r0. split; [apply skip_iws_here|]. split; [|apply skip_iws_here].
    apply opt_attr_exact in H4. destruct a as [[n v]|].
    + destruct H4 as (s0 & q & Hs & Ha & Hq). apply skip_iws in Hs, Hq. rewrite iws_rest_idem in Hs. subst.
      rewrite iws_rest_idem in H5. eapply OL_attr; [exact H1|exact HL|apply skip_iws_here|exact Ha|apply skip_iws; auto].
    + destruct H4 as [-> _]. rewrite iws_rest_idem in H5. eapply OL_empty; [exact H1|exact HL|apply skip_iws; auto].
  - intros (s0 & r0 & H0 & H & Hr). apply skip_iws in H0, Hr. subst.
    assert (Hlead : one_line_block U s = one_line_block U (iws_rest s)).
    { unfold one_line_block. rewrite !iws_m, !wrap_iws, iws_rest_idem. reflexivity. }
    rewrite Hlead. destruct H as [t ls s0 s1 s2 r Ht HL H2|t ls n v s0 s1 s2 s3 s4 r Ht HL H2 Ha H4].
    + apply skip_iws in H2. rewrite (one_line_block_head U _ _ _ _ _ Ht HL). rewrite <- H2. cbn [app].
      unfold one_line_block_body. rewrite opt_none.
      * cbn [bind]. rewrite iws_rest_stop by lia. rewrite tag1_eq. reflexivity.
      * eapply attribute_first_err; [apply iws_rest_stop; lia|rewrite id_first_ascii by lia; reflexivity].
    + apply skip_iws in H2, H4. subst s3. rewrite (one_line_block_head U _ _ _ _ _ Ht HL).
      unfold one_line_block_body. rewrite (opt_some _ _ _ _ (attribute_complete U _ _ _ _ (iws_rest s2) Ha (iws_rest_idem s2))).
      cbn [bind]. rewrite iws_rest_idem, <- H4. cbn [app]. rewrite tag1_eq. reflexivity.
Qed.
Lemma block_exact s r el : block U B s = Ok r el <->
  exists s0 r0, SkipIws s s0 /\ MultiLine U el s0 r0 /\ SkipIws r0 r.
Proof.
  split.
  - unfold block. rewrite iws_m. intros H. apply bind_ok in H as (r0 & el' & H & H9). injection H9 as <- ->.
    change (lit "{") with [123] in H. change (lit "}") with [125] in H.
    apply bind_ok in H as (r1 & t & H1 & H). rewrite wrap_iws in H1. apply identifier_ok in H1.
    apply bind_ok in H as (r2 & ls & H2 & H). rewrite wrap_iws in H2.
    apply bind_ok in H as (r3 & c & H3 & H). rewrite wrap_iws in H3. apply tag1_ok in H3.
    apply bind_ok in H as (r4 & nl & H4 & H). rewrite wrap_iws in H4.
    apply newline_sound in H4 as (n0 & w0 & Hn0 & Hw0 & H4); [|apply iws_rest_idem].
    apply bind_ok in H as (r5 & b & H5 & H). rewrite wrap_iws in H5.
    apply bind_ok in H as (r6 & c' & H6 & H). rewrite wrap_iws in H6. apply tag1_ok in H6.
    injection H as -> <-. pose proof (labels_glabels _ _ _ _ H2 H3) as HL.
    exists (iws_rest s), r0. split; [apply skip_iws_here|]. split; [|apply skip_iws_here].
    destruct (iws_rest_sound r4) as (i4 & Hi4 & E4).
    pose proof H5 as H5b. rewrite body_eq in H5b. unfold body_step in H5b. rewrite ws_m in H5b.
    apply bind_ok in H5b as (r7 & b7 & _ & H9). injection H9 as H9 _.
    apply body_sound in H5. rewrite <- H9, iws_ws_rest in H6. rewrite <- H9, H6 in H5.
    eapply ML; [exact H1|exact HL|apply skip_iws; symmetry; exact H4|exact Hn0|].
    apply GBody_ws; [exact Hw0|]. rewrite E4. apply GBody_ws; [apply Iws_Ws, Hi4|exact H5].
  - intros (s0 & r0 & H0 & H & Hr). apply skip_iws in H0, Hr. subst.
    assert (Hlead : block U B s = block U B (iws_rest s)).
    { unfold block. rewrite !iws_m, !wrap_iws, iws_rest_idem. reflexivity. }
    rewrite Hlead. destruct H as [t ls b n s0 s1 s2 s3 r Ht HL H2 Hn Hb]. apply skip_iws in H2.
    rewrite (block_head U _ _ _ _ _ Ht HL). rewrite <- H2.
    destruct (newline_complete n s3 Hn) as (r4 & v4 & H4 & H5). rewrite H4. cbn [bind].
    assert (HB : body U (iws_rest r4) = Ok (125 :: r) b).
    { apply (proj2 (body_complete_mut U) _ _ _ Hb); [right; eexists; reflexivity|]. rewrite ws_rest_iws_rest. exact H5. }
    rewrite HB. cbn [bind]. rewrite iws_rest_stop by lia. rewrite tag1_eq. reflexivity.
Qed.
Lemma body_element_exact s r el : body_element U B s = Ok r el <->
  exists s0 r0, SkipIws s s0 /\ GElem U el s0 r0 /\ SkipIws r0 r.
Proof.
  split.
  - intros H. apply (element_sound U (length s)) in H as (r0 & H & ->); [|apply BodySoundAll|lia].
    exists (iws_rest s), r0. split; [apply skip_iws_here|]. split; [exact H|apply skip_iws_here].
  - intros (s0 & r0 & H0 & H & H1). apply skip_iws in H0, H1. subst.
    assert (Hlead : body_element U B s = body_element U B (iws_rest s)).
    { unfold body_element, alt, pmap, attribute, one_line_block, block. rewrite !iws_m, !wrap_iws, iws_rest_idem. reflexivity. }
    rewrite Hlead. apply body_complete_mut in H as (_ & _ & H). exact H.
Qed.

(** ** Stops *)
Section Stop.
Context (K : stop) (T L : str -> Prop).
Context (HT : forall s, string_p U s = stopped K <-> T s) (HLab : forall s, string_literal s = stopped K <-> L s).
Local Notation Halt := (stopped K).
Ltac no H := exfalso; first [exact (ok_not_halt K _ _ H)|exact (err_not_halt K H)|exact (fuel_not_halt K H)].
Let EH := expression_halts U K T L HT HLab.

Lemma tuple_stops s : tuple E s = Halt <-> BadTuple U T s.
Proof.
  split.
  - intros H. apply (tuple_met U K T L HT HLab (length s)) in H; [exact H| |lia]. intros x Hx Ex. apply EH, Ex.
  - intros (s1 & -> & H). apply (tuple_halt U K T L HT HLab). apply (meets_halts U K T L HT HLab) in H. exact H.
Qed.
Lemma object_stops s : object U E s = Halt <-> BadObject U T s.
Proof.
  split.
  - intros H. unfold object in H. apply (bind_halt K) in H as [H|(r1 & c & H1 & H)].
    { apply (ws_m_halt K) in H. rewrite wrap_ws in H. destruct (simple_halt K _ _ (simple_char _) H). }
    rewrite ws_m, wrap_ws in H1. apply bind_ok in H1 as (s1 & c1 & H1 & H9). injection H9 as <- <-. apply char_p_ok in H1 as [H1 _].
    apply (bind_halt K) in H as [H|(r2 & l & _ & H)].
    2:{ apply (bind_ret_halt K) in H. destruct (simple_halt K _ _ (simple_char _) H). }
    apply (ws_m_halt K) in H. rewrite wrap_ws, ws_rest_idem in H. unfold object_body in H. apply (ws_m_halt K) in H. fold (member U) in H.
    exists s1. split; [apply skip_ws; auto|]. destruct (ws_split s1) as (w1 & Hw1 & Es1). rewrite Es1. apply MeetsMembers_ws; [exact Hw1|].
    apply (members_met U K T L HT HLab (S (length (ws_rest s1))) ltac:(intros x Hx Ex; apply EH, Ex) (length (ws_rest s1))); [lia|lia|exact H].
  - intros (s1 & H1 & H). apply skip_ws in H1. eapply (object_halt U K T L HT HLab); [symmetry; exact H1|].
    apply (meets_halts U K T L HT HLab) in H. apply H. apply ws_rest_idem.
Qed.
Lemma paren_stops s : bracket_expression E s = Halt <-> BadParen U T s.
Proof.
  split.
  - intros H. unfold bracket_expression in H. change (lit "(") with [40] in H. apply (bind_halt K) in H as [H|(r1 & c & H1 & H)].
    { apply (ws_m_halt K) in H. rewrite wrap_ws in H. destruct (simple_halt K _ _ (simple_tag _) H). }
    rewrite ws_m, wrap_ws in H1. apply bind_ok in H1 as (s1 & c1 & H1 & H9). injection H9 as <- <-. apply tag1_ok in H1.
    apply (bind_halt K) in H as [H|(r2 & l & _ & H)].
    2:{ apply (bind_ret_halt K) in H. destruct (simple_halt K _ _ (simple_tag _) H). }
    apply (ws_m_halt K) in H. rewrite wrap_ws, ws_rest_idem in H. apply EH in H.
    exists s1, (ws_rest s1). split; [apply skip_ws; auto|]. split; [apply skip_ws_here|exact H].
  - intros (s1 & s2 & H1 & H2 & H). apply skip_ws in H1, H2. subst. apply EH in H. eapply (bracket_halt U K T L HT HLab); [symmetry; exact H1|exact H].
Qed.
Lemma key_stops s : object_element_identifier U E s = Halt <-> MeetsExpr U T s.
Proof.
  unfold object_element_identifier. split.
  - intros H. apply (alt_halt K) in H as [H|[_ H]]; apply (pmap_halt_inv K) in H; [destruct (simple_halt K _ _ (simple_identifier U) H)|].
    unfold recognize in H. apply (bind_ret_halt K) in H. apply EH, H.
  - intros H. rewrite alt_err.
    + apply (pmap_halt K). unfold recognize. apply EH in H. apply (halt_bind K), H.
    + apply pmap_err. apply identifier_err. intros i r Hi. apply GIdent_first in Hi as (c & q & -> & Hc).
      assert (Hf : exists x q', c :: q = x :: q' /\ (ws_char x = true \/ (x = 60 \/ x = 34 \/ x = 91 \/ x = 123 \/ x = 40))).
      { clear Hc. remember (c :: q) as s eqn:Es. destruct H as [s H|w s Hw _ H].
        - apply (MeetsTerm_first U K T L HT HLab) in H as (c' & s' & E1 & Hc'). exists c', s'. split; [exact E1|auto].
        - destruct w as [|x w].
          + apply (MeetsTerm_first U K T L HT HLab) in H as (c' & s' & E1 & Hc'). cbn [app]. exists c', s'. split; [exact E1|auto].
          + cbn [app] in Es. injection Es as -> <-. eexists c, _. split; [reflexivity|]. left.
            clear - Hw. remember (c :: w) as y eqn:Ey. destruct Hw as [|c0 w0 Hc _|c0 w0 Hc _|c0 w0 Hc _]; [discriminate|..].
            * injection Ey as -> ->. unfold ws_char. lia.
            * destruct Hc. cbn in Ey. injection Ey as <- _. reflexivity.
            * destruct Hc; cbn in Ey; injection Ey as <- _; reflexivity. }
      destruct Hf as (c' & q' & [= <- <-] & [Hw|Hf]).
      * apply (id_first_nonws U) in Hc. congruence.
      * rewrite id_first_ascii in Hc by lia. unfold is_ascii_alpha in Hc. lia.
Qed.
Lemma element_stops s : object_element U E s = Halt <-> BadElement U T s.
Proof.
  unfold object_element. split.
  - intros H. apply (iws_m_halt K) in H. rewrite wrap_iws in H. exists (iws_rest s). split; [apply skip_iws_here|].
    apply (bind_halt K) in H as [H|(q1 & k & Hk & H)]; [left; apply key_stops, H|]. right. apply key_exact in Hk.
    rewrite wrap_iws in H. apply (bind_halt K) in H as [H|(q2 & c & Hc & H)]; [destruct (simple_halt K _ _ (simple_char _) H)|].
    apply char_p_ok in Hc as [Hc _]. apply (bind_ret_halt K) in H. rewrite wrap_iws in H. apply EH in H.
    exists k, q1, q2, (iws_rest q2). split; [exact Hk|]. split; [apply skip_iws; auto|]. split; [apply skip_iws_here|exact H].
  - intros (s0 & H0 & H). apply skip_iws in H0. subst. rewrite iws_m. apply (halt_bind K). rewrite wrap_iws. destruct H as [H|(k & s1 & s2 & s3 & Hk & H1 & H2 & H)].
    + apply (halt_bind K), key_stops, H.
    + apply key_exact in Hk. rewrite Hk. cbn [bind]. apply skip_iws in H1, H2. subst s3. rewrite wrap_iws, <- H1. cbn [app]. rewrite char_p_eq. cbn [bind].
      rewrite wrap_iws. apply EH in H. apply (halt_bind K), H.
Qed.
Lemma item_stops s : member U s = Halt <-> BadItem U T s.
Proof.
  unfold member. rewrite wrap_ws. unfold terminated. split.
  - intros H. apply (bind_halt K) in H as [H|(r1 & ke & _ & H)].
    + exists (ws_rest s). split; [apply skip_ws_here|apply element_stops, H].
    + apply (bind_ret_halt K) in H. destruct (sep_no_halt K _ H).
  - intros (s0 & H0 & H). apply skip_ws in H0. subst. apply (halt_bind K), element_stops, H.
Qed.
Lemma object_body_stops s : object_body U E s = Halt <-> MeetsMembers U T s.
Proof.
  unfold object_body. fold (member U). split.
  - intros H. apply (ws_m_halt K) in H.
    apply (members_met U K T L HT HLab (S (length s)) ltac:(intros x Hx Ex; apply EH, Ex) (length s)); [lia|lia|exact H].
  - intros H. apply (meets_halts U K T L HT HLab) in H. rewrite ws_m. apply (halt_bind K). apply H. reflexivity.
Qed.
Lemma attr_stops s : attribute U s = Halt <-> BadAttr U T s.
Proof.
  split.
  - intros H. apply (attr_met U K T L HT HLab) in H. exists (iws_rest s). split; [apply skip_iws_here|exact H].
  - intros (s0 & H0 & H). apply skip_iws in H0. subst. eapply (attr_halts U K T L HT HLab); [exact H|reflexivity].
Qed.
Lemma opt_attr_stops s : one_line_block_body U s = Halt <-> BadAttr U T s.
Proof.
  rewrite <- attr_stops. unfold one_line_block_body, opt. destruct (attribute U s); split; intros H; try (no H); destruct K; cbn in *; congruence.
Qed.
Lemma label_stops s : block_label U s = Halt <-> L s.
Proof.
  rewrite <- HLab. unfold block_label. split.
  - intros H. apply (alt_halt K) in H as [H|[_ H]]; apply (pmap_halt_inv K) in H; [destruct (simple_halt K _ _ (simple_identifier U) H)|exact H].
  - intros H. assert (Hq : exists q, s = 34 :: q) by (apply (label_first U K T L HT HLab), HLab, H). destruct Hq as [q ->].
    rewrite alt_err by (apply pmap_err, identifier_first_err; rewrite id_first_ascii by lia; reflexivity). apply (pmap_halt K), H.
Qed.
Lemma label_item_stops s : label_item U s = Halt <-> BadLabelItem L s.
Proof.
  unfold label_item. split.
  - intros H. apply (iws_m_halt K) in H. rewrite wrap_iws in H. exists (iws_rest s). split; [apply skip_iws_here|apply label_stops, H].
  - intros (s0 & H0 & H). apply skip_iws in H0. subst. rewrite iws_m. apply (halt_bind K). rewrite wrap_iws. apply label_stops, H.
Qed.
Lemma labels_stops s : block_labels U s = Halt <-> BadLabels U L s.
Proof.
  split; [apply (labels_met U K T L HT HLab)|]. intros (ls & s' & H & Hs). eapply (labels_halt U K T L HT HLab); [exact H|exact Hs|reflexivity].
Qed.
Lemma BadLabels_iws w s : Iws w -> BadLabels U L s -> BadLabels U L (w ++ s).
Proof. intros Hw (ls & s' & H & Hs). exists ls, s'. split; [apply GLabels_iws; assumption|exact Hs]. Qed.
Lemma head_stops {A} (k : cow -> list label -> parser A) s :
  (let* (r1, t) := wrap inline_whitespace (identifier U) s in
   let* (r2, ls) := wrap inline_whitespace (block_labels U) r1 in
   let* (r3, _o) := wrap inline_whitespace (tag (lit "{")) r2 in k t ls r3) = Halt <->
  BadHead U L (iws_rest s) \/
  exists t ls s' q, GIdent U t (iws_rest s) s' /\ GLabels U ls s' (123 :: q) /\ k t ls q = Halt.
Proof.
  change (lit "{") with [123]. rewrite wrap_iws. split.
  - intros H.
    apply (bind_halt K) in H as [H|(r1 & t & H1 & H)]; [destruct (simple_halt K _ _ (simple_identifier U) H)|]. apply identifier_ok in H1.
    rewrite wrap_iws in H. apply (bind_halt K) in H as [H|(r2 & ls & H2 & H)].
    { left. apply labels_stops in H. exists t, r1. split; [exact H1|]. destruct (iws_rest_sound r1) as (w & Hw & Ew). rewrite Ew. apply BadLabels_iws; assumption. }
    right. rewrite wrap_iws in H. apply (bind_halt K) in H as [H|(r3 & c & H3 & H)]; [destruct (simple_halt K _ _ (simple_tag _) H)|].
    apply tag1_ok in H3. exists t, ls, r1, r3. split; [exact H1|]. split; [|exact H]. eapply labels_glabels; eassumption.
  - intros [(t & s1 & Ht & H)|(t & ls & s' & q & Ht & HL & H)]; apply identifier_ok in Ht; rewrite Ht; cbn [bind]; rewrite wrap_iws.
    + destruct H as (ls & s' & H & Hs). rewrite (labels_halt U K T L HT HLab _ _ _ H Hs _ (iws_rest_idem s1)). apply (halt_bind K). reflexivity.
    + destruct (labels_complete U _ _ _ HL (ex_intro _ q eq_refl) (iws_rest s') (iws_rest_idem s')) as (r1 & H1 & H2).
      rewrite H1. cbn [bind]. rewrite wrap_iws, H2, tag1_eq. cbn [bind]. exact H.
Qed.
Lemma one_line_stops s : one_line_block U s = Halt <-> BadOneLine U T L s.
Proof.
  unfold one_line_block.
  pose proof (head_stops (fun t ls r3 => let* (r4, a) := wrap inline_whitespace (one_line_block_body U) r3 in
    let* (r5, _c) := wrap inline_whitespace (tag (lit "}")) r4 in Ok r5 (new_one_line t ls a)) s) as HH. split.
  - intros H. apply (iws_m_halt K) in H. apply HH in H. exists (iws_rest s). split; [apply skip_iws_here|].
    destruct H as [H|(t & ls & s' & q & Ht & HL & H)]; [left; exact H|]. right. exists t, ls, s', q. split; [exact Ht|]. split; [exact HL|].
    apply (bind_halt K) in H as [H|(r4 & a & _ & H)].
    + rewrite wrap_iws in H. apply opt_attr_stops in H as (s0 & H0 & H). apply skip_iws in H0. rewrite iws_rest_idem in H0. exists s0. split; [apply skip_iws, H0|exact H].
    + apply (bind_ret_halt K) in H. rewrite wrap_iws in H. destruct (simple_halt K _ _ (simple_tag _) H).
  - intros (s0 & H0 & H). apply skip_iws in H0. subst. rewrite iws_m. apply (halt_bind K). apply HH.
    destruct H as [H|(t & ls & s1 & s2 & Ht & HL & H)]; [left; exact H|]. right. exists t, ls, s1, s2. split; [exact Ht|]. split; [exact HL|].
    apply (halt_bind K). rewrite wrap_iws. apply opt_attr_stops. destruct H as (s0 & H0 & H). exists s0. split; [|exact H].
    apply skip_iws in H0. apply skip_iws. rewrite iws_rest_idem. exact H0.
Qed.
Lemma block_stops s : block U B s = Halt <-> BadMultiLine U T L s.
Proof.
  unfold block.
  pose proof (head_stops (fun t ls r3 => let* (r4, _n) := wrap inline_whitespace newline r3 in
    let* (r5, b) := wrap inline_whitespace (body U) r4 in
    let* (r6, _c) := wrap inline_whitespace (tag (lit "}")) r5 in Ok r6 (Blk t ls b)) s) as HH. split.
  - intros H. apply (iws_m_halt K) in H. apply HH in H. exists (iws_rest s). split; [apply skip_iws_here|].
    destruct H as [H|(t & ls & s' & q & Ht & HL & H)]; [left; exact H|]. right.
    apply (bind_halt K) in H as [H|(r4 & nl & H4 & H)]; [rewrite wrap_iws in H; destruct (simple_halt K _ _ simple_newline H)|].
    rewrite wrap_iws in H4. apply newline_sound in H4 as (n0 & w0 & Hn0 & Hw0 & H4); [|apply iws_rest_idem].
    apply (bind_halt K) in H as [H|(r5 & b & _ & H)].
    2:{ apply (bind_ret_halt K) in H. rewrite wrap_iws in H. destruct (simple_halt K _ _ (simple_tag _) H). }
    rewrite wrap_iws in H. apply (body_halts U K T L HT HLab) in H. destruct (iws_rest_sound r4) as (i4 & Hi4 & E4).
    exists t, ls, n0, s', q, (w0 ++ r4). split; [exact Ht|]. split; [exact HL|]. split; [apply skip_iws; auto|]. split; [exact Hn0|].
    apply MeetsBody_ws; [exact Hw0|]. rewrite E4. apply MeetsBody_ws; [apply Iws_Ws, Hi4|exact H].
  - intros (s0 & H0 & H). apply skip_iws in H0. subst. rewrite iws_m. apply (halt_bind K). apply HH.
    destruct H as [H|(t & ls & n & s1 & s2 & s3 & Ht & HL & H2 & Hn & H)]; [left; exact H|]. right. exists t, ls, s1, s2. split; [exact Ht|]. split; [exact HL|].
    apply skip_iws in H2. rewrite wrap_iws, <- H2. destruct (newline_complete n s3 Hn) as (r4 & v4 & H4 & H5). rewrite H4. cbn [bind].
    apply (halt_bind K). rewrite wrap_iws. apply (meets_body_halts U K T L HT HLab) with (x := iws_rest r4) in H; [exact H|].
    rewrite ws_rest_iws_rest. exact H5.
Qed.
Lemma body_element_stops s : body_element U B s = Halt <-> BadBodyElement U T L s.
Proof.
  split.
  - intros El. exists (iws_rest s). split; [apply skip_iws_here|].
    apply (alt_halt K) in El as [El|[_ El]]; [apply (pmap_halt_inv K) in El; apply MEl_attr, (attr_met U K T L HT HLab), El|].
    apply (alt_halt K) in El as [El|[_ El]]; [apply (one_line_met U K T L HT HLab), El|].
    eapply (block_met U K T L HT HLab (length s)); [apply (body_met U K T L HT HLab)|lia|exact El].
  - intros (s0 & H0 & H). apply skip_iws in H0. subst.
    assert (Hlead : body_element U B s = body_element U B (iws_rest s)).
    { unfold body_element, alt, pmap, attribute, one_line_block, block. rewrite !iws_m, !wrap_iws, iws_rest_idem. reflexivity. }
    rewrite Hlead. apply (meets_body_halts U K T L HT HLab) in H. apply H.
Qed.
Lemma body_item_stops s : body_item U s = Halt <-> BadBodyItem U T L s.
Proof.
  unfold body_item. rewrite wrap_ws. unfold terminated. split.
  - intros H. apply (bind_halt K) in H as [H|(r1 & el & _ & H)].
    + apply body_element_stops in H as (s0 & H0 & H). apply skip_iws in H0. rewrite iws_ws_rest in H0. exists s0. split; [apply skip_ws, H0|exact H].
    + apply (bind_ret_halt K) in H. apply (alt_halt K) in H as [H|[_ H]].
      * apply (pmap_halt_inv K) in H. destruct (simple_halt K _ _ simple_newline H).
      * destruct r1; no H.
  - intros (s0 & H0 & H). apply skip_ws in H0. subst. apply (halt_bind K), body_element_stops. exists (ws_rest s). split; [|exact H].
    apply skip_iws. symmetry. apply iws_ws_rest.
Qed.
End Stop.
End WithTables.
