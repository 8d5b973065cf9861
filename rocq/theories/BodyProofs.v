(** * BodyProofs: attributes, blocks and bodies are parsed exactly as the grammar says *)
From Verif Require Import Base Nom NomFacts Ast Lex Grammar WsFacts NumFacts StrFacts HeredocFacts Parser ParserFacts ExprProofs.

Section WithTables.
Context (U : ucd).
Local Notation E := (expression U).

(** ** Attributes *)
Lemma attribute_sound s r i e : attribute U s = Ok r (i, e) ->
  exists r0, GAttr U i e (iws_rest s) r0 /\ r = iws_rest r0.
Proof.
  unfold attribute. rewrite iws_m. intros H. apply bind_ok in H as (r0 & ie & H & H9). injection H9 as <- ->.
  apply bind_ok in H as (r1 & i' & H1 & H). rewrite wrap_iws in H1.
  apply bind_ok in H as (r2 & c & H2 & H). rewrite wrap_iws in H2. apply char_p_ok in H2 as [H2 _].
  apply bind_ok in H as (r3 & e' & H3 & H). rewrite wrap_iws in H3. injection H as -> -> ->.
  exists r0. split; [|reflexivity]. apply identifier_ok in H1. apply expression_sound in H3.
  destruct (iws_rest_sound r1) as (i1 & Hi1 & E1). destruct (iws_rest_sound r2) as (i2 & Hi2 & E2).
  rewrite H2 in E1. rewrite E1, E2 in H1.
  exact (GA U i e i1 i2 _ _ r0 Hi1 Hi2 H1 H3).
Qed.
Lemma attribute_complete i e s r x : GAttr U i e s r -> iws_rest x = s ->
  attribute U x = Ok (iws_rest r) (i, e).
Proof.
  intros [i' e' i1 i2 s0 s' r' Hi1 Hi2 Hi He] Hx. unfold attribute. rewrite iws_m, wrap_iws, Hx.
  apply identifier_ok in Hi. rewrite Hi. cbn [bind app]. rewrite wrap_iws, iws_to_eq by exact Hi1.
  rewrite char_p_eq. cbn [bind]. rewrite wrap_iws, iws_rest_iws by exact Hi2.
  apply expression_reads in He as (_ & _ & He & _). rewrite He. reflexivity.
Qed.
Lemma GAttr_ws i e s r : GAttr U i e s r -> ws_rest s = s /\ iws_rest s = s.
Proof. intros [i' e' i1 i2 s0 s' r' _ _ Hi _]. eapply GIdent_ws, Hi. Qed.
Lemma GIdent_len i s r : GIdent U i s r -> (length r < length s)%nat.
Proof. intros (t & _ & -> & (c & cs & -> & _) & _). rewrite app_length. cbn [length]. lia. Qed.
Lemma GExpr_len e s r : GExpr U e s r -> (length r < length s)%nat.
Proof. intros H. apply expression_reads in H. apply H. Qed.
Lemma GAttr_len i e s r : GAttr U i e s r -> (length r < length s)%nat.
Proof.
  intros [i' e' i1 i2 s0 s' r' _ _ Hi He]. apply GIdent_len in Hi. apply GExpr_len in He.
  rewrite !app_length in Hi. cbn [length] in Hi. lia.
Qed.
Lemma attribute_no_eq i s s' : GIdent U i s s' -> ~ FirstIs 61 (iws_rest s') -> attribute U s = Err.
Proof.
  intros Hi Hn. destruct (GIdent_ws _ _ _ _ Hi) as [_ Hs]. unfold attribute. rewrite iws_m, wrap_iws, Hs.
  apply identifier_ok in Hi. rewrite Hi. cbn [bind]. rewrite wrap_iws.
  destruct (iws_rest s') as [|c q]; [reflexivity|]. rewrite char_p_neq; [reflexivity|].
  intros ->. apply Hn. eexists; reflexivity.
Qed.
Lemma attribute_first_err x c s : iws_rest x = c :: s -> id_first U c = false -> attribute U x = Err.
Proof.
  intros Hx Hc. unfold attribute. rewrite iws_m, wrap_iws, Hx, identifier_first_err by exact Hc. reflexivity.
Qed.
Lemma attribute_nil x : iws_rest x = [] -> attribute U x = Err.
Proof. intros Hx. unfold attribute. rewrite iws_m, wrap_iws, Hx. reflexivity. Qed.

(** ** Labels *)
Definition label_item : parser label := inline_whitespace_m (wrap inline_whitespace (block_label U)).
Lemma wf_label_item : wf label_item.
Proof. apply wf_iws_m, wf_wrap_iws, wf_block_label. Qed.

Lemma block_label_ok s r l : block_label U s = Ok r l <-> GLabel U l s r.
Proof.
  unfold block_label. split.
  - intros H. apply alt_inv in H as [H|[_ H]]; apply pmap_inv in H as (v & H & ->).
    + apply identifier_ok in H. constructor. exact H.
    + apply string_literal_ok in H as (s' & -> & H). apply (GL_string U v s' r), H.
  - intros [i s' r' H|v s' r' H].
    + apply identifier_ok in H. apply alt_ok_l, pmap_ok, H.
    + rewrite alt_err by (apply pmap_err, identifier_first_err; rewrite id_first_ascii by lia; reflexivity).
      apply pmap_ok, string_literal_ok. exists s'. auto.
Qed.
Lemma GChars_len P v s r : GChars P v s r -> (length r <= length s)%nat.
Proof. induction 1; cbn [length app] in *; [lia|lia|]. rewrite app_length. lia. Qed.
Lemma GLabel_len l s r : GLabel U l s r -> (length r < length s)%nat.
Proof.
  intros [i s' r' H|v s' r' H]; [eapply GIdent_len, H|]. apply GChars_len in H. cbn [length app] in *. lia.
Qed.
Lemma GLabel_first l s r : GLabel U l s r ->
  exists c s', s = c :: s' /\ (id_first U c = true \/ c = 34).
Proof.
  intros [i s' r' H|v s' r' H]; [apply GIdent_first in H as (c & s'' & -> & H); eauto|].
  eexists 34, _. split; [reflexivity|auto].
Qed.
Lemma id_first_not c : id_first U c = true -> c <> 61 /\ c <> 123 /\ c <> 125 /\ c <> 34.
Proof.
  intros H. repeat split; intros ->; rewrite id_first_ascii in H by lia; discriminate.
Qed.
Lemma GLabel_ws l s r : GLabel U l s r -> iws_rest s = s.
Proof.
  intros H. apply GLabel_first in H as (c & s' & -> & [H|H]).
  - apply iws_rest_nonws, (id_first_nonws U), H.
  - subst. apply iws_rest_stop; lia.
Qed.

Lemma labels_sound k : forall s r ls, (length s <= k)%nat -> block_labels U s = Ok r ls ->
  GLabels U ls s (iws_rest r).
Proof.
  induction k as [|k IH]; intros s r ls Hk H; unfold block_labels in H; fold label_item in H;
    rewrite many0_eq in H by apply wf_upto_of, wf_label_item.
  - destruct s; [|cbn in Hk; lia]. cbn in H. injection H as <- <-. apply (GLs_nil U [] []). constructor.
  - assert (Hstop : Ok s [] = Ok r ls -> GLabels U ls s (iws_rest r)).
    { intros [= <- <-]. destruct (iws_rest_sound s) as (w & Hw & Es). rewrite Es at 1. apply GLs_nil, Hw. }
    pose proof (wf_label_item s) as Hg.
    destruct (label_item s) as [r1 l| | | |] eqn:El; auto; try discriminate.
    destruct (str_eqb r1 s) eqn:Eq; auto. apply str_eqb_neq in Eq.
    cbn in Hg. pose proof (suffix_neq_len _ _ Hg Eq) as Hl.
    apply map_res_ok in H as (ls' & H & ->).
    unfold label_item in El. rewrite iws_m, wrap_iws in El. apply bind_ok in El as (r2 & l2 & El & H9).
    injection H9 as <- <-. apply block_label_ok in El.
    destruct (iws_rest_sound s) as (w & Hw & Es). destruct (iws_rest_sound r2) as (w2 & Hw2 & Er2).
    rewrite Es. eapply GLs_cons; [exact Hw|exact El|].
    assert (HL : GLabels U ls' (iws_rest r2) (iws_rest r)) by (apply IH; [lia|exact H]).
    rewrite Er2. destruct HL as [i r3 Hi|l ls i s0 s' r3 Hi Hlab HL].
    + rewrite app_assoc. apply GLs_nil, Iws_app; assumption.
    + rewrite app_assoc. eapply GLs_cons; [apply (Iws_app _ _ Hw2 Hi)|exact Hlab|exact HL].
Qed.

Lemma labels_complete ls s r : GLabels U ls s r -> FirstIs 123 r ->
  forall x, iws_rest x = iws_rest s -> exists r1, block_labels U x = Ok r1 ls /\ iws_rest r1 = r.
Proof.
  induction 1 as [i r Hi|l ls i s s' r Hi Hl HL IH]; intros [q ->] x Hx.
  - rewrite iws_rest_iws in Hx by exact Hi. rewrite iws_rest_stop in Hx by lia.
    exists x. split; [|exact Hx]. unfold block_labels; fold label_item.
    rewrite many0_eq by apply wf_upto_of, wf_label_item. unfold label_item at 1. rewrite iws_m, wrap_iws, Hx.
    assert (El : block_label U (123 :: q) = Err).
    { unfold block_label. rewrite alt_err by (apply pmap_err, identifier_first_err; rewrite id_first_ascii by lia; reflexivity).
      apply pmap_err, string_literal_first. lia. }
    rewrite El. reflexivity.
  - rewrite iws_rest_iws in Hx by exact Hi. rewrite (GLabel_ws _ _ _ Hl) in Hx.
    assert (El : label_item x = Ok (iws_rest s') l).
    { unfold label_item. rewrite iws_m, wrap_iws, Hx. apply block_label_ok in Hl. rewrite Hl. reflexivity. }
    destruct (IH (ex_intro _ q eq_refl) (iws_rest s') (iws_rest_idem s')) as (r1 & H1 & H2).
    exists r1. split; [|exact H2]. unfold block_labels in *; fold label_item in *.
    rewrite many0_eq by apply wf_upto_of, wf_label_item. rewrite El.
    assert (Hne : iws_rest s' <> x).
    { intros Heq. apply GLabel_len in Hl. pose proof (suffix_len _ _ (iws_rest_suffix s')).
      pose proof (suffix_len _ _ (iws_rest_suffix x)) as H3. rewrite Hx in H3. rewrite Heq in H. lia. }
    apply str_eqb_neq in Hne. rewrite Hne, H1. reflexivity.
Qed.
Lemma labels_not_eq ls s r : GLabels U ls s r -> FirstIs 123 r -> ~ FirstIs 61 (iws_rest s).
Proof.
  intros [i r' Hi|l ls' i s0 s' r' Hi Hl HL] [q Hq]; rewrite iws_rest_iws by exact Hi.
  - subst. rewrite iws_rest_stop by lia. intros [q' [=]].
  - rewrite (GLabel_ws _ _ _ Hl). apply GLabel_first in Hl as (c & s'' & -> & H).
    intros [q' [= -> _]]. destruct H as [H|H]; [apply id_first_not in H; lia|lia].
Qed.
Lemma GLabels_len ls s r : GLabels U ls s r -> (length r <= length s)%nat.
Proof.
  induction 1 as [i r Hi|l ls i s s' r Hi Hl HL IH]; rewrite app_length; [lia|].
  apply GLabel_len in Hl. lia.
Qed.

(** ** Block heads *)
Lemma tag1_ok c s r v : tag [c] s = Ok r v -> s = c :: r.
Proof. intros H. apply tag_ok in H as [-> _]. reflexivity. Qed.
Lemma tag1_eq c r : tag [c] (c :: r) = Ok r [c].
Proof. exact (tag_app [c] r). Qed.

(** ** One-line blocks *)
Lemma one_line_block_sound s r el : one_line_block U s = Ok r el ->
  exists r0, GElem U el (iws_rest s) r0 /\ r = iws_rest r0.
Proof.
  unfold one_line_block. rewrite iws_m. intros H. apply bind_ok in H as (r0 & el' & H & H9). injection H9 as <- ->.
  change (lit "{") with [123] in H. change (lit "}") with [125] in H.
  apply bind_ok in H as (r1 & t & H1 & H). rewrite wrap_iws in H1. apply identifier_ok in H1.
  apply bind_ok in H as (r2 & ls & H2 & H). rewrite wrap_iws in H2.
  apply bind_ok in H as (r3 & c & H3 & H). rewrite wrap_iws in H3. apply tag1_ok in H3.
  apply bind_ok in H as (r4 & a & H4 & H). rewrite wrap_iws in H4.
  apply bind_ok in H as (r5 & c' & H5 & H). rewrite wrap_iws in H5. apply tag1_ok in H5.
  injection H as -> <-. exists r0. split; [|reflexivity].
  assert (HL : GLabels U ls r1 (123 :: r3)).
  { apply (labels_sound (length (iws_rest r1))) in H2; [|lia]. rewrite H3 in H2.
    destruct (iws_rest_sound r1) as (w & Hw & Ew). rewrite Ew.
    destruct H2 as [i r' Hi|l ls' i s0 s' r' Hi Hl H2]; rewrite app_assoc.
    - apply GLs_nil, Iws_app; assumption.
    - eapply GLs_cons; [apply (Iws_app _ _ Hw Hi)|exact Hl|exact H2]. }
  destruct (iws_rest_sound r3) as (i1 & Hi1 & E1).
  unfold one_line_block_body, opt in H4.
  destruct (attribute U (iws_rest r3)) as [r6 [n v]| | | |] eqn:Ea; try discriminate; injection H4 as <- <-.
  - apply attribute_sound in Ea as (r7 & Ha & ->). rewrite iws_rest_idem in Ha, H5.
    destruct (iws_rest_sound r7) as (i2 & Hi2 & E2). rewrite H5 in E2. rewrite E2 in Ha. rewrite E1 in HL.
    exact (GE_one_line U t ls n v i1 i2 _ _ _ r0 Hi1 Hi2 H1 HL Ha).
  - rewrite iws_rest_idem in H5. rewrite E1, H5 in HL.
    exact (GE_one_line_empty U t ls i1 _ _ r0 Hi1 H1 HL).
Qed.

Lemma one_line_block_head t ls s s' q : GIdent U t s s' -> GLabels U ls s' (123 :: q) ->
  one_line_block U s =
  bind (let* (r4, a) := one_line_block_body U (iws_rest q) in
        let* (r5, _c) := tag [125] (iws_rest r4) in Ok r5 (new_one_line t ls a))
       (fun r v => Ok (iws_rest r) v).
Proof.
  intros Ht HL. destruct (GIdent_ws _ _ _ _ Ht) as [_ Hs].
  unfold one_line_block. rewrite iws_m. change (lit "{") with [123]. change (lit "}") with [125].
  rewrite wrap_iws, Hs. apply identifier_ok in Ht. rewrite Ht. cbn [bind]. rewrite wrap_iws.
  destruct (labels_complete _ _ _ HL (ex_intro _ q eq_refl) (iws_rest s') (iws_rest_idem s')) as (r1 & H1 & H2).
  rewrite H1. cbn [bind]. rewrite wrap_iws, H2, tag1_eq. cbn [bind]. rewrite wrap_iws.
  destruct (one_line_block_body U (iws_rest q)) as [r4 a| | | |]; cbn [bind]; try reflexivity.
  rewrite wrap_iws. reflexivity.
Qed.

(** ** Blocks *)
Definition BodySound (n : nat) : Prop :=
  forall s r b, (length s < n)%nat -> body U s = Ok r b -> GBody U b s r.

Lemma GBody_ws w b s r : Ws w -> GBody U b s r -> GBody U b (w ++ s) r.
Proof.
  intros Hw [w' r' Hw'|el b' w' i s0 s1 s2 r' Hw' Hi He Hs Hb]; rewrite app_assoc.
  - apply GB_nil, Ws_app; assumption.
  - eapply GB_cons; [apply (Ws_app _ _ Hw Hw')|exact Hi|exact He|exact Hs|exact Hb].
Qed.

Lemma block_sound n s r el : BodySound n -> (length s <= n)%nat -> block U (body U) s = Ok r el ->
  exists r0, GElem U el (iws_rest s) r0 /\ r = iws_rest r0.
Proof.
  intros HS Hn. unfold block. rewrite iws_m. intros H. apply bind_ok in H as (r0 & el' & H & H9). injection H9 as <- ->.
  change (lit "{") with [123] in H. change (lit "}") with [125] in H.
  apply bind_ok in H as (r1 & t & H1 & H). rewrite wrap_iws in H1. apply identifier_ok in H1.
  apply bind_ok in H as (r2 & ls & H2 & H). rewrite wrap_iws in H2.
  pose proof (wf_block_labels U (iws_rest r1)) as Hg2. rewrite H2 in Hg2. cbn in Hg2. apply suffix_len in Hg2.
  apply bind_ok in H as (r3 & c & H3 & H). rewrite wrap_iws in H3. apply tag1_ok in H3.
  apply bind_ok in H as (r4 & nl & H4 & H). rewrite wrap_iws in H4.
  apply newline_sound in H4 as (n0 & w0 & Hn0 & Hw0 & H4); [|apply iws_rest_idem].
  apply bind_ok in H as (r5 & b & H5 & H). rewrite wrap_iws in H5.
  apply bind_ok in H as (r6 & c' & H6 & H). rewrite wrap_iws in H6. apply tag1_ok in H6.
  injection H as -> <-. exists r0. split; [|reflexivity].
  assert (HL : GLabels U ls r1 (123 :: r3)).
  { apply (labels_sound (length (iws_rest r1))) in H2; [|lia]. rewrite H3 in H2.
    destruct (iws_rest_sound r1) as (w & Hw & Ew). rewrite Ew.
    destruct H2 as [i r' Hi|l ls' i s0 s' r' Hi Hl H2]; rewrite app_assoc.
    - apply GLs_nil, Iws_app; assumption.
    - eapply GLs_cons; [apply (Iws_app _ _ Hw Hi)|exact Hl|exact H2]. }
  destruct (iws_rest_sound r3) as (i1 & Hi1 & E1).
  destruct (iws_rest_sound r4) as (i4 & Hi4 & E4).
  pose proof (GIdent_len _ _ _ H1) as L1. pose proof (suffix_len _ _ (iws_rest_suffix s)) as L0.
  pose proof (suffix_len _ _ (iws_rest_suffix r1)) as L2. pose proof (suffix_len _ _ (iws_rest_suffix r2)) as L3.
  pose proof (suffix_len _ _ (iws_rest_suffix r3)) as L4. pose proof (suffix_len _ _ (iws_rest_suffix r4)) as L5.
  rewrite H3 in L3. cbn [length] in L3. rewrite H4, !app_length in L4.
  pose proof H5 as H5b. rewrite body_eq in H5b. unfold body_step in H5b. rewrite ws_m in H5b.
  apply bind_ok in H5b as (r7 & b7 & _ & H9). injection H9 as H9 _.
  apply HS in H5; [|lia].
  rewrite <- H9, iws_ws_rest in H6. rewrite <- H9, H6 in H5.
  rewrite E1, H4 in HL.
  refine (GE_block U t ls b i1 n0 _ _ (w0 ++ r4) r0 Hi1 Hn0 H1 HL _).
  apply GBody_ws; [exact Hw0|]. rewrite E4. apply GBody_ws; [apply Iws_Ws, Hi4|exact H5].
Qed.

Lemma block_head t ls s s' q : GIdent U t s s' -> GLabels U ls s' (123 :: q) ->
  block U (body U) s =
  bind (let* (r4, _n) := newline (iws_rest q) in
        let* (r5, b) := body U (iws_rest r4) in
        let* (r6, _c) := tag [125] (iws_rest r5) in Ok r6 (Blk t ls b))
       (fun r v => Ok (iws_rest r) v).
Proof.
  intros Ht HL. destruct (GIdent_ws _ _ _ _ Ht) as [_ Hs].
  unfold block. rewrite iws_m. change (lit "{") with [123]. change (lit "}") with [125].
  rewrite wrap_iws, Hs. apply identifier_ok in Ht. rewrite Ht. cbn [bind]. rewrite wrap_iws.
  destruct (labels_complete _ _ _ HL (ex_intro _ q eq_refl) (iws_rest s') (iws_rest_idem s')) as (r1 & H1 & H2).
  rewrite H1. cbn [bind]. rewrite wrap_iws, H2, tag1_eq. cbn [bind]. rewrite wrap_iws.
  destruct (newline (iws_rest q)) as [r4 a| | | |]; cbn [bind]; try reflexivity.
  rewrite wrap_iws. destruct (body U (iws_rest r4)) as [r5 b| | | |]; cbn [bind]; try reflexivity.
  rewrite wrap_iws. reflexivity.
Qed.

(** ** Bodies *)
Lemma element_sound n s r el : BodySound n -> (length s <= n)%nat -> body_element U (body U) s = Ok r el ->
  exists r0, GElem U el (iws_rest s) r0 /\ r = iws_rest r0.
Proof.
  intros HS Hn H. apply alt_inv in H as [H|[_ H]].
  - apply pmap_inv in H as ([i e] & H & ->). apply attribute_sound in H as (r0 & H & ->).
    exists r0. split; [apply GE_attr, H|reflexivity].
  - apply alt_inv in H as [H|[_ H]]; [apply one_line_block_sound, H|].
    eapply block_sound; eassumption.
Qed.

Definition body_item : parser element :=
  wrap whitespace (terminated (body_element U (body U)) (alt (pmap (fun _ => []) newline) eof)).
Lemma wf_body_item : wf body_item.
Proof. apply wf_wrap_ws, wf_terminated; [apply wf_body_element|apply wf_body_end]. Qed.
Lemma body_unfold s : body U s = bind (many0 body_item s) (fun r v => Ok (ws_rest r) v).
Proof. rewrite body_eq. unfold body_step. rewrite ws_m. reflexivity. Qed.

Lemma item_sound n s r el : BodySound n -> (length s <= n)%nat -> body_item s = Ok r el ->
  exists w i s0 s1 s2 w2, s = w ++ s0 /\ Ws w /\ Iws i /\ GElem U el s0 (i ++ s1) /\
    ((exists n, LineEnd n /\ s1 = n ++ s2) \/ (s1 = [] /\ s2 = [])) /\ Ws w2 /\ s2 = w2 ++ r.
Proof.
  intros HS Hn H. unfold body_item in H. rewrite wrap_ws in H. unfold terminated in H.
  apply bind_ok in H as (r1 & el' & H1 & H). apply bind_ok in H as (r2 & v & H2 & H). injection H as -> ->.
  pose proof (suffix_len _ _ (ws_rest_suffix s)) as Hl.
  apply (element_sound n) in H1 as (r0 & H1 & ->); [|exact HS|lia]. rewrite iws_ws_rest in H1.
  destruct (ws_rest_sound s) as (w & Hw & Es). destruct (iws_rest_sound r0) as (i & Hi & Er). rewrite Er in H1.
  apply alt_inv in H2 as [H2|[_ H2]].
  - apply pmap_inv in H2 as (x & H2 & _). apply newline_sound in H2 as (n0 & w2 & Hn0 & Hw2 & H2); [|apply iws_rest_idem].
    exists w, i, (ws_rest s), (iws_rest r0), (w2 ++ r), w2. split; [exact Es|]. split; [exact Hw|]. split; [exact Hi|].
    split; [exact H1|]. split; [left; exists n0; auto|]. auto.
  - unfold eof in H2. destruct (iws_rest r0) eqn:E0; [|discriminate]. injection H2 as <- <-.
    exists w, i, (ws_rest s), [], [], []. split; [exact Es|]. split; [exact Hw|]. split; [exact Hi|].
    split; [exact H1|]. split; [right; auto|]. split; [constructor|reflexivity].
Qed.

Lemma many_items_sound n : BodySound n -> forall k s r b, (length s <= k)%nat -> (length s <= n)%nat ->
  many0 body_item s = Ok r b -> GBody U b s (ws_rest r).
Proof.
  intros HS. induction k as [|k IH]; intros s r b Hk Hn H;
    rewrite many0_eq in H by apply wf_upto_of, wf_body_item.
  - destruct s; [|cbn in Hk; lia]. cbn in H. injection H as <- <-. apply (GB_nil U [] []). constructor.
  - assert (Hstop : Ok s [] = Ok r b -> GBody U b s (ws_rest r)).
    { intros [= <- <-]. destruct (ws_rest_sound s) as (w & Hw & Es). rewrite Es at 1. apply GB_nil, Hw. }
    pose proof (wf_body_item s) as Hg.
    destruct (body_item s) as [r1 el| | | |] eqn:El; auto; try discriminate.
    destruct (str_eqb r1 s) eqn:Eq; auto. apply str_eqb_neq in Eq.
    cbn in Hg. pose proof (suffix_neq_len _ _ Hg Eq) as Hl.
    apply map_res_ok in H as (b' & H & ->).
    apply (item_sound n) in El; [|exact HS|exact Hn].
    destruct El as (w & i & s0 & s1 & s2 & w2 & -> & Hw & Hi & He & Hs & Hw2 & ->).
    eapply GB_cons; [exact Hw|exact Hi|exact He|exact Hs|].
    apply GBody_ws; [exact Hw2|]. apply IH; [lia|lia|exact H].
Qed.

Theorem body_sound s r b : body U s = Ok r b -> GBody U b s r.
Proof.
  assert (HB : forall n, BodySound n).
  { induction n as [|n IH]; [intros ? ? ? H; lia|]. intros s' r' b' Hs H. rewrite body_unfold in H.
    apply bind_ok in H as (r1 & b1 & H & H9). injection H9 as <- <-.
    apply (many_items_sound n IH (length s')); [lia|lia|exact H]. }
  apply (HB (S (length s))). lia.
Qed.

(** ** Completeness *)
Lemma LineEnd_first n s : LineEnd n -> exists c q, n ++ s = c :: q /\ (c = 10 \/ c = 13 \/ c = 35 \/ c = 47).
Proof.
  intros [e [|]|c [t e Ht He|t e Ht He]]; (eexists _, _; split; [reflexivity|tauto]).
Qed.
Lemma LineEnd_nonempty n : LineEnd n -> n <> [].
Proof. intros [e [|]|c [t e Ht He|t e Ht He]]; discriminate. Qed.
Lemma id_first_not_eol c : c = 10 \/ c = 13 \/ c = 35 \/ c = 47 -> id_first U c = false.
Proof. intros [->|[->|[->| ->]]]; rewrite id_first_ascii by lia; reflexivity. Qed.

Definition ReadsElem (el : element) (s r : str) : Prop :=
  (length r < length s)%nat /\ ws_rest s = s /\
  body_element U (body U) s = Ok (iws_rest r) el.
Definition ReadsBody (b : body_t) (s r : str) : Prop :=
  (r = [] \/ FirstIs 125 r) -> forall x, ws_rest x = ws_rest s -> body U x = Ok r b.

Lemma GLabels_lt ls s r t s0 : GIdent U t s0 s -> GLabels U ls s r -> (length r < length s0)%nat.
Proof. intros H1 H2. apply GIdent_len in H1. apply GLabels_len in H2. lia. Qed.

Lemma rbrace_no_item x q : ws_rest x = 125 :: q -> body_item x = Err.
Proof.
  intros Hx. unfold body_item. rewrite wrap_ws, Hx. unfold terminated, body_element.
  assert (Hi : iws_rest (125 :: q) = 125 :: q) by (apply iws_rest_stop; lia).
  assert (Hf : id_first U 125 = false) by (rewrite id_first_ascii by lia; reflexivity).
  rewrite alt_err by (apply pmap_err; eapply attribute_first_err; eassumption).
  rewrite alt_err.
  - unfold block. rewrite iws_m, wrap_iws, Hi, identifier_first_err by exact Hf. reflexivity.
  - unfold one_line_block. rewrite iws_m, wrap_iws, Hi, identifier_first_err by exact Hf. reflexivity.
Qed.
Lemma nil_no_item x : ws_rest x = [] -> body_item x = Err.
Proof. intros Hx. unfold body_item. rewrite wrap_ws, Hx. reflexivity. Qed.

Lemma body_complete_mut :
  (forall el s r, GElem U el s r -> ReadsElem el s r) /\
  (forall b s r, GBody U b s r -> ReadsBody b s r).
Proof.
  apply body_mut.
  - (* attribute *) intros i e s r H. destruct (GAttr_ws _ _ _ _ H) as [H1 H2].
    split; [eapply GAttr_len, H|]. split; [exact H1|]. apply alt_ok_l.
    apply (pmap_ok (fun nv => Attr (fst nv) (snd nv)) _ _ _ (i, e)).
    eapply attribute_complete; eassumption.
  - (* one-line, empty *) intros t ls i1 s s' r Hi1 Ht HL.
    destruct (GIdent_ws _ _ _ _ Ht) as [H1 H2].
    pose proof (GLabels_lt _ _ _ _ _ Ht HL) as Hlen. cbn [app length] in Hlen. rewrite !app_length in Hlen. cbn [length] in Hlen.
    split; [lia|]. split; [exact H1|]. unfold body_element.
    rewrite alt_err by (apply pmap_err; eapply attribute_no_eq; [exact Ht|eapply labels_not_eq; [exact HL|eexists; reflexivity]]).
    apply alt_ok_l. rewrite (one_line_block_head _ _ _ _ _ Ht HL).
    rewrite iws_rest_iws by exact Hi1. cbn [app]. rewrite iws_rest_stop by lia.
    unfold one_line_block_body. rewrite opt_none.
    + cbn [bind]. rewrite iws_rest_stop by lia. rewrite tag1_eq. reflexivity.
    + eapply attribute_first_err; [apply iws_rest_stop; lia|rewrite id_first_ascii by lia; reflexivity].
  - (* one-line *) intros t ls n v i1 i2 s s' s2 r Hi1 Hi2 Ht HL Ha.
    destruct (GIdent_ws _ _ _ _ Ht) as [H1 H2].
    pose proof (GLabels_lt _ _ _ _ _ Ht HL) as Hlen. pose proof (GAttr_len _ _ _ _ Ha) as Hlen2.
    cbn [app length] in *. rewrite !app_length in *. cbn [length] in *.
    split; [lia|]. split; [exact H1|]. unfold body_element.
    rewrite alt_err by (apply pmap_err; eapply attribute_no_eq; [exact Ht|eapply labels_not_eq; [exact HL|eexists; reflexivity]]).
    apply alt_ok_l. rewrite (one_line_block_head _ _ _ _ _ Ht HL).
    rewrite iws_rest_iws by exact Hi1. destruct (GAttr_ws _ _ _ _ Ha) as [Ha1 Ha2]. rewrite Ha2.
    unfold one_line_block_body. rewrite (opt_some _ _ _ _ (attribute_complete _ _ _ _ s2 Ha Ha2)).
    cbn [bind]. rewrite iws_rest_idem. rewrite iws_rest_iws by exact Hi2.
    rewrite iws_rest_stop by lia. rewrite tag1_eq. reflexivity.
  - (* block *) intros t ls b i1 n s s' s2 r Hi1 Hn Ht HL Hb HRb.
    destruct (GIdent_ws _ _ _ _ Ht) as [H1 H2].
    pose proof (GLabels_lt _ _ _ _ _ Ht HL) as Hlen.
    assert (HB : forall x, ws_rest x = ws_rest s2 -> body U x = Ok (125 :: r) b).
    { apply HRb. right. eexists; reflexivity. }
    split.
    { pose proof (wf_body U s2) as Hg. rewrite (HB s2 eq_refl) in Hg. cbn in Hg. apply suffix_len in Hg.
      cbn [app length] in *. rewrite !app_length in Hlen. lia. }
    split; [exact H1|]. unfold body_element.
    rewrite alt_err by (apply pmap_err; eapply attribute_no_eq; [exact Ht|eapply labels_not_eq; [exact HL|eexists; reflexivity]]).
    destruct (LineEnd_first n s2 Hn) as (c & q & Ec & Hc).
    rewrite alt_err.
    + rewrite (block_head _ _ _ _ _ Ht HL). rewrite iws_rest_iws by exact Hi1. rewrite iws_rest_LineEnd by exact Hn.
      destruct (newline_complete n s2 Hn) as (r4 & v4 & H4 & H5). rewrite H4. cbn [bind].
      rewrite (HB (iws_rest r4)) by (rewrite ws_rest_iws_rest; exact H5). cbn [bind].
      rewrite iws_rest_stop by lia. rewrite tag1_eq. reflexivity.
    + rewrite (one_line_block_head _ _ _ _ _ Ht HL). rewrite iws_rest_iws by exact Hi1. rewrite iws_rest_LineEnd by exact Hn.
      unfold one_line_block_body. rewrite opt_none.
      * cbn [bind]. rewrite iws_rest_LineEnd by exact Hn. rewrite Ec. rewrite tag_first by lia. reflexivity.
      * eapply attribute_first_err; [rewrite iws_rest_LineEnd by exact Hn; exact Ec|apply id_first_not_eol, Hc].
  - (* nil *) intros w r Hw Hr x Hx. rewrite ws_rest_ws in Hx by exact Hw.
    assert (Hrr : ws_rest r = r) by (destruct Hr as [->|[q ->]]; [reflexivity|apply ws_rest_stop; lia]).
    rewrite Hrr in Hx. rewrite body_unfold, many0_eq by apply wf_upto_of, wf_body_item.
    assert (He : body_item x = Err).
    { destruct Hr as [->|[q ->]]; [apply nil_no_item, Hx|eapply rbrace_no_item, Hx]. }
    rewrite He. cbn [bind]. rewrite Hx. reflexivity.
  - (* cons *) intros el b w i s s1 s2 r Hw Hi He (Hl & Hs & HRe) Hsep Hb HRb Hr x Hx.
    rewrite ws_rest_ws, Hs in Hx by exact Hw.
    assert (Hend : exists r1 v, alt (pmap (fun _ => []) newline) eof s1 = Ok r1 v /\ ws_rest r1 = ws_rest s2
      /\ iws_rest s1 = s1 /\ (length r1 <= length s1)%nat).
    { destruct Hsep as [(n & Hn & ->)|[-> ->]].
      - destruct (newline_complete n s2 Hn) as (r1 & v & H1 & H2). exists r1, [].
        assert (H3 : alt (pmap (fun _ => []) newline) eof (n ++ s2) = Ok r1 []).
        { apply alt_ok_l. apply (pmap_ok (fun _ => @nil char)) in H1. exact H1. }
        split; [exact H3|]. split; [exact H2|]. split; [apply iws_rest_LineEnd, Hn|].
        pose proof (wf_newline (n ++ s2)) as Hg. rewrite H1 in Hg. apply suffix_len in Hg. exact Hg.
      - exists [], []. split; [reflexivity|]. split; [reflexivity|]. split; [reflexivity|]. cbn. lia. }
    destruct Hend as (r1 & v & He1 & He2 & He3 & He4).
    assert (Hit : body_item x = Ok r1 el).
    { unfold body_item. rewrite wrap_ws, Hx. unfold terminated. rewrite HRe. cbn [bind].
      rewrite iws_rest_iws, He3 by exact Hi. rewrite He1. reflexivity. }
    pose proof (HRb Hr r1 He2) as Hbr1. rewrite body_unfold in Hbr1.
    rewrite body_unfold, many0_eq by apply wf_upto_of, wf_body_item. rewrite Hit.
    assert (Hne : r1 <> x).
    { intros ->. pose proof (suffix_len _ _ (ws_rest_suffix x)) as H3. rewrite Hx in H3.
      rewrite app_length in Hl. lia. }
    apply str_eqb_neq in Hne. rewrite Hne.
    destruct (many0 body_item r1) as [r2 b2| | | |]; cbn [bind map_res] in *; try discriminate.
    injection Hbr1 as -> ->. reflexivity.
Qed.

Theorem body_complete s r b : GBody U b s r -> r = [] \/ FirstIs 125 r -> body U s = Ok r b.
Proof. intros H Hr. apply body_complete_mut in H. apply H; [exact Hr|reflexivity]. Qed.

(** ** Whole documents *)
Theorem parse_str_spec s b : parse_str U s = OkR b <-> GConfig U b s.
Proof.
  unfold parse_str, config_file, exact, terminated, GConfig. split.
  - destruct (body U s) as [r v| | | |] eqn:Eb; cbn [bind]; try discriminate.
    destruct r as [|c r]; cbn [eof bind]; try discriminate. intros [= <-]. apply body_sound, Eb.
  - intros H. rewrite (body_complete _ _ _ H (or_introl eq_refl)). reflexivity.
Qed.
Theorem expression_parse_spec s e : expression_parse U s = OkR e <-> GWholeExpr U e s.
Proof.
  unfold expression_parse, GWholeExpr. rewrite <- expression_spec. split.
  - destruct (expression U s) as [[|] v| | | |]; try discriminate. intros [= <-]. reflexivity.
  - intros ->. reflexivity.
Qed.
End WithTables.
