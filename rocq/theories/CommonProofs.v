(** * CommonProofs: the documents that both parsers accept are the filled common layouts *)
From Coq Require Import ZArith.
From Verif Require Import Base Nom NomFacts Ast Lex Grammar WsFacts NumFacts StrFacts HeredocFacts
  Parser ParserFacts ExprProofs BodyProofs Locality DocProofs MoreProofs NumConv NumSpec NumProofs Kvp Value OldParser OldGrammar OldFacts OldProofs
  OldLocality AgreeSpec AgreeProofs LayoutSpec LayoutProofs OldLayoutSpec OldLayoutProofs CommonSpec.
Close Scope Z_scope.
Open Scope N_scope.
Open Scope list_scope.

Section WithTables.
Context (U : ucd).
Local Notation SV := (single_value U).
Local Notation MV := (map_values U).
Local Notation OA := (old_attribute U SV MV).
Local Notation OI := (many0 (old_item U)).

(** ** Both parsers accept a filled common layout *)
Lemma bkey_strict k k' t : BKey U k k' t -> GKey U k (t ++ [61]) [61].
Proof.
  intros [i Hi|v u Hv].
  - constructor. apply GIdent_intro; [exact Hi|reflexivity].
  - apply (GK_expr U (EString (Owned v)) ([34] ++ u)).
    + rewrite <- app_assoc. apply GT_quoted, quoted_token. eapply GChars_mono; [|exact Hv]. unfold PlainLine, Plain. tauto.
    + intros i r' H. apply GIdent_first in H as (c & q & E & Hc). injection E as <- _. rewrite id_first_ascii in Hc by lia. discriminate.
Qed.
Lemma bkey_old k k' t : BKey U k k' t -> VKey U k' (t ++ [61]) [61].
Proof.
  intros [i Hi|v u Hv].
  - constructor. apply GIdent_intro; [exact Hi|reflexivity].
  - rewrite <- app_assoc. constructor. apply quoted_token, Hv.
Qed.
Lemma blabels_strict ls ps : BLabels ls ps -> forall b, LLabels U b (map LString ls) ps.
Proof. induction 1; intros b; cbn [map]; [apply LL_nil|apply LL_string; auto]. Qed.
Lemma common_strict :
  (forall e v ps h, BTerm U e v ps h -> LTerm U e ps h) /\
  (forall e v ps h, BExpr U e v ps h -> LExpr U e ps h) /\
  (forall l l' ps, BItems U l l' ps -> LItems U l ps) /\
  (forall l l' ps, BMembers U l l' ps -> LMembers U l ps).
Proof.
  apply (common_mut U (fun e v ps h _ => LTerm U e ps h) (fun e v ps h _ => LExpr U e ps h) (fun l l' ps _ => LItems U l ps) (fun l l' ps _ => LMembers U l ps)); intros.
  - constructor.
  - constructor.
  - constructor.
  - constructor; assumption.
  - constructor; assumption.
  - constructor; assumption.
  - constructor; assumption.
  - constructor; assumption.
  - constructor; assumption.
  - apply LX_lead; [auto|]. constructor; assumption.
  - constructor.
  - constructor.
  - constructor; assumption.
  - constructor; assumption.
  - constructor; assumption.
  - constructor.
  - apply LM_comma; [eapply bkey_strict; eassumption|assumption|assumption].
  - apply LM_line; [eapply bkey_strict; eassumption|assumption|assumption].
Qed.
Lemma cbody_strict :
  (forall el kv ps h, BElem U el kv ps h -> LElem U el ps h) /\
  (forall b l ps, BBody U b l ps -> LBody U b ps).
Proof.
  apply (cbody_mut U (fun el kv ps h _ => LElem U el ps h) (fun b l ps _ => LBody U b ps)).
  - intros i e v ps h Hi He. constructor. constructor; [exact Hi|eapply (proj1 (proj2 common_strict)), He].
  - intros t ls ps Ht HL. apply LE_one_line_empty; [exact Ht|apply blabels_strict, HL].
  - intros t ls ps b l qs Ht HL _ IH. apply LE_block; [exact Ht|apply blabels_strict, HL|exact IH].
  - constructor.
  - intros el kv b l ps h qs _ IH _ IHb. constructor; assumption.
Qed.
Theorem bdoc_strict b l ps : BDoc U b l ps -> LDoc U b ps.
Proof.
  induction 1; [constructor|constructor; eapply (proj1 cbody_strict); eassumption|constructor; [eapply (proj1 cbody_strict); eassumption|assumption]].
Qed.

Lemma blabels_old ls ps : BLabels ls ps -> forall s r, Filled ps s -> exists w, Iws w /\ VLabels ls (s ++ r) (w ++ r) /\ (ls = [] -> s = w) /\ (Delim r -> Delim (s ++ r)).
Proof.
  induction 1 as [|v t ls ps Hv _ IH]; intros s r H; cbn [app] in H; fillx H.
  - exists w. rewrite app_nil_r. split; [exact Hg|]. split; [constructor|]. split; [auto|]. intros Hd. apply Delim_iws; assumption.
  - destruct (IH _ r H) as (w' & Hw' & H1 & _ & _). exists w'. split; [exact Hw'|]. rewrite <- !app_assoc. split; [|split; [discriminate|]].
    + eapply VL_cons; [exact Hg| |exact H1]. apply quoted_token, Hv.
    + intros _. apply Delim_iws; [exact Hg|reflexivity].
Qed.
Lemma common_old :
  (forall e v ps h, BTerm U e v ps h -> forall s r, Filled ps s -> After h r -> VTerm U v (s ++ r) r) /\
  (forall e v ps h, BExpr U e v ps h -> forall s r, Filled ps s -> After h r -> VTerm U v (s ++ r) r) /\
  (forall l l' ps, BItems U l l' ps -> forall s r, Filled ps s -> VItems U l' (s ++ r) r) /\
  (forall l l' ps, BMembers U l l' ps -> forall s r, Filled ps s -> VEntries U l' (s ++ r) ([125] ++ r)).
Proof.
  apply (common_mut U (fun e v ps h _ => forall s r, Filled ps s -> After h r -> VTerm U v (s ++ r) r)
    (fun e v ps h _ => forall s r, Filled ps s -> After h r -> VTerm U v (s ++ r) r)
    (fun l l' ps _ => forall s r, Filled ps s -> VItems U l' (s ++ r) r)
    (fun l l' ps _ => forall s r, Filled ps s -> VEntries U l' (s ++ r) ([125] ++ r))).
  - intros s r H _. fillx H. rewrite app_nil_r. constructor.
  - intros s r H _. fillx H. rewrite app_nil_r. constructor.
  - intros s r H _. fillx H. rewrite app_nil_r. constructor.
  - intros n t v Hn Hv s r H [Hd _]. fillx H. rewrite app_nil_r. apply (VT_number U n); [exact Hn| |exact Hv]. apply (Longest_number n); [exact Hn|apply Delim_follow, Hd].
  - intros v t Hv s r H _. fillx H. rewrite app_nil_r, <- app_assoc. apply VT_quoted, quoted_token, Hv.
  - intros v t Hv s r H [_ He]. fillx H. rewrite app_nil_r. apply VT_heredoc, heredoc_token; auto.
  - intros l l' ps _ IH s r H _. fillx H. rewrite <- app_assoc. apply VT_list, IH, H.
  - intros l l' ps _ IH s r H _. fillx H. rewrite <- app_assoc. apply (VT_object U l' []); [constructor|apply IH, H].
  - auto.
  - intros l l' ps _ IH s r H _. fillx H. rewrite <- !app_assoc. apply (VT_object U l' w); [exact Hg|apply IH, H].
  - intros s r H. fillx H. rewrite app_nil_r, <- !app_assoc. apply VI_nil, Hg.
  - intros s r H. fillx H. rewrite app_nil_r, <- !app_assoc. apply VI_comma; assumption.
  - intros e v ps h _ IH s r H. cbn [app] in H. fillx H. apply Filled_app_inv in H as (a & b & -> & Ha & H).
    apply ws_after_fill in H as (w2 & s' & -> & Hw2 & H & Hh). fillx H. rewrite app_nil_r, <- !app_assoc.
    apply (VI_last U v w w2); [exact Hg|exact Hw2|]. apply IH; [exact Ha|]. apply After_ws; [exact Hw2|reflexivity|exact Hh].
  - intros e v ps h _ IH s r H. cbn [app] in H. fillx H. apply Filled_app_inv in H as (a & b & -> & Ha & H).
    apply ws_after_fill in H as (w2 & s' & -> & Hw2 & H & Hh). fillx H. rewrite app_nil_r, <- !app_assoc.
    apply (VI_last_comma U v w w2 w0); [exact Hg|exact Hw2|assumption|]. apply IH; [exact Ha|]. apply After_ws; [exact Hw2|reflexivity|exact Hh].
  - intros e e' l v v' l' ps h qs _ IH _ IHl s r H. cbn [app] in H. fillx H. apply Filled_app_inv in H as (a & b & -> & Ha & H).
    apply ws_after_fill in H as (w2 & s' & -> & Hw2 & H & Hh). fillx H. rewrite <- !app_assoc.
    eapply (VI_cons U v v' l' w w2); [exact Hg|exact Hw2| |apply IHl, H]. apply IH; [exact Ha|]. apply After_ws; [exact Hw2|reflexivity|exact Hh].
  - intros s r H. fillx H. rewrite app_nil_r, <- app_assoc. apply VE_nil, Hg.
  - intros k k' t e v ps l l' qs Hk _ IH _ IHl s r H. cbn [app] in H. fillx H. apply Filled_app_inv in H as (a & b & -> & Ha & H). cbn [app] in H. fillx H.
    rewrite <- !app_assoc. eapply (VE_cons U k' v l' w); [assumption| |apply VS_comma, Iws_Ws; eassumption|apply IHl, H].
    eapply (VE_attr U k' v w0 w1); [assumption|assumption|apply okey_token; [eapply bkey_old, Hk|apply Delim_iws; [assumption|reflexivity]]|].
    apply IH; [exact Ha|]. split; [apply Delim_iws; [assumption|reflexivity]|discriminate].
  - intros k k' t e v ps h l l' qs Hk _ IH _ IHl s r H. cbn [app] in H. fillx H. apply Filled_app_inv in H as (a & b & -> & Ha & H).
    apply end_after_fill in H as (i & n & s' & -> & Hi & Hn & H & HA). rewrite <- !app_assoc.
    eapply (VE_cons U k' v l' w); [assumption| |apply VS_line; eassumption|apply IHl, H].
    eapply (VE_attr U k' v w0 w1); [assumption|assumption|apply okey_token; [eapply bkey_old, Hk|apply Delim_iws; [assumption|reflexivity]]|].
    apply IH; [exact Ha|]. apply HA.
Qed.
Lemma block_old t ls ps l a s r : IdentText U t -> BLabels ls ps -> Filled ps a -> VEntries U l s ([125] ++ r) ->
  VEntry U (KeyIdent t) (block_value ls l) (t ++ a ++ [123] ++ s) r.
Proof.
  intros Ht HL Ha Hl. destruct (blabels_old ls ps HL a ([123] ++ s) Ha) as (w & Hw & H1 & H2 & H3).
  assert (HI : GIdent U (Borrowed t) (t ++ a ++ [123] ++ s) (a ++ [123] ++ s)) by (apply GIdent_intro; [exact Ht|apply H3; reflexivity]).
  destruct ls as [|l0 ls].
  - rewrite (H2 eq_refl) in *. eapply (VE_object U t l w); [apply Iws_Ws, Hw|exact HI|exact Hl].
  - eapply (VE_block U t (l0 :: ls) l w); [apply Iws_Ws, Hw|discriminate|exact HI|exact H1|exact Hl].
Qed.
Lemma VEntries_lead l w s r : Ws w -> VEntries U l s r -> VEntries U l (w ++ s) r.
Proof.
  intros Hw [w' r' Hw'|k v l' w' s' s1 s2 r' Hw' He Hs Hl]; rewrite app_assoc.
  - apply VE_nil, Ws_app; assumption.
  - eapply VE_cons; [apply Ws_app; assumption|exact He|exact Hs|exact Hl].
Qed.
Lemma cbody_old :
  (forall el kv ps h, BElem U el kv ps h -> forall s r, Filled ps s -> After h r -> VEntry U (fst kv) (snd kv) (s ++ r) r) /\
  (forall b l ps, BBody U b l ps -> forall s r, Filled ps s -> VEntries U l (s ++ r) r).
Proof.
  apply (cbody_mut U (fun el kv ps h _ => forall s r, Filled ps s -> After h r -> VEntry U (fst kv) (snd kv) (s ++ r) r)
    (fun b l ps _ => forall s r, Filled ps s -> VEntries U l (s ++ r) r)); cbn [fst snd].
  - intros i e v ps h Hi He s r H Hr. cbn [app] in H. fillx H. rewrite <- !app_assoc.
    eapply (VE_attr U (KeyIdent i) v w w0); [assumption|assumption| |eapply (proj1 (proj2 common_old)); eassumption].
    constructor. apply GIdent_intro; [exact Hi|]. apply Delim_iws; [assumption|reflexivity].
  - intros t ls ps Ht HL s r H _. cbn [app] in H. fillx H. apply Filled_app_inv in H as (a & b & -> & Ha & H). fillx H. rewrite app_nil_r, <- !app_assoc.
    eapply block_old; [exact Ht|exact HL|exact Ha|]. apply VE_nil, Iws_Ws. assumption.
  - intros t ls ps b l qs Ht HL _ IH s r H _. cbn [app] in H. fillx H. apply Filled_app_inv in H as (a & c & -> & Ha & H). cbn [app] in H. fillx H.
    apply Filled_app_inv in H as (a' & b' & -> & Ha' & H). fillx H. rewrite app_nil_r, <- !app_assoc.
    eapply block_old; [exact Ht|exact HL|exact Ha|]. rewrite app_assoc. apply VEntries_lead; [|apply IH, Ha'].
    apply Ws_app; [apply Iws_Ws; assumption|apply LineEnd_Ws; assumption].
  - intros s r H. fillx H. rewrite app_nil_r. apply VE_nil, Hg.
  - intros el [k v] b l ps h qs _ IH _ IHb s r H. cbn [app] in H. fillx H. apply Filled_app_inv in H as (a & c & -> & Ha & H).
    apply end_after_fill in H as (i & n & s' & -> & Hi & Hn & H & HA). rewrite <- !app_assoc.
    eapply (VE_cons U k v l w); [exact Hg| |apply VS_line; eassumption|apply IHb, H]. apply IH; [exact Ha|apply HA].
Qed.
Theorem bdoc_old b l ps : BDoc U b l ps -> forall s, Filled ps s -> VDoc U l s.
Proof.
  unfold VDoc. induction 1 as [|el [k v] ps He|el [k v] b l ps h qs He _ IH]; intros s H; cbn [app] in H; fillx H.
  - rewrite <- (app_nil_r (w ++ [])), <- app_assoc. apply (VE_nil U w). exact Hg.
  - apply Filled_app_inv in H as (a & c & -> & Ha & H). fillx H. rewrite app_nil_r.
    eapply (VE_cons U k v [] w _ w0 []); [exact Hg| |apply VS_end; assumption|apply (VE_nil U [] []); constructor].
    apply (proj1 cbody_old _ _ _ _ He); [exact Ha|]. split; [|discriminate]. rewrite <- (app_nil_r w0). apply Delim_iws; [assumption|exact I].
  - apply Filled_app_inv in H as (a & c & -> & Ha & H). apply end_after_fill in H as (i & n & s' & -> & Hi & Hn & H & HA).
    eapply (VE_cons U k v l w); [exact Hg| |apply VS_line; eassumption|apply IH, H]. apply (proj1 cbody_old _ _ _ _ He); [exact Ha|]. apply HA.
Qed.

(** ** Every document that both parsers accept is a filled common layout *)
Lemma bkey_in k k' s r : GKey U k s r -> KeyAs k k' -> exists t, s = t ++ r /\ BKey U k k' t.
Proof.
  intros [i s' r' Hi|e t r' _ _] HK.
  - apply ident_in in Hi as (u & -> & -> & Hu). inversion HK; subst. exists u. split; [reflexivity|]. apply BK_ident, Hu.
  - inversion HK as [|v t0 Hv]; subst. exists ([34] ++ t0). split; [reflexivity|]. apply BK_quoted, Hv.
Qed.
(** what [old_attribute] reads after "=" *)
Lemma entry_value k e s i1 i2 s' r0 r k' v : GKey U k s (i1 ++ [61] ++ i2 ++ s') -> AgK U k s (i1 ++ [61] ++ i2 ++ s') ->
  Iws i1 -> Iws i2 -> AgE U e s' r0 -> OA s = Ok r (k', v) -> exists x r1, ws_rest x = ws_rest s' /\ SV x = Ok r1 v.
Proof.
  intros Hk HK Hi1 Hi2 HE H. destruct (GKey_ws U _ _ _ Hk) as [_ Hs]. unfold old_attribute in H. rewrite iws_m in H.
  apply bind_ok in H as (r1 & kv & H & H9). injection H9 as <- ->.
  assert (Hws : ws_rest (iws_rest (i2 ++ s')) = ws_rest s') by (rewrite ws_rest_iws_rest; apply ws_rest_ws, Iws_Ws, Hi2).
  apply alt_inv in H as [H|[HA H]].
  - apply bind_ok in H as (r2 & k2 & H1 & H). rewrite wrap_iws, Hs in H1. apply HK in H1 as [-> HKA].
    apply bind_ok in H as (r3 & c & H2 & H). rewrite wrap_iws in H2. cbn [app] in H2. rewrite iws_to_eq, char_p_eq in H2 by exact Hi1. injection H2 as <- _.
    apply bind_ok in H as (r4 & v4 & H3 & H). rewrite wrap_iws in H3. injection H as -> -> ->. eauto.
  - exfalso. apply alt_inv in H as [H|[_ H]]; apply bind_ok in H as (r2 & i & H1 & H); rewrite wrap_iws, Hs in H1.
    + assert (Hkey : literal_key U s = Ok r2 (KeyIdent (cow_str i))).
      { unfold literal_key. apply alt_ok_l. rewrite (pmap_ok _ _ _ _ _ H1). reflexivity. }
      pose proof (HK _ _ Hkey) as [-> _]. apply bind_ok in H as (r3 & o & H2 & H). rewrite wrap_iws in H2. cbn [app] in H2.
      rewrite iws_to_eq in H2 by exact Hi1. unfold opt in H2. rewrite char_p_eq in H2. injection H2 as <- <-.
      apply bind_ok in H as (r4 & m & H3 & _). rewrite wrap_iws in H3.
      rewrite wrap_iws, Hs, Hkey in HA. cbn [bind app] in HA. rewrite wrap_iws, iws_to_eq, char_p_eq in HA by exact Hi1. cbn [bind] in HA.
      rewrite wrap_iws in HA. destruct (SV (iws_rest (i2 ++ s'))) eqn:E; try discriminate. apply (SV_err_map U) in E. congruence.
    + assert (Hkey : literal_key U s = Ok r2 (KeyIdent (cow_str i))).
      { unfold literal_key. apply alt_ok_l. rewrite (pmap_ok _ _ _ _ _ H1). reflexivity. }
      pose proof (HK _ _ Hkey) as [-> _]. apply bind_ok in H as (r3 & ls & H2 & H). fold old_label in H2. cbn [app] in H2.
      rewrite many0_eq in H2 by apply wf_upto_of, wf_old_label. unfold old_label at 1 in H2. rewrite wrap_iws, iws_to_eq, string_literal_first in H2 by (exact Hi1 || lia).
      injection H2 as <- <-. apply bind_ok in H as (r4 & m & H3 & _). rewrite wrap_iws, iws_to_eq in H3 by exact Hi1.
      rewrite map_expression_first in H3; [discriminate|]. rewrite ws_rest_stop by lia. discriminate.
Qed.

Definition InT (e : expr) (v : Value.value) (s r : str) : Prop :=
  exists ps h t, s = t ++ r /\ BTerm U e v ps h /\ Filled ps t /\ (h = true -> EolAt r).
Definition InE (e : expr) (v : Value.value) (s r : str) : Prop :=
  exists ps h t, s = t ++ r /\ BExpr U e v ps h /\ Filled ps t /\ (h = true -> EolAt r).
Definition CoT (e : expr) (s r : str) : Prop := forall x r' v, ws_rest x = s -> SV x = Ok r' v ->
  InT e v s r /\ (FirstIs 123 s \/ FirstIs 40 s -> exists l l' ps t, e = EObject l /\ v = VObject [Unmerged l'] /\ s = [123] ++ t ++ r /\ BMembers U l l' ps /\ Filled ps t).
Definition CoE (e : expr) (s r : str) : Prop := forall x r' v, ws_rest x = ws_rest s -> SV x = Ok r' v -> InE e v s r.
Definition CoI (l : list expr) (s r : str) : Prop := forall r1 r' l', vlist_items U s = Ok r1 l' -> Close r1 r' ->
  exists ps t, s = t ++ r /\ BItems U l l' ps /\ Filled ps t.
Definition CoM (l : list (okey * expr)) (s r : str) : Prop := forall x r' l', ws_rest x = ws_rest s -> OI x = Ok r' l' ->
  (ws_rest r' = [] \/ FirstIs 125 (ws_rest r')) -> exists ps t, s = t ++ r /\ BMembers U l l' ps /\ Filled ps t.

Lemma CoT_simple e v s r : VTerm U v s r -> ~ FirstIs 123 s -> ~ FirstIs 40 s -> s <> [] -> InT e v s r -> CoT e s r.
Proof.
  intros HT Hf Hf' Hn He x r' v' Hx H. pose proof (SV_lead' U x s r' v' Hx Hf Hn H) as E. subst x.
  apply single_value_complete in HT. rewrite HT in H. injection H as <- <-. split; [exact He|]. intros [HH|HH]; contradiction.
Qed.
Lemma items_value e w s r0 r1 r' l' : Ws w -> GExpr U e s r0 -> vlist_items U (w ++ s) = Ok r1 l' -> Close r1 r' ->
  exists v l'' x r2, l' = v :: l'' /\ ws_rest x = ws_rest s /\ SV x = Ok r2 v /\ sep_rest (wrap whitespace (char_p c_comma)) (wrap whitespace SV) r0 = Ok r1 l''.
Proof.
  intros Hw He H HC. pose proof H as H0. destruct (items_first U _ _ _ _ _ _ _ Hw He (expr_agree U _ _ _ He) H HC) as (v & l'' & -> & HV & Hs).
  unfold vlist_items in H0. rewrite separated_list_eq, wrap_ws, ws_rest_ws in H0 by exact Hw.
  destruct (SV (ws_rest s)) as [r2 v2| | | |] eqn:Ev; try discriminate.
  destruct (Nat.eqb _ _); [discriminate|]. apply map_res_ok in H0 as (l2 & _ & E). injection E as -> ->.
  exists v2, l2, (ws_rest s), r2. split; [reflexivity|]. split; [apply ws_rest_idem|]. auto.
Qed.
Lemma common_complete :
  (forall e s r, GTerm U e s r -> CoT e s r) /\
  (forall e s r, GExpr U e s r -> CoE e s r) /\
  (forall l s r, GItems U l s r -> CoI l s r) /\
  (forall l s r, GMembers U l s r -> CoM l s r) /\
  (forall k s r, GKey U k s r -> True).
Proof.
  apply (grammar_mut U (fun e s r _ => CoT e s r) (fun e s r _ => CoE e s r) (fun l s r _ => CoI l s r) (fun l s r _ => CoM l s r) (fun k s r _ => True)).
  - intros r. apply (CoT_simple _ VNull); [constructor|apply first_not; discriminate|apply first_not; discriminate|discriminate|].
    exists [Tok (lit "null")], false, (lit "null"). split; [reflexivity|]. split; [constructor|]. split; [apply Filled_one|discriminate].
  - intros r. apply (CoT_simple _ (VBoolean true)); [constructor|apply first_not; discriminate|apply first_not; discriminate|discriminate|].
    exists [Tok (lit "true")], false, (lit "true"). split; [reflexivity|]. split; [constructor|]. split; [apply Filled_one|discriminate].
  - intros r. apply (CoT_simple _ (VBoolean false)); [constructor|apply first_not; discriminate|apply first_not; discriminate|discriminate|].
    exists [Tok (lit "false")], false, (lit "false"). split; [reflexivity|]. split; [constructor|]. split; [apply Filled_one|discriminate].
  - intros n t r Hn HL. destruct (literal_from_str_some n t Hn) as [v Hv]. apply (literal_from_str_spec n t v Hn) in Hv.
    destruct (number_lead n t Hn) as (c & q & Et & H1 & H2).
    apply (CoT_simple _ v); [econstructor; eassumption|rewrite Et; apply first_not, H1|rewrite Et; apply first_not, H2|rewrite Et; discriminate|].
    exists [Tok t], false, t. split; [reflexivity|]. split; [constructor; assumption|]. split; [apply Filled_one|discriminate].
  - intros v s r H. apply (CoT_simple _ (VString v)); [apply VT_quoted, H|apply first_not; discriminate|apply first_not; discriminate|discriminate|].
    destruct (quoted_in _ _ _ _ H) as (t & -> & HG). exists [Tok ([34] ++ t)], false, ([34] ++ t). split; [reflexivity|]. split; [constructor; exact HG|]. split; [apply Filled_one|discriminate].
  - intros v s r H. assert (Hs : exists s', s = 60 :: s') by (destruct H; eexists; reflexivity). destruct Hs as [s' Es].
    apply (CoT_simple _ (VString (cow_str v))); [apply VT_heredoc, H|rewrite Es; apply first_not; discriminate|rewrite Es; apply first_not; discriminate|rewrite Es; discriminate|].
    clear s' Es. pose proof (GHeredoc_EolAt U _ _ _ H) as HE. destruct (GHeredoc_replace U _ _ _ H) as (t & -> & Ht & HG). exists [Tok t], true, t. split; [reflexivity|].
    split; [constructor; apply HG; exists [10], []; repeat constructor|]. split; [apply Filled_one|auto].
  - (* tuple *) intros l s r HG HI x r' v Hx H. assert (E : x = 91 :: s).
    { eapply (SV_lead' U); [exact Hx|apply first_not; discriminate|discriminate|exact H]. }
    subst x. rewrite single_value_eq in H. unfold single_value_step in H.
    rewrite alt_err in H by reflexivity.
    rewrite alt_err in H by (apply literal_number_err, number_first_err; [reflexivity|discriminate..]).
    rewrite alt_err in H by reflexivity. rewrite alt_err in H by (apply pmap_err, string_p_first; discriminate).
    split; [|intros [[q Hq]|[q Hq]]; discriminate Hq].
    apply alt_inv in H as [H|[_ H]]; apply pmap_inv in H as (l' & H & ->).
    + apply vlist_ok in H as (s1 & r1 & [= <-] & H & HC). destruct (HI _ _ _ H HC) as (ps & t & -> & HL & Hf).
      exists (Tok [91] :: ps), false, ([91] ++ t). split; [reflexivity|]. split; [constructor; exact HL|]. split; [constructor; exact Hf|discriminate].
    + rewrite map_expression_first in H; [discriminate|]. rewrite ws_rest_stop by lia. discriminate.
  - (* object *) intros l s r _ HM x r' v Hx H. cbn [app] in Hx. destruct (lead_char x 123 s Hx (or_introl eq_refl)) as (c0 & x' & Ex & Hc0).
    rewrite (old_compound U x c0 x' Ex) in H.
    2:{ destruct Hc0 as [H0|[H0|H0]]; auto. subst. rewrite ws_rest_stop in Hx by lia. discriminate. }
    apply pmap_inv in H as (m & H & ->). eapply map_expression_inv in H as (r0 & l' & H1 & -> & H2); [|exact Hx].
    destruct (HM _ _ _ (ws_rest_idem s) H1 (or_intror (ex_intro _ r' H2))) as (ps & t & -> & HL & Hf). split.
    + exists (Tok [123] :: ps), false, ([123] ++ t). split; [reflexivity|]. split; [constructor; exact HL|]. split; [constructor; exact Hf|discriminate].
    + intros _. exists l, l', ps, t. auto.
  - (* parentheses *) intros e w1 w2 s r _ _ _ _ x r' v Hx H. exfalso. assert (E : x = 40 :: w1 ++ s).
    { eapply (SV_lead' U); [exact Hx|apply first_not; discriminate|discriminate|exact H]. }
    subst x. rewrite (SV_paren U) in H. discriminate.
  - (* GE_term *) intros e s r HT HA x r' v Hx H. destruct (GTerm_ws U _ _ _ HT) as [E _]. rewrite E in Hx. destruct (HA _ _ _ Hx H) as [(ps & h & t & -> & HB & Hf & Hh) _].
    exists ps, h, t. split; [reflexivity|]. split; [constructor; exact HB|]. auto.
  - (* GE_lead *) intros e w s r Hw HF HT HA x r' v Hx H. rewrite ws_rest_ws in Hx by exact Hw. destruct (GTerm_ws U _ _ _ HT) as [E _]. rewrite E in Hx.
    destruct (HA _ _ _ Hx H) as [_ HB]. destruct (HB HF) as (l & l' & ps & t & -> & -> & -> & HM & Hf).
    exists (Gap GapWs :: Tok [123] :: ps), false, (w ++ [123] ++ t). split; [rewrite <- !app_assoc; reflexivity|]. split; [apply BX_lead, HM|].
    split; [constructor; [constructor; exact Hw|constructor; exact Hf]|discriminate].
  - (* GI_nil *) intros w r Hw r1 r' l' H HC. unfold vlist_items in H. rewrite separated_list_eq, wrap_ws, ws_rest_ws in H by exact Hw.
    cbn [app] in H. rewrite ws_rest_stop in H by lia. rewrite single_value_first_err in H by reflexivity. injection H as <- <-.
    exists [Gap GapWs; Tok [93]], (w ++ [93]). split; [rewrite <- app_assoc; reflexivity|]. split; [constructor|]. constructor; [constructor; exact Hw|apply Filled_one].
  - (* GI_comma *) intros w1 w2 r Hw1 Hw2 r1 r' l' H HC. unfold vlist_items in H. rewrite separated_list_eq, wrap_ws, ws_rest_ws in H by exact Hw1.
    cbn [app] in H. rewrite ws_rest_stop in H by lia. rewrite single_value_first_err in H by reflexivity. injection H as <- <-.
    exists [Gap GapWs; Tok [44]; Gap GapWs; Tok [93]], (w1 ++ [44] ++ w2 ++ [93]). split; [rewrite <- !app_assoc; reflexivity|]. split; [constructor|].
    constructor; [constructor; exact Hw1|]. constructor. constructor; [constructor; exact Hw2|apply Filled_one].
  - (* GI_last *) intros e w1 w2 s r Hw1 Hw2 He HE r1 r' l' H HC.
    destruct (items_value _ _ _ _ _ _ _ Hw1 He H HC) as (v & l'' & x & r2 & -> & Hx & Hv & Hs).
    assert (HC' : Close (w2 ++ [93] ++ r) r) by (left; eauto). rewrite (vsep_close U _ _ HC') in Hs. injection Hs as <- <-.
    destruct (HE _ _ _ Hx Hv) as (ps & h & t & -> & HL & Hf & Hh).
    eexists _, (w1 ++ t ++ w2 ++ [93]). split; [rewrite <- !app_assoc; reflexivity|]. split; [apply (BI_last U e v ps h HL)|].
    constructor; [constructor; exact Hw1|]. apply Filled_app; [exact Hf|]. eapply ws_after_in; [exact Hw2| | |exact Hh|apply Filled_one]; discriminate.
  - (* GI_last_comma *) intros e w1 w2 w3 s r Hw1 Hw2 Hw3 He HE r1 r' l' H HC.
    destruct (items_value _ _ _ _ _ _ _ Hw1 He H HC) as (v & l'' & x & r2 & -> & Hx & Hv & Hs).
    assert (HC' : Close (w2 ++ [44] ++ w3 ++ [93] ++ r) r) by (right; eauto). rewrite (vsep_close U _ _ HC') in Hs. injection Hs as <- <-.
    destruct (HE _ _ _ Hx Hv) as (ps & h & t & -> & HL & Hf & Hh).
    eexists _, (w1 ++ t ++ w2 ++ [44] ++ w3 ++ [93]). split; [rewrite <- !app_assoc; reflexivity|]. split; [apply (BI_last_comma U e v ps h HL)|].
    constructor; [constructor; exact Hw1|]. apply Filled_app; [exact Hf|]. eapply ws_after_in; [exact Hw2| | |exact Hh|]; [discriminate|discriminate|]. constructor. constructor; [constructor; exact Hw3|apply Filled_one].
  - (* GI_cons *) intros e e' l w1 w2 s s' r Hw1 Hw2 He HE HI HA r1 r' l' H HC.
    destruct (items_value _ _ _ _ _ _ _ Hw1 He H HC) as (v & l'' & x & r2 & -> & Hx & Hv & Hs).
    rewrite vsep_unfold, ws_rest_ws in Hs by exact Hw2. cbn [app] in Hs. rewrite ws_rest_stop in Hs by lia. rewrite char_p_eq in Hs.
    destruct (SV (ws_rest s')) as [s3 v3| | | |] eqn:Ev; try discriminate.
    + destruct (Nat.eqb (length s3) (length s')) eqn:En; [discriminate|].
      assert (HI' : vlist_items U s' = Ok r1 l'').
      { unfold vlist_items. rewrite separated_list_eq, wrap_ws, Ev, En. exact Hs. }
      destruct (HA _ _ _ HI' HC) as (qs & t' & -> & HL' & Hf'). destruct (HE _ _ _ Hx Hv) as (ps & h & t & -> & HL & Hf & Hh).
      assert (El : exists v' l0, l'' = v' :: l0) by (inversion HL'; eauto). destruct El as (v' & l0 & ->).
      eexists _, (w1 ++ t ++ w2 ++ [44] ++ t'). split; [rewrite <- !app_assoc; reflexivity|].
      split; [apply (BI_cons U e e' l v v' l0 ps h qs HL HL')|]. constructor; [constructor; exact Hw1|]. apply Filled_app; [exact Hf|]. cbn [app]. eapply ws_after_in; [exact Hw2| | |exact Hh|]; [discriminate|discriminate|].
      apply (FL_tok [44]). exact Hf'.
    + exfalso. injection Hs as <- <-. destruct (GItems_start U _ _ _ _ HI) as (c & q & Ec & Hc).
      destruct HC as [(w & Hw & E)|(w & w' & Hw & Hw' & E)]; apply (f_equal ws_rest) in E;
        rewrite !ws_rest_ws in E by assumption; cbn [app] in E; rewrite !ws_rest_stop in E by lia; [discriminate|].
      injection E as E. rewrite E, ws_rest_ws in Ec by exact Hw'. rewrite ws_rest_stop in Ec by lia. injection Ec as <- _. discriminate.
  - (* GM_nil *) intros w r Hw x r' l' Hx H Hr. rewrite ws_rest_ws in Hx by exact Hw. cbn [app] in Hx. rewrite ws_rest_stop in Hx by lia.
    rewrite many0_eq in H by apply wf_upto_of, wf_old_item. rewrite (old_rbrace_no_item U x r Hx) in H. injection H as <- <-.
    exists [Gap GapWs; Tok [125]], (w ++ [125]). split; [rewrite <- app_assoc; reflexivity|]. split; [constructor|]. constructor; [constructor; exact Hw|apply Filled_one].
  - (* GM_cons *) intros k e l w i1 i2 i3 s s' s3 s4 r Hw Hi1 Hi2 Hi3 Hk _ He HE Hs Hl HL x r' l' Hx H Hr.
    destruct (GKey_ws U _ _ _ Hk) as [Hk1 Hk2]. rewrite ws_rest_ws, Hk1 in Hx by exact Hw.
    destruct (GKey_start U _ _ _ Hk) as (c & q & Es & Hc & _).
    destruct (items_cons U _ _ c q _ _ Hx Es Hc H Hr) as (k' & v & l'' & r0 & r1 & y & -> & H1 & H2 & H3).
    pose proof (proj2 (proj2 (proj2 (proj2 (expr_agree_mut U)))) _ _ _ Hk) as HK.
    destruct (entry_agree U k e s i1 i2 s' (i3 ++ s3) r0 k' v Hk HK Hi1 Hi2 (expr_agree U _ _ _ He) H1) as (-> & HKA & _).
    destruct (entry_value k e s i1 i2 s' (i3 ++ s3) _ k' v Hk HK Hi1 Hi2 (expr_agree U _ _ _ He) H1) as (xv & rv & Hxv & Hv).
    destruct (HE _ _ _ Hxv Hv) as (ps & h & t & -> & HB & Hf & Hh). destruct (bkey_in _ _ _ _ Hk HKA) as (tk & -> & HBK).
    assert (Hfront : forall rest st, Filled rest st -> Filled ([Gap GapWs; Tok tk; Gap GapInline; Tok [61]; Gap GapInline] ++ rest) (w ++ tk ++ i1 ++ [61] ++ i2 ++ st)).
    { intros rest st Hst. constructor; [constructor; exact Hw|]. constructor. constructor; [constructor; exact Hi1|]. constructor. constructor; [constructor; exact Hi2|exact Hst]. }
    destruct Hs as [->|[(n & Hn & ->)|[-> [q' ->]]]].
    + assert (Hr1 : ws_rest r1 = ws_rest s4) by (eapply sep_agree; [|eapply GMembers_start, Hl|exact H2]; apply VS_comma, Iws_Ws, Hi3).
      destruct (HL _ _ _ Hr1 H3 Hr) as (qs & t' & E4 & HL' & Hf').
      assert (h = false) as -> by (destruct h; [|reflexivity]; destruct (iws_eolat i3 44 s4 Hi3); [discriminate|discriminate|apply Hh; reflexivity]).
      eexists _, (w ++ tk ++ i1 ++ [61] ++ i2 ++ t ++ i3 ++ [44] ++ t'). split; [subst s4; rewrite <- !app_assoc; reflexivity|]. split; [apply (BM_comma U k k' tk e v ps l l'' qs HBK HB HL')|].
      apply Hfront. apply Filled_app; [exact Hf|]. constructor; [constructor; exact Hi3|]. constructor. exact Hf'.
    + assert (Hr1 : ws_rest r1 = ws_rest s4) by (eapply sep_agree; [|eapply GMembers_start, Hl|exact H2]; apply VS_line; assumption).
      destruct (HL _ _ _ Hr1 H3 Hr) as (qs & t' & E4 & HL' & Hf').
      eexists _, (w ++ tk ++ i1 ++ [61] ++ i2 ++ t ++ i3 ++ n ++ t'). split; [subst s4; rewrite <- !app_assoc; reflexivity|]. split; [apply (BM_line U k k' tk e v ps h l l'' qs HBK HB HL')|].
      apply Hfront. apply Filled_app; [exact Hf|]. eapply end_after_in; eassumption.
    + rewrite sep_brace in H2 by exact Hi3. discriminate.
  - auto.
  - auto.
Qed.

Lemma blabels_in b ls ps : LLabels U b (map LString ls) ps -> BLabels ls ps.
Proof.
  revert b ps; induction ls as [|v ls IH]; intros b ps H; cbn [map] in H; inversion H as [| |b' v' t ls' ps' Hv HL]; subst.
  - constructor.
  - apply BL_cons; [exact Hv|]. eapply IH, HL.
Qed.
Definition CoEl (el : element) (s r : str) : Prop := forall r' kv, OA s = Ok r' kv ->
  exists ps h t, s = t ++ r /\ BElem U el kv ps h /\ Filled ps t /\ (h = true -> EolAt r).
Definition CoB (b : body_t) (s r : str) : Prop := (r = [] \/ FirstIs 125 r) -> forall x r' l', ws_rest x = ws_rest s -> OI x = Ok r' l' ->
  (ws_rest r' = [] \/ FirstIs 125 (ws_rest r')) ->
  (FirstIs 125 r -> exists ps t, s = t ++ r /\ BBody U b l' ps /\ Filled ps t) /\ (r = [] -> exists ps, BDoc U b l' ps /\ Filled ps s).
Lemma cbody_complete :
  (forall el s r, GElem U el s r -> CoEl el s r) /\ (forall b s r, GBody U b s r -> CoB b s r).
Proof.
  apply (body_mut U (fun el s r _ => CoEl el s r) (fun b s r _ => CoB b s r)).
  - (* attribute *) intros i e s r [i' e' i1 i2 s0 s' r' Hi1 Hi2 Hi He] r0 [k v] H.
    assert (HK : GKey U (KIdent i') s0 (i1 ++ [61] ++ i2 ++ s')) by (constructor; exact Hi).
    pose proof (proj2 (proj2 (proj2 (proj2 (expr_agree_mut U)))) _ _ _ HK) as HAK.
    destruct (entry_agree U _ _ _ _ _ _ _ _ _ _ HK HAK Hi1 Hi2 (expr_agree U _ _ _ He) H) as (-> & HKA & _).
    destruct (entry_value _ _ _ _ _ _ _ _ _ _ HK HAK Hi1 Hi2 (expr_agree U _ _ _ He) H) as (xv & rv & Hxv & Hv).
    destruct (proj1 (proj2 common_complete) _ _ _ He _ _ _ Hxv Hv) as (ps & h & t & -> & HB & Hf & Hh).
    apply ident_in in Hi as (ti & -> & -> & Hi). inversion HKA; subst.
    eexists _, h, (ti ++ i1 ++ [61] ++ i2 ++ t). split; [rewrite <- !app_assoc; reflexivity|]. split; [apply (BE_attr U ti e' v ps h Hi HB)|]. split; [|exact Hh].
    cbn [app]. constructor. constructor; [constructor; exact Hi1|]. apply (FL_tok [61]). constructor; [constructor; exact Hi2|exact Hf].
  - (* one line, empty *) intros t ls i1 s s' r Hi1 Ht HL r' kv H.
    destruct (block_agree U _ _ _ _ _ _ _ Ht HL H) as (r0 & r1 & l & ls' & H1 & H2 & -> & -> & ->).
    rewrite ws_rest_ws in H1 by (apply Iws_Ws, Hi1). cbn [app] in H1. rewrite ws_rest_stop in H1 by lia.
    rewrite many0_eq in H1 by apply wf_upto_of, wf_old_item. rewrite (old_rbrace_no_item U _ r) in H1 by (apply ws_rest_stop; lia).
    injection H1 as <- <-.
    destruct (start_complete U _ _ _ _ _ Ht HL) as (ti & ps & u & -> & -> & Hti & HLL & Hf). apply blabels_in in HLL.
    eexists _, false, (ti ++ u ++ [123] ++ i1 ++ [125]). split; [rewrite <- !app_assoc; reflexivity|]. split; [apply (BE_empty U ti ls' ps Hti HLL)|]. split; [|discriminate].
    apply (FL_tok ti). apply Filled_app; [exact Hf|]. constructor. constructor; [constructor; exact Hi1|apply Filled_one].
  - (* one line: never read *) intros t ls n v i1 i2 s s' s2 r Hi1 Hi2 Ht HL Ha r' kv H. exfalso.
    destruct (block_agree U _ _ _ _ _ _ _ Ht HL H) as (r0 & r1 & l & ls' & H1 & H2 & -> & -> & ->).
    rewrite ws_rest_ws in H1 by (apply Iws_Ws, Hi1). destruct (GAttr_ws U _ _ _ _ Ha) as [Ea _]. rewrite Ea in H1.
    pose proof (GE_attr U n v s2 _ Ha) as He. apply GElem_start in He as (_ & c & q & Es & Hc & _).
    destruct (items_cons U _ _ c q _ _ Ea Es Hc H1 (or_intror (ex_intro _ r1 H2))) as (k' & v' & l'' & r2 & r3 & y & -> & H3 & H4 & _).
    remember (i2 ++ [125] ++ r) as R eqn:ER. destruct Ha as [i' e' j1 j2 s0 s'' r'' Hj1 Hj2 Hi He]. subst r''.
    assert (HK : GKey U (KIdent i') s0 (j1 ++ [61] ++ j2 ++ s'')) by (constructor; exact Hi).
    assert (E : r2 = iws_rest (i2 ++ [125] ++ r)).
    { eapply (entry_agree U _ _ _ _ _ _ _ _ _ _ HK (proj2 (proj2 (proj2 (proj2 (expr_agree_mut U)))) _ _ _ HK) Hj1 Hj2 (expr_agree U _ _ _ He) H3). }
    rewrite E in H4. cbn [app] in H4. rewrite sep_brace in H4 by exact Hi2. discriminate.
  - (* block *) intros t ls b i1 n s s' s2 r Hi1 Hn Ht HL Hb HB r' kv H.
    destruct (block_agree U _ _ _ _ _ _ _ Ht HL H) as (r0 & r1 & l & ls' & H1 & H2 & -> & -> & ->).
    rewrite ws_rest_ws in H1 by (apply Iws_Ws, Hi1). rewrite LineEnd_ws_rest in H1 by exact Hn.
    destruct (HB (or_intror (ex_intro _ r eq_refl)) _ _ _ (ws_rest_idem s2) H1 (or_intror (ex_intro _ r1 H2))) as [HB' _].
    destruct (HB' (ex_intro _ r eq_refl)) as (qs & tb & -> & HLB & Hfb).
    destruct (start_complete U _ _ _ _ _ Ht HL) as (ti & ps & u & -> & -> & Hti & HLL & Hf). apply blabels_in in HLL.
    eexists _, false, (ti ++ u ++ [123] ++ i1 ++ n ++ tb ++ [125]). split; [rewrite <- !app_assoc; reflexivity|]. split; [apply (BE_block U ti ls' ps b l qs Hti HLL HLB)|]. split; [|discriminate].
    apply (FL_tok ti). apply Filled_app; [exact Hf|]. cbn [app]. apply (FL_tok [123]). constructor; [constructor; exact Hi1|]. constructor; [constructor; exact Hn|].
    apply Filled_app; [exact Hfb|apply Filled_one].
  - (* nil *) intros w r Hw Hr x r' l' Hx H Hr'. rewrite ws_rest_ws in Hx by exact Hw.
    assert (Hrr : ws_rest r = r) by (destruct Hr as [->|[q ->]]; [reflexivity|apply ws_rest_stop; lia]). rewrite Hrr in Hx.
    rewrite many0_eq in H by apply wf_upto_of, wf_old_item.
    assert (He : old_item U x = Err) by (destruct Hr as [->|[q ->]]; [apply old_nil_no_item, Hx|eapply old_rbrace_no_item, Hx]).
    rewrite He in H. injection H as <- <-. split.
    + intros _. exists [Gap GapWs], w. split; [reflexivity|]. split; [constructor|]. rewrite <- (app_nil_r w). constructor; [constructor; exact Hw|constructor].
    + intros ->. exists [Gap GapWs]. split; [constructor|]. constructor; [constructor; exact Hw|constructor].
  - (* cons *) intros el b w i s s1 s2 r Hw Hi He HE Hsep Hb HB Hr x r' l' Hx H Hr'.
    destruct (GElem_start U _ _ _ He) as (Hs & c & q & Es & Hc & _). rewrite ws_rest_ws, Hs in Hx by exact Hw.
    destruct (items_cons U _ _ c q _ _ Hx Es Hc H Hr') as (k & v & l'' & r0 & r1 & y & -> & H1 & H2 & H3).
    destruct (HE _ _ H1) as (ps & h & te & -> & HBE & Hfe & Hh). pose proof (proj1 (body_agree_mut U) _ _ _ He _ _ H1) as [-> _].
    pose proof (GBody_start U _ _ _ Hb Hr) as Hn44.
    assert (Hr1 : ws_rest r1 = ws_rest s2).
    { eapply sep_agree; [|exact Hn44|exact H2]. destruct Hsep as [(n & Hn & ->)|[-> ->]]; [apply VS_line; assumption|rewrite app_nil_r; apply VS_end, Hi]. }
    destruct (HB Hr _ _ _ Hr1 H3 Hr') as [HB' HD]. split.
    + intros Hr0. destruct (HB' Hr0) as (qs & tb & -> & HLB & Hfb). destruct Hsep as [(n & Hn & ->)|[-> E]].
      * eexists _, (w ++ te ++ i ++ n ++ tb). split; [rewrite <- !app_assoc; reflexivity|]. split; [apply (BB_cons U el (k, v) b l'' ps h qs HBE HLB)|].
        constructor; [constructor; exact Hw|]. apply Filled_app; [exact Hfe|]. eapply end_after_in; eassumption.
      * destruct Hr0 as [q0 ->]. destruct tb; discriminate.
    + intros Hr0. destruct (HD Hr0) as (qs & HLB & Hfb). destruct Hsep as [(n & Hn & ->)|[-> ->]].
      * eexists. split; [apply (BD_cons U el (k, v) b l'' ps h qs HBE HLB)|]. constructor; [constructor; exact Hw|]. apply Filled_app; [exact Hfe|]. eapply end_after_in; eassumption.
      * apply GBody_nil_inv in Hb as [-> _]; [|reflexivity].
        assert (h = false) as ->. { destruct h; [|reflexivity]. specialize (Hh eq_refl). rewrite app_nil_r in Hh. apply EolAt_iws in Hh; [contradiction|exact Hi]. }
        assert (l'' = []) as -> by (inversion HLB; reflexivity).
        eexists. split; [apply (BD_last U el (k, v) ps HBE)|]. constructor; [constructor; exact Hw|]. apply Filled_app; [exact Hfe|].
        constructor; [constructor; exact Hi|constructor].
Qed.
Theorem bdoc_complete b l s : GConfig U b s -> VDoc U l s -> exists ps, BDoc U b l ps /\ Filled ps s.
Proof.
  intros HG HV. apply (proj2 cbody_complete) in HG. unfold VDoc in HV. apply map_values_complete in HV; [|auto].
  rewrite map_values_unfold in HV. apply bind_ok in HV as (r0 & l0 & H & H9). injection H9 as H9 ->.
  apply (HG (or_introl eq_refl) s r0 l eq_refl H (or_introl H9)). reflexivity.
Qed.
End WithTables.
