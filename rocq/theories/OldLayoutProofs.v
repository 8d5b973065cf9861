(** * OldLayoutProofs: what [value::from_str] accepts are the filled layouts *)
From Coq Require Import ZArith.
From Verif Require Import Base Nom NomFacts Ast Lex Grammar WsFacts NumFacts StrFacts HeredocFacts
  Parser ParserFacts ExprProofs BodyProofs Locality DocProofs NumConv NumSpec Kvp Value OldGrammar OldLocality LayoutSpec LayoutProofs OldLayoutSpec.
Close Scope Z_scope.
Open Scope N_scope.
Open Scope list_scope.

Section WithTables.
Context (U : ucd).

Lemma okey_token k t r : VKey U k (t ++ [61]) [61] -> Delim r -> VKey U k (t ++ r) r.
Proof.
  intros H Hr. remember (t ++ [61]) as x eqn:Ex. remember [61] as y eqn:Ey in H. destruct H as [i s q Hi|v s q Hv]; subst.
  - apply GIdent_replace in Hi as (u & E & _ & HG). apply app_inv_tail in E as <-. constructor. apply HG, Hr.
  - destruct (GChars_replace _ _ _ _ r Hv) as (u & -> & HG). assert (E : t = [34] ++ u ++ [34]).
    { apply (app_inv_tail [61]). rewrite <- Ex, <- !app_assoc. reflexivity. }
    subst t. rewrite <- !app_assoc. constructor. exact HG.
Qed.
Lemma olabels_sound ls ps : OLabels ls ps -> forall s r, Filled ps s -> VLabels ls (s ++ r) r /\ (Delim r -> Delim (s ++ r)).
Proof.
  induction 1 as [|v t ls ps Hv _ IH]; intros s r H; cbn [app] in H; fillx H.
  - split; [constructor|auto].
  - destruct (IH _ r H) as [H1 _]. rewrite <- !app_assoc. split; [|intros _; apply Delim_iws; [assumption|reflexivity]].
    eapply VL_cons; [assumption| |exact H1]. apply quoted_token, Hv.
Qed.

(** ** Every filled layout is a document *)
Lemma olayout_sound :
  (forall v ps h, OTerm U v ps h -> forall s r, Filled ps s -> After h r -> VTerm U v (s ++ r) r) /\
  (forall l ps, OItems U l ps -> forall s r, Filled ps s -> VItems U l (s ++ r) r) /\
  (forall l ps, OEntries U l ps -> forall s r, Filled ps s -> VEntries U l (s ++ r) r) /\
  (forall k v ps h, OEntry U k v ps h -> forall s r, Filled ps s -> After h r -> VEntry U k v (s ++ r) r).
Proof.
  apply (olayout_mut U (fun e ps h _ => forall s r, Filled ps s -> After h r -> VTerm U e (s ++ r) r)
    (fun l ps _ => forall s r, Filled ps s -> VItems U l (s ++ r) r)
    (fun l ps _ => forall s r, Filled ps s -> VEntries U l (s ++ r) r)
    (fun k e ps h _ => forall s r, Filled ps s -> After h r -> VEntry U k e (s ++ r) r)).
  - intros s r H _. fillx H. rewrite app_nil_r. constructor.
  - intros s r H _. fillx H. rewrite app_nil_r. constructor.
  - intros s r H _. fillx H. rewrite app_nil_r. constructor.
  - intros n t v Hn Hv s r H [Hd _]. fillx H. rewrite app_nil_r. apply (VT_number U n); [exact Hn| |exact Hv]. apply (Longest_number n); [exact Hn|apply Delim_follow, Hd].
  - intros v t Hv s r H _. fillx H. rewrite app_nil_r, <- app_assoc. apply VT_quoted, quoted_token, Hv.
  - intros v t Hv s r H [_ He]. fillx H. rewrite app_nil_r. apply VT_heredoc, heredoc_token; auto.
  - intros l ps _ IH s r H _. fillx H. rewrite <- app_assoc. apply VT_list, IH, H.
  - intros l ps _ IH s r H _. cbn [app] in H. fillx H. apply Filled_app_inv in H as (a & b & -> & Ha & H). fillx H. rewrite app_nil_r, <- !app_assoc.
    apply VT_object; [assumption|]. apply IH, Ha.
  - intros s r H. fillx H. rewrite app_nil_r, <- !app_assoc. apply VI_nil, Hg.
  - intros s r H. fillx H. rewrite app_nil_r, <- !app_assoc. apply VI_comma; assumption.
  - intros e ps h _ IH s r H. cbn [app] in H. fillx H. apply Filled_app_inv in H as (a & b & -> & Ha & H).
    apply ws_after_fill in H as (w2 & s' & -> & Hw2 & H & Hh). fillx H. rewrite app_nil_r, <- !app_assoc.
    apply (VI_last U e w w2); [exact Hg|exact Hw2|]. apply IH; [exact Ha|]. apply After_ws; [exact Hw2|reflexivity|exact Hh].
  - intros e ps h _ IH s r H. cbn [app] in H. fillx H. apply Filled_app_inv in H as (a & b & -> & Ha & H).
    apply ws_after_fill in H as (w2 & s' & -> & Hw2 & H & Hh). fillx H. rewrite app_nil_r, <- !app_assoc.
    apply (VI_last_comma U e w w2 w0); [exact Hg|exact Hw2|assumption|]. apply IH; [exact Ha|]. apply After_ws; [exact Hw2|reflexivity|exact Hh].
  - intros e e' l ps h qs _ IH _ IHl s r H. cbn [app] in H. fillx H. apply Filled_app_inv in H as (a & b & -> & Ha & H).
    apply ws_after_fill in H as (w2 & s' & -> & Hw2 & H & Hh). fillx H. rewrite <- !app_assoc.
    eapply (VI_cons U e e' l w w2); [exact Hg|exact Hw2| |apply IHl, H]. apply IH; [exact Ha|]. apply After_ws; [exact Hw2|reflexivity|exact Hh].
  - intros s r H. fillx H. rewrite app_nil_r. apply VE_nil, Hg.
  - intros k v l ps h qs _ IH _ IHl s r H. cbn [app] in H. fillx H. apply Filled_app_inv in H as (a & b & -> & Ha & H).
    apply ws_after_fill in H as (w2 & s' & -> & Hw2 & H & Hh). fillx H. rewrite <- !app_assoc.
    eapply (VE_cons U k v l w); [exact Hg| |apply VS_comma, Hw2|apply IHl, H]. apply IH; [exact Ha|]. apply After_ws; [exact Hw2|reflexivity|exact Hh].
  - intros k v l ps h qs _ IH _ IHl s r H. cbn [app] in H. fillx H. apply Filled_app_inv in H as (a & b & -> & Ha & H).
    apply end_after_fill in H as (i & n & s' & -> & Hi & Hn & H & HA). rewrite <- !app_assoc.
    eapply (VE_cons U k v l w); [exact Hg| |apply VS_line; eassumption|apply IHl, H]. apply IH; [exact Ha|]. apply HA.
  - intros k t v ps h Hk _ IH s r H Hr. cbn [app] in H. fillx H. rewrite <- !app_assoc.
    eapply (VE_attr U k v w w0); [assumption|assumption| |apply IH; eassumption]. apply okey_token; [exact Hk|]. apply Delim_iws; [assumption|reflexivity].
  - intros t l ps Ht _ IH s r H _. cbn [app] in H. fillx H. apply Filled_app_inv in H as (a & b & -> & Ha & H). fillx H. rewrite app_nil_r, <- !app_assoc.
    eapply (VE_object U t l w); [assumption| |apply IH, Ha]. apply GIdent_intro; [exact Ht|]. apply Delim_ws; [assumption|reflexivity].
  - intros t ls qs l ps Ht Hne HL _ IH s r H _. cbn [app] in H. fillx H. apply Filled_app_inv in H as (a & b & -> & Ha & H). cbn [app] in H. fillx H.
    apply Filled_app_inv in H as (a' & b' & -> & Ha' & H). fillx H. rewrite app_nil_r, <- !app_assoc.
    destruct (olabels_sound ls qs HL a (w ++ [123] ++ a' ++ [125] ++ r) Ha) as [H1 H2].
    eapply (VE_block U t ls l w); [assumption|exact Hne| |exact H1|apply IH, Ha']. apply GIdent_intro; [exact Ht|]. apply H2, Delim_ws; [assumption|reflexivity].
Qed.
Theorem odoc_sound l ps : ODoc U l ps -> forall s, Filled ps s -> VDoc U l s.
Proof.
  unfold VDoc. induction 1 as [|k v ps He|k v l ps h qs He _ IH|k v l ps h qs He _ IH]; intros s H; cbn [app] in H; fillx H.
  - rewrite <- (app_nil_r (w ++ [])), <- app_assoc. apply (VE_nil U w). exact Hg.
  - apply Filled_app_inv in H as (a & c & -> & Ha & H). fillx H. rewrite app_nil_r.
    eapply (VE_cons U k v [] w _ w0 []); [exact Hg| |apply VS_end; assumption|apply (VE_nil U [] []); constructor].
    apply (proj2 (proj2 (proj2 olayout_sound)) _ _ _ _ He); [exact Ha|]. split; [|discriminate]. rewrite <- (app_nil_r w0). apply Delim_iws; [assumption|exact I].
  - apply Filled_app_inv in H as (a & c & -> & Ha & H). apply ws_after_fill in H as (w2 & s' & -> & Hw2 & H & Hh). fillx H.
    eapply (VE_cons U k v l w); [exact Hg| |apply VS_comma, Hw2|apply IH, H]. apply (proj2 (proj2 (proj2 olayout_sound)) _ _ _ _ He); [exact Ha|]. apply After_ws; [exact Hw2|reflexivity|exact Hh].
  - apply Filled_app_inv in H as (a & c & -> & Ha & H). apply end_after_fill in H as (i & n & s' & -> & Hi & Hn & H & HA).
    eapply (VE_cons U k v l w); [exact Hg| |apply VS_line; eassumption|apply IH, H]. apply (proj2 (proj2 (proj2 olayout_sound)) _ _ _ _ He); [exact Ha|]. apply HA.
Qed.

(** ** Every document is a filled layout *)
Lemma okey_in k s r : VKey U k s r -> exists t, s = t ++ r /\ VKey U k (t ++ [61]) [61].
Proof.
  intros [t s' r' Ht|v s' r' Hv].
  - apply GIdent_replace in Ht as (u & -> & _ & HG). exists u. split; [reflexivity|]. constructor. apply HG. reflexivity.
  - destruct (GChars_replace _ _ _ _ [61] Hv) as (u & -> & HG). exists ([34] ++ u ++ [34]). rewrite <- !app_assoc. split; [reflexivity|]. constructor. exact HG.
Qed.
Lemma olabels_complete ls s r : VLabels ls s r -> exists ps t, s = t ++ r /\ OLabels ls ps /\ Filled ps t.
Proof.
  induction 1 as [r|v ls i s s' r Hi Hv _ (ps & t & -> & HL & Hf)].
  - exists [], []. repeat constructor.
  - apply quoted_in in Hv as (u & -> & Hv). eexists _, (i ++ ([34] ++ u) ++ t). split; [rewrite <- !app_assoc; reflexivity|]. split; [apply (OL_cons v u ls ps Hv HL)|].
    constructor; [constructor; exact Hi|]. constructor. exact Hf.
Qed.
Definition EntriesIn (l : list (key * Value.value)) (s r : str) : Prop :=
  (FirstIs 125 r -> exists ps t, s = t ++ r /\ OEntries U l ps /\ Filled ps t) /\ (r = [] -> exists ps, ODoc U l ps /\ Filled ps s).
Lemma olayout_complete :
  (forall v s r, VTerm U v s r -> exists ps h t, s = t ++ r /\ OTerm U v ps h /\ Filled ps t /\ (h = true -> EolAt r)) /\
  (forall l s r, VItems U l s r -> exists ps t, s = t ++ r /\ OItems U l ps /\ Filled ps t) /\
  (forall l s r, VEntries U l s r -> EntriesIn l s r) /\
  (forall k v s r, VEntry U k v s r -> exists ps h t, s = t ++ r /\ OEntry U k v ps h /\ Filled ps t /\ (h = true -> EolAt r)).
Proof.
  apply (old_mut U
    (fun e s r _ => exists ps h t, s = t ++ r /\ OTerm U e ps h /\ Filled ps t /\ (h = true -> EolAt r))
    (fun l s r _ => exists ps t, s = t ++ r /\ OItems U l ps /\ Filled ps t)
    (fun l s r _ => EntriesIn l s r)
    (fun k e s r _ => exists ps h t, s = t ++ r /\ OEntry U k e ps h /\ Filled ps t /\ (h = true -> EolAt r))).
  - intros r. exists [Tok (lit "null")], false, (lit "null"). split; [reflexivity|]. split; [constructor|]. split; [apply Filled_one|discriminate].
  - intros r. exists [Tok (lit "true")], false, (lit "true"). split; [reflexivity|]. split; [constructor|]. split; [apply Filled_one|discriminate].
  - intros r. exists [Tok (lit "false")], false, (lit "false"). split; [reflexivity|]. split; [constructor|]. split; [apply Filled_one|discriminate].
  - intros n t v r Hn HL Hv. exists [Tok t], false, t. split; [reflexivity|]. split; [econstructor; eassumption|]. split; [apply Filled_one|discriminate].
  - intros v s r H. destruct (quoted_in _ _ _ _ H) as (t & -> & HG). exists [Tok ([34] ++ t)], false, ([34] ++ t). split; [reflexivity|]. split; [constructor; exact HG|]. split; [apply Filled_one|discriminate].
  - intros v s r H. pose proof (GHeredoc_EolAt U _ _ _ H) as HE. destruct (GHeredoc_replace U _ _ _ H) as (t & -> & Ht & HG). exists [Tok t], true, t. split; [reflexivity|].
    split; [constructor; apply HG; exists [10], []; repeat constructor|]. split; [apply Filled_one|auto].
  - intros l s r _ (ps & t & -> & HL & Hf). exists (Tok [91] :: ps), false, ([91] ++ t). split; [reflexivity|]. split; [constructor; exact HL|]. split; [constructor; exact Hf|discriminate].
  - intros l w s r Hw _ [H _]. destruct H as (ps & t & -> & HL & Hf); [eexists; reflexivity|]. eexists _, false, (w ++ [123] ++ t ++ [125]). split; [rewrite <- !app_assoc; reflexivity|].
    split; [apply (OT_object U l ps HL)|]. split; [|discriminate]. cbn [app]. constructor; [constructor; exact Hw|]. apply (FL_tok [123]). apply Filled_app; [exact Hf|apply Filled_one].
  - intros w r Hw. exists [Gap GapWs; Tok [93]], (w ++ [93]). split; [rewrite <- app_assoc; reflexivity|]. split; [constructor|]. constructor; [constructor; exact Hw|apply Filled_one].
  - intros w1 w2 r Hw1 Hw2. exists [Gap GapWs; Tok [44]; Gap GapWs; Tok [93]], (w1 ++ [44] ++ w2 ++ [93]). split; [rewrite <- !app_assoc; reflexivity|]. split; [constructor|].
    constructor; [constructor; exact Hw1|]. constructor. constructor; [constructor; exact Hw2|apply Filled_one].
  - intros e w1 w2 s r Hw1 Hw2 _ (ps & h & t & -> & HL & Hf & Hh). eexists _, (w1 ++ t ++ w2 ++ [93]). split; [rewrite <- !app_assoc; reflexivity|]. split; [apply (OI_last U e ps h HL)|].
    constructor; [constructor; exact Hw1|]. apply Filled_app; [exact Hf|]. eapply ws_after_in; [exact Hw2| | |exact Hh|apply Filled_one]; discriminate.
  - intros e w1 w2 w3 s r Hw1 Hw2 Hw3 _ (ps & h & t & -> & HL & Hf & Hh). eexists _, (w1 ++ t ++ w2 ++ [44] ++ w3 ++ [93]). split; [rewrite <- !app_assoc; reflexivity|]. split; [apply (OI_last_comma U e ps h HL)|].
    constructor; [constructor; exact Hw1|]. apply Filled_app; [exact Hf|]. eapply ws_after_in; [exact Hw2| | |exact Hh|]; [discriminate|discriminate|]. constructor. constructor; [constructor; exact Hw3|apply Filled_one].
  - intros e e' l w1 w2 s s' r Hw1 Hw2 _ (ps & h & t & -> & HL & Hf & Hh) _ (qs & t' & -> & HL' & Hf'). eexists _, (w1 ++ t ++ w2 ++ [44] ++ t'). split; [rewrite <- !app_assoc; reflexivity|].
    split; [apply (OI_cons U e e' l ps h qs HL HL')|]. constructor; [constructor; exact Hw1|]. apply Filled_app; [exact Hf|]. cbn [app]. eapply ws_after_in; [exact Hw2| | |exact Hh|]; [discriminate|discriminate|].
    apply (FL_tok [44]). exact Hf'.
  - intros w r Hw. split.
    + intros _. exists [Gap GapWs], w. split; [reflexivity|]. split; [constructor|]. rewrite <- (app_nil_r w). constructor; [constructor; exact Hw|constructor].
    + intros ->. exists [Gap GapWs]. split; [constructor|]. constructor; [constructor; exact Hw|constructor].
  - intros k v l w s s1 s2 r Hw _ (ps & h & te & -> & HE & Hfe & Hh) Hsep Hl [HB HD]. split.
    + intros Hr. destruct (HB Hr) as (qs & tb & E2 & HLB & Hfb). destruct Hsep as [w' s2 Hw'|i n s2 Hi Hn|i Hi]; subst.
      * eexists _, (w ++ te ++ w' ++ [44] ++ tb). split; [rewrite <- !app_assoc; reflexivity|]. split; [apply (ON_comma U k v l ps h qs HE HLB)|].
        constructor; [constructor; exact Hw|]. apply Filled_app; [exact Hfe|]. cbn [app]. eapply ws_after_in; [exact Hw'| | |exact Hh|]; [discriminate|discriminate|]. apply (FL_tok [44]). exact Hfb.
      * eexists _, (w ++ te ++ i ++ n ++ tb). split; [rewrite <- !app_assoc; reflexivity|]. split; [apply (ON_line U k v l ps h qs HE HLB)|].
        constructor; [constructor; exact Hw|]. apply Filled_app; [exact Hfe|]. eapply end_after_in; eassumption.
      * destruct Hr as [q ->]. destruct tb; discriminate.
    + intros Hr. destruct (HD Hr) as (qs & HLB & Hfb). destruct Hsep as [w' s2 Hw'|i n s2 Hi Hn|i Hi].
      * eexists. split; [apply (OD_comma U k v l ps h qs HE HLB)|].
        constructor; [constructor; exact Hw|]. apply Filled_app; [exact Hfe|]. cbn [app]. eapply ws_after_in; [exact Hw'| | |exact Hh|]; [discriminate|discriminate|]. apply (FL_tok [44]). exact Hfb.
      * eexists. split; [apply (OD_line U k v l ps h qs HE HLB)|]. constructor; [constructor; exact Hw|]. apply Filled_app; [exact Hfe|]. eapply end_after_in; eassumption.
      * apply VEntries_nil_inv in Hl as [-> _]; [|reflexivity].
        assert (h = false) as ->. { destruct h; [|reflexivity]. specialize (Hh eq_refl). apply EolAt_iws in Hh; [contradiction|exact Hi]. }
        eexists. split; [apply (OD_last U k v ps HE)|]. constructor; [constructor; exact Hw|]. apply Filled_app; [exact Hfe|].
        rewrite <- (app_nil_r i). constructor; [constructor; exact Hi|constructor].
  - intros k v i1 i2 s s' r Hi1 Hi2 Hk _ (ps & h & t & -> & HL & Hf & Hh). apply okey_in in Hk as (tk & -> & Hk).
    eexists _, h, (tk ++ i1 ++ [61] ++ i2 ++ t). split; [rewrite <- !app_assoc; reflexivity|]. split; [apply (OE_attr U k tk v ps h Hk HL)|]. split; [|exact Hh].
    cbn [app]. constructor. constructor; [constructor; exact Hi1|]. apply (FL_tok [61]). constructor; [constructor; exact Hi2|exact Hf].
  - intros t l w s s' r Hw Ht _ [H _]. destruct H as (ps & u & -> & HL & Hf); [eexists; reflexivity|]. apply ident_in in Ht as (ti & E & -> & Ht). injection E as <-.
    eexists _, false, (t ++ w ++ [123] ++ u ++ [125]). split; [rewrite <- !app_assoc; reflexivity|]. split; [apply (OE_object U t l ps Ht HL)|]. split; [|discriminate].
    cbn [app]. constructor. constructor; [constructor; exact Hw|]. apply (FL_tok [123]). apply Filled_app; [exact Hf|apply Filled_one].
  - intros t ls l w s s1 s' r Hw Hne Ht Hls _ [H _]. destruct H as (ps & u & -> & HL & Hf); [eexists; reflexivity|]. apply ident_in in Ht as (ti & E & -> & Ht). injection E as <-.
    apply olabels_complete in Hls as (qs & x & -> & HLs & Hfl).
    eexists _, false, (t ++ x ++ w ++ [123] ++ u ++ [125]). split; [rewrite <- !app_assoc; reflexivity|]. split; [apply (OE_block U t ls qs l ps Ht Hne HLs HL)|]. split; [|discriminate].
    cbn [app]. constructor. apply Filled_app; [exact Hfl|]. constructor; [constructor; exact Hw|]. apply (FL_tok [123]). apply Filled_app; [exact Hf|apply Filled_one].
Qed.
Theorem odoc_complete l s : VDoc U l s -> exists ps, ODoc U l ps /\ Filled ps s.
Proof. intros H. apply (proj1 (proj2 (proj2 olayout_complete))) in H as [_ H]. apply H. reflexivity. Qed.
End WithTables.
