(** * CommonReach: which trees and which values have a text that both parsers read *)
From Coq Require Import ZArith Reals SpecFloat Lia.
From Verif Require Import Base Nom NomFacts Ast Lex Grammar WsFacts NumFacts StrFacts HeredocFacts
  Parser ParserFacts ExprProofs BodyProofs Locality DocProofs MoreProofs Printer PrinterProofs Reprint NumConv NumSpec NumProofs PropNum IoSpec Kvp Value OldGrammar
  FloatSpec PropFloatRead DenSpec ReachSpec ReachFloat ReachProofs ReachText VReachSpec VReachProofs AgreeSpec LayoutSpec LayoutProofs PropLayout CommonSpec CommonProofs CommonVSpec.
Close Scope R_scope.
Close Scope Z_scope.
Close Scope nat_scope.
Open Scope N_scope.
Open Scope list_scope.

(** ** Texts of layouts *)
Definition TokStr (ps : list item) : Prop := Forall (fun p => match p with Tok t => IsStr t | Gap _ => True end) ps.
Lemma TokStr_app a b : TokStr (a ++ b) <-> TokStr a /\ TokStr b.
Proof. apply Forall_app. Qed.
Lemma Filled_TokStr ps s : Filled ps s -> IsStr s -> TokStr ps.
Proof.
  induction 1 as [|t ps s _ IH|g w ps s _ _ IH]; intros H; [constructor| |]; apply str_app in H as [H1 H2].
  - apply Forall_cons; [exact H1|exact (IH H2)].
  - apply Forall_cons; [exact I|exact (IH H2)].
Qed.
Lemma least_str ps : TokStr ps -> IsStr (least ps).
Proof.
  induction 1 as [|[t|g] ps Hp _ IH]; [constructor| |]; unfold least; cbn [flat_map]; apply str_app; (split; [|exact IH]); [exact Hp|].
  destruct g; repeat constructor.
Qed.
Lemma TokStr_tok t ps : TokStr (Tok t :: ps) -> IsStr t /\ TokStr ps.
Proof. intros H; inversion H; auto. Qed.
Lemma TokStr_gap g ps : TokStr (Gap g :: ps) -> TokStr ps.
Proof. intros H; inversion H; auto. Qed.

Section WithTables.
Context (U : ucd).

(** ** What both read can be written *)
Lemma quoted_str P v t : GChars P v t [34] -> IsStr ([34] ++ t) -> IsStr v.
Proof. intros H Hs. apply str_app in Hs as [_ Hs]. apply (chars_str _ _ _ _ H Hs). Qed.
Lemma bkey_str k k' t : BKey U k k' t -> IsStr t -> RKey U k'.
Proof. intros [i Hi|v u Hv] H; constructor; [split; assumption|eapply quoted_str; eassumption]. Qed.
Lemma ws_after_str h ps : TokStr (ws_after h :: ps) -> TokStr ps.
Proof. apply TokStr_gap. Qed.
Ltac toks H := repeat match type of H with
  | TokStr (Tok _ :: _) => let H1 := fresh "Ht" in apply TokStr_tok in H as [H1 H]
  | TokStr (Gap _ :: _) => apply TokStr_gap in H
  | TokStr (ws_after _ :: _) => apply ws_after_str in H
  | TokStr (_ ++ _) => let H1 := fresh "Ha" in apply TokStr_app in H as [H1 H]
  end.
Lemma number_c n t v : NumLit n t -> NumberValue t v -> CValue U v.
Proof.
  intros Hn Hv. pose proof (number_value_ok U n t v Hn Hv) as H. destruct Hv; inversion H; subst; constructor; assumption.
Qed.
Lemma common_values :
  (forall e v ps h, BTerm U e v ps h -> TokStr ps -> CValue U v) /\
  (forall e v ps h, BExpr U e v ps h -> TokStr ps -> CValue U v) /\
  (forall l l' ps, BItems U l l' ps -> TokStr ps -> Forall (CValue U) l') /\
  (forall l l' ps, BMembers U l l' ps -> TokStr ps -> Forall (fun kv => RKey U (fst kv) /\ CValue U (snd kv)) l').
Proof.
  apply (common_mut U (fun e v ps h _ => TokStr ps -> CValue U v) (fun e v ps h _ => TokStr ps -> CValue U v)
    (fun l l' ps _ => TokStr ps -> Forall (CValue U) l') (fun l l' ps _ => TokStr ps -> Forall (fun kv => RKey U (fst kv) /\ CValue U (snd kv)) l')).
  - constructor.
  - constructor.
  - constructor.
  - intros n t v Hn Hv _. eapply number_c; eassumption.
  - intros v t Hv H. toks H. constructor. eapply quoted_str; eassumption.
  - intros c t Hv H. toks H. constructor. eapply (heredoc_str U _ _ _ Hv). apply str_app. split; [exact Ht|repeat constructor].
  - intros l l' ps _ IH H. toks H. constructor. auto.
  - intros l l' ps _ IH H. toks H. constructor. auto.
  - auto.
  - intros l l' ps _ IH H. toks H. constructor. auto.
  - constructor.
  - constructor.
  - intros e v ps h _ IH H. cbn [app] in H. toks H. constructor; [auto|constructor].
  - intros e v ps h _ IH H. cbn [app] in H. toks H. constructor; [auto|constructor].
  - intros e e' l v v' l' ps h qs _ IH _ IHl H. cbn [app] in H. toks H. constructor; auto.
  - constructor.
  - intros k k' t e v ps l l' qs Hk _ IH _ IHl H. cbn [app] in H. toks H. constructor; [|auto]. split; [eapply bkey_str; eassumption|auto].
  - intros k k' t e v ps h l l' qs Hk _ IH _ IHl H. cbn [app] in H. toks H. constructor; [|auto]. split; [eapply bkey_str; eassumption|auto].
Qed.
Lemma blabels_str ls ps : BLabels ls ps -> TokStr ps -> Forall IsStr ls.
Proof. induction 1 as [|v t ls ps Hv _ IH]; intros H; [constructor|]. cbn [app] in H. apply TokStr_gap in H. apply TokStr_tok in H as [Ht H]. constructor; [eapply quoted_str; eassumption|auto]. Qed.
Lemma cbody_values :
  (forall el kv ps h, BElem U el kv ps h -> TokStr ps -> CEntry U kv) /\
  (forall b l ps, BBody U b l ps -> TokStr ps -> Forall (CEntry U) l).
Proof.
  apply (cbody_mut U (fun el kv ps h _ => TokStr ps -> CEntry U kv) (fun b l ps _ => TokStr ps -> Forall (CEntry U) l)).
  - intros i e v ps h Hi He H. cbn [app] in H. toks H. constructor; [split; assumption|]. eapply (proj1 (proj2 common_values)); eassumption.
  - intros t ls ps Ht HL H. cbn [app] in H. toks H. constructor; [split; assumption|eapply blabels_str; eassumption|constructor].
  - intros t ls ps b l qs Ht HL _ IH H. cbn [app] in H. toks H. cbn [app] in H. toks H. constructor; [split; assumption|eapply blabels_str; eassumption|auto].
  - constructor.
  - intros el kv b l ps h qs _ IH _ IHb H. cbn [app] in H. toks H. constructor; auto.
Qed.
Theorem bdoc_values b l ps : BDoc U b l ps -> TokStr ps -> Forall (CEntry U) l.
Proof.
  induction 1 as [|el kv ps He|el kv b l ps h qs He _ IH]; intros H; cbn [app] in H; toks H; constructor; auto; eapply (proj1 cbody_values); eassumption.
Qed.

(** ** What is described can be written *)
Definition BW (v : Value.value) : Prop := exists e ps, BTerm U e v ps false /\ TokStr ps.
Definition BWE (kv : key * Value.value) : Prop := exists el ps, BElem U el kv ps false /\ TokStr ps.
Ltac tokp := repeat first [apply TokStr_app; split | apply Forall_cons; [first [exact I|assumption|repeat constructor; fail|idtac]|] | apply Forall_nil | assumption].
Lemma BW_number n t v : NumLit n t -> IsStr t -> NumberValue t v -> BW v.
Proof. intros Hn Ht Hv. exists (ENumber n), [Tok t]. split; [constructor; assumption|]. constructor; [exact Ht|constructor]. Qed.
Lemma BW_int z : InRange I64 z -> BW (VInteger z).
Proof.
  intros HR. pose proof (int_to_string_text z) as HT. destruct (integer_decimal _ _ HT) as (neg & HD). destruct (text_literal _ _ _ HD) as (n & Hn).
  apply (BW_number n _ _ Hn); [|constructor; assumption].
  inversion HT as [b sg d Hsg _ Hd E1 E2]. apply str_app. split; [eapply sign_str; exact Hsg|apply digits_str; exact Hd].
Qed.
Lemma BW_float f : NotNaN 53 1024 f -> BW (VFloat f).
Proof.
  intros H. destruct (f64_literal f H) as (n & t & Hn & Ht & t' & neg & v & Hn' & HI & HD & HC).
  assert (t' = t) as -> by (rewrite <- (NumLit_input n t Hn), <- (NumLit_input n t' Hn'); reflexivity).
  apply (BW_number n t _ Hn Ht). apply NV_float; [intros z Hz; elim (HI z Hz)|].
  destruct (literal_float n t neg v 53 1024 Hn HD) as (g & Hg & HC'); [right; split; reflexivity|].
  unfold FloatConv.as_float in Hg. rewrite (NumLit_input n t Hn) in Hg. change (f64_from_str t = Some g) in Hg. rewrite Hg. f_equal.
  eapply (C91_unique 53 1024); [right; split; reflexivity|exact HC'|exact HC].
Qed.
Lemma quote_str s : IsStr s -> IsStr ([34] ++ s ++ [34]).
Proof. intros H. rewrite !str_app. repeat split; [repeat constructor|exact H|repeat constructor]. Qed.
Lemma BW_string s : IsStr s -> BW (VString s).
Proof.
  intros H. exists (EString (Owned s)), [Tok ([34] ++ (escape s ++ [34]))]. split; [constructor; apply escape_ok|].
  constructor; [apply quote_str, escape_str, H|constructor].
Qed.
Lemma BW_items l : Forall BW l -> exists l0 ps, BItems U l0 l ps /\ TokStr ps /\ length l0 = length l.
Proof.
  induction 1 as [|v l (e & ps & He & Hps) HF IH].
  - eexists _, _. split; [apply BI_nil|]. split; [tokp|reflexivity].
  - destruct IH as (l0 & qs & HI & Hqs & EL). destruct l as [|v' l].
    + eexists _, _. split; [apply (BI_last U e v ps false), BX_term, He|]. split; [tokp|reflexivity].
    + destruct l0 as [|e' l0]; [discriminate|]. eexists _, _. split; [apply (BI_cons U e e' l0 v v' l ps false qs); [apply BX_term, He|exact HI]|]. split; [tokp|cbn [length] in *; congruence].
Qed.
Lemma bkey_of k : RKey U k -> exists k0 t, BKey U k0 k t /\ IsStr t.
Proof.
  intros [t [Ht Hs]|s Hs].
  - exists (KIdent (Borrowed t)), t. split; [constructor; exact Ht|exact Hs].
  - exists (KExpr (Borrowed ([34] ++ escape_label s ++ [34]))), ([34] ++ escape_label s ++ [34]). split; [apply BK_quoted, escape_label_ok|apply quote_str, escape_label_str, Hs].
Qed.
Lemma BW_members l : Forall (fun kv => RKey U (fst kv) /\ BW (snd kv)) l -> exists l0 ps, BMembers U l0 l ps /\ TokStr ps.
Proof.
  induction 1 as [|[k v] l [Hk (e & ps & He & Hps)] HF (l0 & qs & HM & Hqs)].
  - eexists _, _. split; [apply BM_nil|tokp].
  - cbn [fst snd] in *. destruct (bkey_of k Hk) as (k0 & t & HK & Ht).
    eexists _, _. split; [apply (BM_line U k0 k t e v ps false l0 l qs); [exact HK|apply BX_term, He|exact HM]|]. cbn [end_after]. tokp.
Qed.
Lemma written_common v : CValue U v -> BW v.
Proof.
  revert v. fix IH 2. intros v [|b|z Hz|f Hf|s Hs|l Hl|l Hl].
  - eexists _, _. split; [apply BT_null|tokp].
  - destruct b; eexists _, _; (split; [first [apply BT_true|apply BT_false]|tokp]).
  - apply BW_int, Hz.
  - apply BW_float, Hf.
  - apply BW_string, Hs.
  - assert (HF : Forall BW l) by (induction Hl as [|v0 l Hv _ IHl]; constructor; [apply IH, Hv|exact IHl]).
    destruct (BW_items l HF) as (l0 & ps & HI & Hps & _). eexists _, _. split; [apply (BT_tuple U l0 l ps HI)|tokp].
  - assert (HF : Forall (fun kv => RKey U (fst kv) /\ BW (snd kv)) l) by (induction Hl as [|kv0 l [Hk Hv] _ IHl]; constructor; [split; [exact Hk|apply IH, Hv]|exact IHl]).
    destruct (BW_members l HF) as (l0 & ps & HI & Hps). eexists _, _. split; [apply (BT_object U l0 l ps HI)|tokp].
Qed.
Lemma blabels_of ls : Forall IsStr ls -> exists ps, BLabels ls ps /\ TokStr ps.
Proof.
  induction 1 as [|v ls Hv _ (ps & HL & Hps)].
  - eexists. split; [apply BL_nil|tokp].
  - eexists. split; [apply (BL_cons v (escape_label v ++ [34]) ls ps); [apply escape_label_ok|exact HL]|]. cbn [app]. apply Forall_cons; [exact I|]. apply Forall_cons; [apply quote_str, escape_label_str, Hv|exact Hps].
Qed.
Lemma bbody_of l : Forall BWE l -> exists b ps, BBody U b l ps /\ TokStr ps.
Proof.
  induction 1 as [|kv l (el & ps & He & Hps) HF (b & qs & HB & Hqs)].
  - eexists _, _. split; [apply BB_nil|tokp].
  - eexists _, _. split; [apply (BB_cons U el kv b l ps false qs He HB)|cbn [end_after]; tokp].
Qed.
Lemma written_entry kv : CEntry U kv -> BWE kv.
Proof.
  revert kv. fix IH 2. intros kv [t v [Ht Hs] Hv|t ls l [Ht Hs] HL Hl].
  - destruct (written_common v Hv) as (e & ps & He & Hps). eexists _, _. split; [apply (BE_attr U t e v ps false Ht), BX_term, He|tokp].
  - assert (HF : Forall BWE l) by (induction Hl as [|kv0 l Hv _ IHl]; constructor; [apply IH, Hv|exact IHl]).
    destruct (bbody_of l HF) as (b & qs & HB & Hqs). destruct (blabels_of ls HL) as (ps & HLs & Hps).
    eexists _, _. split; [apply (BE_block U t ls ps b l qs Ht HLs HB)|tokp].
Qed.
Theorem bdoc_of l : Forall (CEntry U) l -> exists b ps, BDoc U b l ps /\ TokStr ps.
Proof.
  induction 1 as [|kv l Hkv HF (b & qs & HB & Hqs)].
  - eexists _, _. split; [apply BD_nil|tokp].
  - destruct (written_entry kv Hkv) as (el & ps & He & Hps). eexists _, _. split; [apply (BD_cons U el kv b l ps false qs He HB)|cbn [end_after]; tokp].
Qed.

(** ** Trees *)
Lemma key_of_tree k k' : ValidKey U k -> KeyAs k k' -> exists t, BKey U k k' t.
Proof. intros HV HK. destruct HK as [i|v t Hv]; [inversion HV; subst; eexists; apply BK_ident; assumption|eexists; apply BK_quoted, Hv]. Qed.
Lemma expr_of_tree e : ValidExpr U e -> forall v, ExprAs e v -> exists ps, BTerm U e v ps false.
Proof.
  induction e as [|n|b|c|l IH|l IH] using expr_ind'; intros HV v HA.
  - inversion HA; subst. eexists; constructor.
  - inversion HA as [| |n' v' Hn| | |]; subst. inversion HV as [| |n' t Ht| | |]; subst. rewrite (NumLit_input n t Ht) in Hn. eexists. apply (BT_number U n t v Ht Hn).
  - inversion HA; subst. destruct b; eexists; constructor.
  - inversion HA; subst. inversion HV as [| | |s| |]; subst. eexists. apply (BT_quoted U s (escape s ++ [34])), escape_ok.
  - inversion HA as [| | | |l1 l' HF|]; subst. inversion HV as [| | | |l1 HVs|]; subst.
    assert (HI : exists ps, BItems U l l' ps).
    { clear HA HV. induction HF as [|e v l l' He HF IHF]; [eexists; apply BI_nil|]. inversion IH as [|? ? IHe IHs]; subst. inversion HVs as [|? ? HVe HVs']; subst.
      destruct (IHe HVe v He) as (ps & Hps). destruct (IHF IHs HVs') as (qs & Hqs).
      destruct HF as [|e' v' l l' He' HF]; [eexists; apply (BI_last U e v ps false), BX_term, Hps|]. eexists. apply (BI_cons U e e' l v v' l' ps false qs); [apply BX_term, Hps|exact Hqs]. }
    destruct HI as (ps & Hps). eexists. apply (BT_tuple U l l' ps Hps).
  - inversion HA as [| | | | |l1 l' HF]; subst. inversion HV as [| | | | |l1 HVs]; subst.
    assert (HI : exists ps, BMembers U l l' ps).
    { clear HA HV. induction HF as [|[k e] [k' v] l l' [Hk He] HF IHF]; [eexists; apply BM_nil|]. inversion IH as [|? ? IHe IHs]; subst. inversion HVs as [|? ? [HVk HVe] HVs']; subst.
      cbn [fst snd] in *. destruct (IHe HVe v He) as (ps & Hps). destruct (IHF IHs HVs') as (qs & Hqs). destruct (key_of_tree k k' HVk Hk) as (t & Ht).
      eexists. apply (BM_line U k k' t e v ps false l l' qs); [exact Ht|apply BX_term, Hps|exact Hqs]. }
    destruct HI as (ps & Hps). eexists. apply (BT_object U l l' ps Hps).
Qed.
Lemma blabels_any ls : exists ps, BLabels ls ps.
Proof. induction ls as [|v ls (ps & H)]; [eexists; apply BL_nil|eexists; apply (BL_cons v (escape_label v ++ [34])); [apply escape_label_ok|exact H]]. Qed.
Lemma elem_of_tree el : ValidElem U el -> forall kv, ElemAs el kv -> exists ps, BElem U el kv ps false.
Proof.
  induction el as [n e|t ls b IH] using element_ind'; intros HV kv HA.
  - inversion HA as [i e' v He| |]; subst. inversion HV as [i e' Hi Hv|]; subst. destruct (expr_of_tree e Hv v He) as (ps & Hps). eexists. apply (BE_attr U _ e v ps false Hi), BX_term, Hps.
  - inversion HV as [|t' ls' b' Ht HL HB]; subst.
    assert (HI : forall l, Forall2 ElemAs b l -> exists ps, BBody U b l ps).
    { clear HA HV. intros l HF. induction HF as [|el kv0 b l He HF IHF]; [eexists; apply BB_nil|]. inversion IH as [|? ? IHe IHs]; subst. inversion HB as [|? ? HVe HVs']; subst.
      destruct (IHe HVe kv0 He) as (ps & Hps). destruct (IHF IHs HVs') as (qs & Hqs). eexists. apply (BB_cons U el kv0 b l ps false qs Hps Hqs). }
    inversion HA as [|t1 b1 l HF|t1 ls1 b1 l Hne HF]; subst; destruct (HI l HF) as (qs & Hqs).
    + eexists. apply (BE_block U t' [] _ b l qs Ht BL_nil Hqs).
    + destruct (blabels_any ls1) as (ps & Hps). eexists.
      assert (E : block_value ls1 l = VBlock (Unmerged [(ls1, Unmerged l)])) by (destruct ls1; [congruence|reflexivity]). cbn [cow_str]. rewrite <- E.
      apply (BE_block U t' ls1 ps b l qs Ht Hps Hqs).
Qed.
Theorem doc_of_tree b l : ValidDoc U b -> DocAs b l -> exists ps, BDoc U b l ps.
Proof.
  intros HV HA. induction HA as [|el kv b l He HF IH]; [eexists; apply BD_nil|]. inversion HV as [|? ? HVe HVs]; subst.
  destruct (elem_of_tree el HVe kv He) as (ps & Hps). destruct (IH HVs) as (qs & Hqs). eexists. apply (BD_cons U el kv b l ps false qs Hps Hqs).
Qed.

Lemma own_as e : forall v, ExprAs e v -> ExprAs (own_expr e) v.
Proof.
  induction e as [|n|b|c|l IH|l IH] using expr_ind'; intros v HA; cbn [own_expr]; try exact HA.
  - inversion HA; subst. apply (EA_string (Owned (cow_str c))).
  - inversion HA as [| | | |l1 l' HF|]; subst. constructor. clear HA. induction HF; cbn [map]; constructor; inversion IH; subst; auto.
  - inversion HA as [| | | | |l1 l' HF]; subst. constructor. clear HA. induction HF as [|m kv l l' [Hk He] HF IHF]; cbn [map]; constructor; inversion IH; subst; auto.
Qed.
Lemma own_elem_as el : forall kv, ElemAs el kv -> ElemAs (own_elem el) kv.
Proof.
  induction el as [n e|t ls b IH] using element_ind'; intros kv HA; cbn [own_elem].
  - inversion HA; subst. constructor. apply own_as. assumption.
  - assert (HI : forall l, Forall2 ElemAs b l -> Forall2 ElemAs (map own_elem b) l).
    { clear HA. intros l HF. induction HF; cbn [map]; constructor; inversion IH; subst; auto. }
    inversion HA; subst; constructor; auto.
Qed.
Lemma own_doc_as b l : DocAs b l -> DocAs (own_doc b) l.
Proof. induction 1; cbn [own_doc map]; constructor; [apply own_elem_as|]; assumption. Qed.
End WithTables.
