(** * VReachProofs: proofs for C114 *)
From Coq Require Import ZArith Reals SpecFloat Lia.
From Verif Require Import Base Ast NomFacts NumFacts StrFacts NumConv NumSpec NumProofs PropNum IoSpec Kvp Value OldGrammar
  Grammar Printer PrinterProofs FloatSpec PropFloatRead DenSpec ReachSpec ReachFloat ReachProofs ReachText MoreProofs VReachSpec.
Local Open Scope nat_scope.

Section WithTables.
Context (U : ucd).

(** ** What is read can be returned *)
Lemma vlabels_str ls s r : VLabels ls s r -> IsStr s -> Forall IsStr ls /\ IsStr r.
Proof.
  induction 1 as [r|v ls i s s' r _ Hc _ IH]; intros H; [split; [constructor|exact H]|]. rewrite !str_app in H. destruct H as (_ & _ & H).
  destruct (chars_str _ _ _ _ Hc H) as [Hv H']. apply str_app in H' as [_ H']. apply IH in H' as [? ?]. split; [constructor|]; assumption.
Qed.
Lemma number_value_ok n t v : NumLit n t -> NumberValue t v -> RValue U v.
Proof.
  intros Hn Hv. destruct Hv as [t' z _ HR|t' f _ Hf]; constructor; [exact HR|]. destruct (literal_text n t' Hn) as (v' & _ & Hr). destruct (Hr 53%Z 1024%Z) as (g & Hg & HC); [right; split; reflexivity|].
  unfold FloatConv.as_float in Hg. rewrite (NumLit_input n t' Hn) in Hg. change (f64_from_str t' = Some g) in Hg. rewrite Hf in Hg. injection Hg as ->. eapply rounded_NotNaN, HC.
Qed.
Lemma vsep_str s r : VSep s r -> IsStr s -> IsStr r.
Proof. intros [w s' _|i n s' _ _|i _] H; [rewrite !str_app in H; apply H|rewrite !str_app in H; apply H|constructor]. Qed.
Lemma vkey_str k s r : VKey U k s r -> IsStr s -> RKey U k /\ IsStr r.
Proof.
  intros [t s' r' Hi|v s' r' Hc] H.
  - destruct (ident_str _ _ _ _ Hi H). split; [constructor|]; assumption.
  - apply str_app in H as [_ H]. destruct (chars_str _ _ _ _ Hc H) as [? H']. apply str_app in H' as [_ ?]. split; [constructor|]; assumption.
Qed.
Lemma read_ok :
  (forall v s r, VTerm U v s r -> IsStr s -> RValue U v /\ IsStr r) /\
  (forall l s r, VItems U l s r -> IsStr s -> Forall (RValue U) l /\ IsStr r) /\
  (forall l s r, VEntries U l s r -> IsStr s -> Forall (REntry U) l /\ IsStr r) /\
  (forall k v s r, VEntry U k v s r -> IsStr s -> REntry U (k, v) /\ IsStr r).
Proof.
  apply (old_mut U (fun v s r _ => IsStr s -> RValue U v /\ IsStr r) (fun l s r _ => IsStr s -> Forall (RValue U) l /\ IsStr r)
    (fun l s r _ => IsStr s -> Forall (REntry U) l /\ IsStr r) (fun k v s r _ => IsStr s -> REntry U (k, v) /\ IsStr r)).
  - intros r H. apply str_app in H as [_ H]. split; [constructor|exact H].
  - intros r H. apply str_app in H as [_ H]. split; [constructor|exact H].
  - intros r H. apply str_app in H as [_ H]. split; [constructor|exact H].
  - intros n t v r Hn _ Hv H. apply str_app in H as [_ H]. split; [eapply number_value_ok; eassumption|exact H].
  - intros v s r HC H. apply str_app in H as [_ H]. destruct (chars_str _ _ _ _ HC H) as [H1 H2]. apply str_app in H2 as [_ H2]. split; [constructor; exact H1|exact H2].
  - intros c s r HH H. destruct (heredoc_str _ _ _ _ HH H). split; [constructor|]; assumption.
  - intros l s r _ IH H. apply str_app in H as [_ H]. apply IH in H as [? ?]. split; [constructor|]; assumption.
  - intros l w s r _ _ IH H. rewrite !str_app in H. destruct H as (_ & _ & H). apply IH in H as [? H]. apply str_app in H as [_ H]. split; [constructor|]; assumption.
  - intros w r _ H. rewrite !str_app in H. split; [constructor|tauto].
  - intros w1 w2 r _ _ H. rewrite !str_app in H. split; [constructor|tauto].
  - intros v w1 w2 s r _ _ _ IH H. apply str_app in H as [_ H]. apply IH in H as [? H]. rewrite !str_app in H. split; [constructor; [assumption|constructor]|tauto].
  - intros v w1 w2 w3 s r _ _ _ _ IH H. apply str_app in H as [_ H]. apply IH in H as [? H]. rewrite !str_app in H. split; [constructor; [assumption|constructor]|tauto].
  - intros v v' l w1 w2 s s' r _ _ _ IH _ IH' H. apply str_app in H as [_ H]. apply IH in H as [? H]. rewrite !str_app in H. destruct H as (_ & _ & H).
    apply IH' in H as [? ?]. split; [constructor|]; assumption.
  - intros w r _ H. apply str_app in H as [_ H]. split; [constructor|exact H].
  - intros k v l w s s1 s2 r _ _ IHe Hs _ IHl H. apply str_app in H as [_ H]. apply IHe in H as [? H]. apply (vsep_str _ _ Hs) in H. apply IHl in H as [? ?].
    split; [constructor|]; assumption.
  - intros k v i1 i2 s s' r _ _ Hk _ IH H. destruct (vkey_str _ _ _ Hk H) as [? H']. rewrite !str_app in H'. destruct H' as (_ & _ & _ & H').
    apply IH in H' as [? ?]. split; [apply RE_value|]; assumption.
  - intros t l w s s' r _ Hi _ IH H. destruct (ident_str _ _ _ _ Hi H) as [? H']. rewrite !str_app in H'. destruct H' as (_ & _ & H'). apply IH in H' as [? H'].
    apply str_app in H' as [_ H']. split; [apply RE_value; [apply RK_ident; assumption|apply RV_object; assumption]|exact H'].
  - intros t ls l w s s1 s' r _ Hne Hi Hl _ IH H. destruct (ident_str _ _ _ _ Hi H) as [? H']. destruct (vlabels_str _ _ _ Hl H') as [? H2].
    rewrite !str_app in H2. destruct H2 as (_ & _ & H2). apply IH in H2 as [? H2]. apply str_app in H2 as [_ H2]. split; [apply RE_block; assumption|exact H2].
Qed.

(** ** What can be returned can be written *)
Definition VWritable (v : Value.value) : Prop := forall r, exists s, VTerm U v s (10%N :: r) /\ (IsStr r -> IsStr s).
Definition EWritable (kv : key * Value.value) : Prop := forall r, exists s, VEntry U (fst kv) (snd kv) s (10%N :: r) /\ (IsStr r -> IsStr s).

Lemma escape_label_str v : IsStr v -> IsStr (escape_label v).
Proof.
  induction v as [|c v IH]; intros H; [constructor|]. apply str_cons in H as [Hc H]. unfold escape_label. cbn [flat_map]. apply str_app. split; [|apply IH, H].
  unfold escape_label_char, escape_char. destruct (c =? 10)%N; [repeat constructor|]. destruct (c =? 13)%N; [repeat constructor|].
  destruct (c =? 92)%N; [repeat constructor|]. destruct (c =? 34)%N; repeat constructor. exact Hc.
Qed.
Lemma vwrite_null : VWritable VNull.
Proof. intros r. eexists. split; [apply VT_null|]. intros H. apply str_app. split; [repeat constructor|]. apply str_cons. split; [reflexivity|exact H]. Qed.
Lemma vwrite_bool b : VWritable (VBoolean b).
Proof.
  intros r. destruct b; eexists; (split; [first [apply VT_true|apply VT_false]|]); intros H; (apply str_app; split; [repeat constructor|apply str_cons; split; [reflexivity|exact H]]).
Qed.
Lemma vwrite_number n t v : NumLit n t -> IsStr t -> NumberValue t v -> VWritable v.
Proof.
  intros Hn Ht Hv r. exists (t ++ 10%N :: r). split.
  - apply (VT_number U n); [exact Hn| |exact Hv]. apply (Longest_number n t); [exact Hn|].
    unfold Follow, stops, exp_start, FirstIs. cbn.
    repeat split; intros; try reflexivity; try (intros (? & ?); discriminate);
      try (intros HX; repeat match goal with [ H : exists _, _ |- _ ] => destruct H | [ H : _ /\ _ |- _ ] => destruct H | [ H : _ \/ _ |- _ ] => destruct H end; congruence).
  - intros H. apply str_app. split; [exact Ht|]. apply str_cons. split; [reflexivity|exact H].
Qed.
Lemma vwrite_int z : InRange I64 z -> VWritable (VInteger z).
Proof.
  intros HR. pose proof (int_to_string_text z) as HT. destruct (integer_decimal _ _ HT) as (neg & HD). destruct (text_literal _ _ _ HD) as (n & Hn).
  apply (vwrite_number n _ _ Hn); [|constructor; assumption].
  inversion HT as [b sg d Hsg _ Hd E1 E2]. apply str_app. split; [eapply sign_str; exact Hsg|apply digits_str; exact Hd].
Qed.
Lemma vwrite_float f : NotNaN 53 1024 f -> VWritable (VFloat f).
Proof.
  intros H. destruct (f64_literal f H) as (n & t & Hn & Ht & t' & neg & v & Hn' & HI & HD & HC).
  assert (t' = t) as -> by (rewrite <- (NumLit_input n t Hn), <- (NumLit_input n t' Hn'); reflexivity).
  apply (vwrite_number n t _ Hn Ht). apply NV_float; [intros z Hz; elim (HI z Hz)|].
  destruct (literal_float n t neg v 53 1024 Hn HD) as (g & Hg & HC'); [right; split; reflexivity|].
  unfold FloatConv.as_float in Hg. rewrite (NumLit_input n t Hn) in Hg. change (f64_from_str t = Some g) in Hg. rewrite Hg. f_equal.
  eapply (C91_unique 53 1024); [right; split; reflexivity|exact HC'|exact HC].
Qed.
Lemma vwrite_string v : IsStr v -> VWritable (VString v).
Proof.
  intros Hv r. exists ([34%N] ++ escape v ++ [34%N] ++ 10%N :: r). split; [apply VT_quoted, escape_ok|].
  intros H. rewrite !str_app. repeat split; [repeat constructor|apply escape_str, Hv|repeat constructor|apply str_cons; auto].
Qed.
Lemma vwrite_items l : Forall VWritable l -> forall r, exists s, VItems U l s r /\ (IsStr r -> IsStr s).
Proof.
  induction l as [|e [|e' l] IH]; intros HF r; inversion HF as [|? ? He HF']; subst.
  - exists ([] ++ [93%N] ++ r). split; [apply VI_nil; constructor|]. intros H. apply str_app. split; [constructor|]. apply str_app. split; [repeat constructor|exact H].
  - destruct (He ([93%N] ++ r)) as (s & Hs & Hss). exists ([] ++ s). split.
    + apply (VI_last U e [] [10%N]); [constructor|apply Ws_blank; [auto|constructor]|exact Hs].
    + intros H. apply Hss. apply str_app. split; [repeat constructor|exact H].
  - destruct (IH HF' r) as (s' & Hs' & Hss'). destruct (He ([44%N] ++ s')) as (s & Hs & Hss). exists ([] ++ s). split.
    + apply (VI_cons U e e' l [] [10%N] s s'); [constructor|apply Ws_blank; [auto|constructor]|exact Hs|exact Hs'].
    + intros H. apply Hss. apply str_app. split; [repeat constructor|auto].
Qed.
Lemma vwrite_list l : Forall VWritable l -> VWritable (VList l).
Proof.
  intros H r. destruct (vwrite_items l H (10%N :: r)) as (s & Hs & Hss). exists ([91%N] ++ s). split; [apply VT_list, Hs|].
  intros HR. apply str_app. split; [repeat constructor|]. apply Hss. apply str_cons. auto.
Qed.
Lemma vwrite_entries l : Forall EWritable l -> forall r, exists s, VEntries U l s r /\ (IsStr r -> IsStr s).
Proof.
  induction l as [|[k v] l IH]; intros HF r.
  - exists ([] ++ r). split; [apply VE_nil; constructor|]. intros H. exact H.
  - inversion HF as [|? ? He HF']; subst. destruct (IH HF' r) as (s2 & Hs2 & Hss2). destruct (He s2) as (s & Hs & Hss). exists ([] ++ s). split.
    + apply (VE_cons U k v l [] s (10%N :: s2) s2); [constructor|exact Hs| |exact Hs2]. apply (VS_line [] [10%N]); repeat constructor.
    + intros H. apply Hss, Hss2, H.
Qed.
Lemma vwrite_object l : Forall EWritable l -> VWritable (VObject [Unmerged l]).
Proof.
  intros H r. destruct (vwrite_entries l H ([125%N] ++ 10%N :: r)) as (s & Hs & Hss). exists ([] ++ [123%N] ++ s). split; [apply VT_object; [constructor|exact Hs]|].
  intros HR. apply str_app. split; [constructor|]. apply str_app. split; [repeat constructor|]. apply Hss. apply str_app. split; [repeat constructor|]. apply str_cons. auto.
Qed.
Lemma ewrite_value k v : RKey U k -> VWritable v -> EWritable (k, v).
Proof.
  intros Hk Hv r. destruct (Hv r) as (s' & Hs' & Hss'). destruct Hk as [t Ht|q Hq].
  - exists (t ++ [61%N] ++ s'). split.
    + apply (VE_attr U (KeyIdent t) v [] [] _ s'); [constructor|constructor| |exact Hs']. apply OldGrammar.VK_ident. apply (name_ident U t s' Ht).
    + intros H. apply str_app. split; [apply Ht|]. apply str_cons. split; [reflexivity|auto].
  - exists ([34%N] ++ escape_label q ++ [34%N] ++ [61%N] ++ s'). split.
    + apply (VE_attr U (KeyString q) v [] [] _ s'); [constructor|constructor| |exact Hs']. apply VK_string. apply escape_label_ok.
    + intros H. rewrite !str_app. repeat split; [repeat constructor|apply escape_label_str, Hq|repeat constructor|repeat constructor|auto].
Qed.
Lemma vwrite_labels ls : Forall IsStr ls -> forall r, exists s, VLabels ls s r /\ (IsStr r -> IsStr s) /\ (ls <> [] -> exists s', s = 34%N :: s').
Proof.
  induction 1 as [|v ls Hv _ IH]; intros r; [exists r; split; [constructor|split; [auto|congruence]]|].
  destruct (IH r) as (s' & Hs' & Hss' & _). exists ([] ++ [34%N] ++ escape_label v ++ [34%N] ++ s'). split; [|split].
  - eapply VL_cons; [constructor|apply escape_label_ok|exact Hs'].
  - intros H. rewrite !str_app. repeat split; [repeat constructor|repeat constructor|apply escape_label_str, Hv|repeat constructor|auto].
  - intros _. eexists. reflexivity.
Qed.
Lemma ewrite_block t ls l : Name U t -> ls <> [] -> Forall IsStr ls -> Forall EWritable l -> EWritable (KeyIdent t, VBlock (Unmerged [(ls, Unmerged l)])).
Proof.
  intros Ht Hne HL HE r. destruct (vwrite_entries l HE ([125%N] ++ 10%N :: r)) as (s' & Hs' & Hss').
  destruct (vwrite_labels ls HL ([] ++ [123%N] ++ s')) as (s1 & Hs1 & Hss1 & H34). destruct (H34 Hne) as (s0 & E).
  exists (t ++ s1). split.
  - eapply (VE_block U t ls l [] (t ++ s1) s1 s'); [constructor|exact Hne| |exact Hs1|exact Hs'].
    exists t. split; [reflexivity|]. split; [reflexivity|]. apply Longest_ident. split; [apply Ht|]. rewrite E. reflexivity.
  - intros H. apply str_app. split; [apply Ht|]. apply Hss1. cbn [app]. apply str_cons. split; [reflexivity|]. apply Hss'. cbn [app]. apply str_cons. split; [reflexivity|]. apply str_cons. auto.
Qed.
Lemma written : (forall v, RValue U v -> VWritable v) /\ (forall kv, REntry U kv -> EWritable kv).
Proof.
  assert (HV : forall v, RValue U v -> VWritable v).
  { fix IHv 2. assert (IHe : forall kv, REntry U kv -> EWritable kv).
    { fix IHe 2. intros kv [k v Hk Hv|t ls l Ht Hne HL HE].
      - apply ewrite_value; [exact Hk|]. apply IHv. exact Hv.
      - apply ewrite_block; [exact Ht|exact Hne|exact HL|]. induction HE; constructor; [apply IHe; assumption|assumption]. }
    intros v [| | z Hz|f Hf|s Hs|l Hl|l Hl].
    - apply vwrite_null.
    - apply vwrite_bool.
    - apply vwrite_int, Hz.
    - apply vwrite_float, Hf.
    - apply vwrite_string, Hs.
    - apply vwrite_list. induction Hl; constructor; [apply IHv; assumption|assumption].
    - apply vwrite_object. induction Hl; constructor; [apply IHe; assumption|assumption]. }
  split; [exact HV|]. fix IHe 2. intros kv [k v Hk Hv|t ls l Ht Hne HL HE].
  - apply ewrite_value; [exact Hk|]. apply HV. exact Hv.
  - apply ewrite_block; [exact Ht|exact Hne|exact HL|]. induction HE; constructor; [apply IHe; assumption|assumption].
Qed.
Theorem vdoc_values l : (exists s, IsStr s /\ VDoc U l s) <-> Forall (REntry U) l.
Proof.
  split.
  - intros (s & Hs & H). exact (proj1 (proj1 (proj2 (proj2 read_ok)) _ _ _ H Hs)).
  - intros H. assert (HE : Forall EWritable l) by (eapply Forall_impl; [|exact H]; intros kv; apply written).
    destruct (vwrite_entries l HE []) as (s & Hs & Hss). exists s. split; [apply Hss; constructor|exact Hs].
Qed.
End WithTables.
