(** * OldProofs: [value::from_str]'s parser reads exactly the grammar of OldGrammar.v *)
From Coq Require Import ZArith.
From Verif Require Import Base Nom NomFacts Ast Lex Grammar WsFacts NumFacts StrFacts HeredocFacts Parser ParserFacts ExprProofs BodyProofs NumConv NumSpec NumProofs Kvp Value OldParser OldFacts OldGrammar.
Close Scope Z_scope.

Section WithTables.
Context (U : ucd).
Local Notation SV := (single_value U).
Local Notation MV := (map_values U).

(** ** Numbers *)
Lemma NumLit_input n t : NumLit n t -> cow_str (num_input n) = t.
Proof. intros []. reflexivity. Qed.
Lemma literal_from_str_spec n t v : NumLit n t -> (literal_from_str t = Some v <-> NumberValue t v).
Proof.
  intros Hn. unfold literal_from_str. destruct (int_from_str I64 t) as [z|] eqn:E.
  - apply int_from_str_spec in E as (H1 & H2 & _). split.
    + intros [= <-]. constructor; assumption.
    + intros H. inversion H as [t' z' H3 H4|t' f H3 _]; subst; [|elim (H3 z H1 H2)]. rewrite (IntegerText_unique _ _ _ H1 H3). reflexivity.
  - assert (Hno : forall z, IntegerText t z -> ~ InRange I64 z).
    { intros z H1 H2. assert (E' : int_from_str I64 t = Some z) by (apply int_from_str_spec; auto). congruence. }
    destruct (as_f64_some n t Hn) as (f & Hf & _). unfold as_f64 in Hf. rewrite (NumLit_input _ _ Hn) in Hf. rewrite Hf. split.
    + intros [= <-]. constructor; assumption.
    + intros H. inversion H as [t' z' H3 H4|t' f' H3 H4]; subst; [elim (Hno _ H3 H4)|]. congruence.
Qed.
Lemma literal_from_str_some n t : NumLit n t -> exists v, literal_from_str t = Some v.
Proof.
  intros Hn. unfold literal_from_str. destruct (int_from_str I64 t); [eauto|].
  destruct (as_f64_some n t Hn) as (f & Hf & _). unfold as_f64 in Hf. rewrite (NumLit_input _ _ Hn) in Hf. rewrite Hf. eauto.
Qed.
Lemma literal_number_ok s r v : literal_number s = Ok r v <->
  exists n t, s = t ++ r /\ NumLit n t /\ Longest NumberText t r /\ NumberValue t v.
Proof.
  unfold literal_number. rewrite recognize_float_number. split.
  - destruct (number s) as [r' n| | | |] eqn:E; cbn [bind]; try discriminate. apply number_spec in E as (t & -> & Hn & HL).
    rewrite (NumLit_input _ _ Hn). destruct (literal_from_str t) as [v'|] eqn:Ev; [|discriminate]. intros [= <- <-].
    exists n, t. rewrite <- (literal_from_str_spec n t v' Hn). auto.
  - intros (n & t & -> & Hn & HL & Hv). assert (E : number (t ++ r) = Ok r n) by (apply number_spec; eauto). rewrite E. cbn [bind].
    rewrite (NumLit_input _ _ Hn). apply (literal_from_str_spec n t v Hn) in Hv. rewrite Hv. reflexivity.
Qed.
Lemma literal_number_err s : number s = Err -> literal_number s = Err.
Proof. intros E. unfold literal_number. rewrite recognize_float_number, E. reflexivity. Qed.

(** ** Keys and labels *)
Lemma GIdent_borrowed i s r : GIdent U i s r -> GIdent U (Borrowed (cow_str i)) s r.
Proof. intros (t & -> & H). exists t. auto. Qed.
Lemma GIdent_is i s r : GIdent U i s r -> i = Borrowed (cow_str i).
Proof. intros (t & -> & H). reflexivity. Qed.
Lemma dquote_not_ident s : identifier U (34 :: s) = Err.
Proof. apply identifier_first_err. rewrite id_first_ascii by lia. reflexivity. Qed.
Lemma literal_key_ok s r k : literal_key U s = Ok r k <-> VKey U k s r.
Proof.
  unfold literal_key. split.
  - intros H. apply alt_inv in H as [H|[_ H]]; apply pmap_inv in H as (v & H & ->).
    + apply identifier_ok in H. constructor. apply GIdent_borrowed, H.
    + apply string_literal_ok in H as (s' & -> & H). apply (VK_string U v s' r), H.
  - intros [t s' r' H|v s' r' H].
    + apply identifier_ok in H. apply alt_ok_l. rewrite (pmap_ok _ _ _ _ _ H). reflexivity.
    + rewrite alt_err by (apply pmap_err, dquote_not_ident). apply pmap_ok, string_literal_ok. exists s'. auto.
Qed.
Lemma VKey_len k s r : VKey U k s r -> (length r < length s)%nat.
Proof. intros H. apply literal_key_ok in H. eapply literal_key_consumes, H. Qed.
Lemma VKey_ws k s r : VKey U k s r -> ws_rest s = s /\ iws_rest s = s.
Proof.
  intros [t s' r' H|v s' r' H]; [eapply GIdent_ws, H|]. cbn [app]. split; [apply ws_rest_stop|apply iws_rest_stop]; lia.
Qed.
Definition old_label : parser str := wrap inline_whitespace string_literal.
Lemma wf_old_label : wf old_label.
Proof. apply wf_wrap_iws, wf_string_literal. Qed.
Lemma old_labels_sound k : forall s r ls, (length s <= k)%nat -> many0 old_label s = Ok r ls -> VLabels ls s r.
Proof.
  induction k as [|k IH]; intros s r ls Hk H; rewrite many0_eq in H by apply wf_upto_of, wf_old_label.
  - destruct s; [|cbn in Hk; lia]. cbn in H. injection H as <- <-. constructor.
  - assert (Hstop : Ok s [] = Ok r ls -> VLabels ls s r) by (intros [= <- <-]; constructor).
    pose proof (wf_old_label s) as Hg. destruct (old_label s) as [r1 l| | | |] eqn:El; auto; try discriminate.
    destruct (str_eqb r1 s) eqn:Eq; auto. apply str_eqb_neq in Eq. cbn in Hg. pose proof (suffix_neq_len _ _ Hg Eq) as Hl.
    apply map_res_ok in H as (ls' & H & ->). unfold old_label in El. rewrite wrap_iws in El. apply string_literal_ok in El as (s' & Es' & El).
    destruct (iws_split s) as (w & Hw & Es). rewrite Es, Es'. apply (VL_cons l ls' w s' r1 r Hw El). apply IH; [lia|exact H].
Qed.
Lemma VLabels_ends_quote ls s r : VLabels ls s r -> (length r <= length s)%nat.
Proof.
  induction 1 as [r|v ls i s s' r Hi Hc HL IH]; [lia|]. apply GChars_len in Hc. rewrite !app_length in *. cbn [length] in *. lia.
Qed.
Lemma old_labels_complete ls s r : VLabels ls s r -> string_literal (iws_rest r) = Err -> many0 old_label s = Ok r ls.
Proof.
  induction 1 as [r|v ls i s s' r Hi Hc HL IH]; intros Hr; rewrite many0_eq by apply wf_upto_of, wf_old_label; unfold old_label at 1; rewrite wrap_iws.
  - rewrite Hr. reflexivity.
  - rewrite iws_rest_iws by exact Hi. cbn [app]. rewrite iws_rest_stop by lia.
    assert (E : string_literal (34 :: s) = Ok s' v) by (apply string_literal_ok; eauto). rewrite E.
    assert (Hne : s' <> i ++ 34 :: s).
    { intros Heq. apply (f_equal (@length _)) in Heq. apply GChars_len in Hc. rewrite !app_length in *. cbn [length] in *. lia. }
    apply str_eqb_neq in Hne. rewrite Hne, IH by exact Hr. reflexivity.
Qed.
(** the first character after the labels *)
Lemma iws_ws_brace w q : Ws w -> exists c s, iws_rest (w ++ 123 :: q) = c :: s /\ (ws_char c = true \/ c = 123).
Proof.
  intros Hw. destruct (iws_rest (w ++ 123 :: q)) as [|c s] eqn:E.
  - exfalso. pose proof (ws_rest_iws_rest (w ++ 123 :: q)) as H. rewrite E, ws_rest_ws in H by exact Hw. rewrite ws_rest_stop in H by lia. discriminate.
  - exists c, s. split; [reflexivity|]. destruct (ws_char c) eqn:Ec; [auto|]. right.
    pose proof (ws_rest_iws_rest (w ++ 123 :: q)) as H. rewrite E, ws_rest_ws, ws_rest_nonws in H by assumption. rewrite ws_rest_stop in H by lia. congruence.
Qed.
Lemma VLabels_first ls s r : VLabels ls s r -> ls <> [] -> exists q, iws_rest s = 34 :: q.
Proof. intros [|v ls' i s' s'' r' Hi _ _] H; [congruence|]. exists s'. rewrite iws_rest_iws by exact Hi. apply iws_rest_stop; lia. Qed.

(** ** Lists *)
Definition vlist_items : parser (list Value.value) := separated_list (wrap whitespace (char_p c_comma)) (wrap whitespace SV).
Local Notation VSEP := (sep_rest (wrap whitespace (char_p c_comma)) (wrap whitespace SV)).
Lemma vlist_ok s r l : vlist SV s = Ok r l <->
  exists s1 r1, s = 91 :: s1 /\ vlist_items s1 = Ok r1 l /\ Close r1 r.
Proof.
  unfold vlist, preceded, terminated at 1. split.
  - intros H. apply bind_ok in H as (s1 & v & H1 & H). apply char_p_ok in H1 as [-> _].
    apply bind_ok in H as (r1 & l' & H1 & H). rewrite ws_m in H1. apply bind_ok in H1 as (r2 & l2 & H1 & E1).
    injection E1 as <- <-. apply bind_ok in H as (r3 & u & H2 & H). injection H as <- <-.
    exists s1, r2. split; [reflexivity|]. split; [exact H1|].
    unfold terminated in H2. apply bind_ok in H2 as (r4 & o & H2 & H3).
    apply bind_ok in H3 as (r5 & u' & H3 & H4). injection H4 as <- <-.
    apply char_p_ok in H3 as [-> _]. rewrite ws_m, wrap_ws, ws_rest_idem in H2.
    apply bind_ok in H2 as (r6 & o' & H2 & H4). injection H4 as H4 <-.
    destruct (ws_split r2) as (w & Hw & Ew). destruct (ws_split r6) as (w' & Hw' & Ew').
    unfold opt in H2. destruct (simple_char c_comma (ws_rest r2)) as [(q & c & Ec)|Ec]; rewrite Ec in H2; injection H2 as <- <-.
    + apply char_p_ok in Ec as [Ec _]. right. exists w, w'. split; [exact Hw|]. split; [exact Hw'|].
      rewrite Ew, Ec. cbn [app]. rewrite Ew', H4. reflexivity.
    + left. exists w. split; [exact Hw|]. rewrite ws_rest_idem in H4. rewrite Ew, H4. reflexivity.
  - intros (s1 & r1 & -> & H & HC). rewrite char_p_eq. cbn [bind]. rewrite ws_m.
    unfold vlist_items in H. rewrite H. cbn [bind].
    unfold terminated. rewrite ws_m, wrap_ws, ws_rest_idem.
    destruct HC as [(w & Hw & ->)|(w & w' & Hw & Hw' & ->)]; rewrite ws_rest_ws by exact Hw; cbn [app];
      rewrite ws_rest_stop by lia.
    + unfold opt. rewrite char_p_neq by lia. cbn [bind]. rewrite ws_rest_stop by lia. rewrite char_p_eq. reflexivity.
    + unfold opt. rewrite char_p_eq. cbn [bind]. rewrite ws_rest_ws by exact Hw'. rewrite ws_rest_stop by lia.
      rewrite char_p_eq. reflexivity.
Qed.
Lemma wf_wrap_SV : wf (wrap whitespace SV).
Proof. apply wf_wrap_ws, wf_single_value. Qed.
Lemma vsep_unfold s :
  VSEP s =
    match char_p c_comma (ws_rest s) with
    | Ok s2 _ =>
        match SV (ws_rest s2) with
        | Ok s3 v => if Nat.eqb (length s3) (length s2) then Err else map_res (cons v) (VSEP s3)
        | Err => Ok s []
        | Fail q => Fail q
        | Panic => Panic
        | OutOfFuel => OutOfFuel
        end
    | _ => Ok s []
    end.
Proof.
  rewrite sep_rest_eq; [|apply wf_upto_of, wf_comma|apply wf_upto_of, wf_wrap_SV].
  rewrite wrap_ws. destruct (simple_char c_comma (ws_rest s)) as [(r & v & Ec)|Ec]; rewrite Ec; [|reflexivity].
  apply char_p_ok in Ec as [Ec _].
  pose proof (suffix_len _ _ (ws_rest_suffix s)) as Hl. rewrite Ec in Hl. cbn in Hl.
  destruct (Nat.eqb_spec (length r) (length s)); [lia|]. rewrite wrap_ws. reflexivity.
Qed.

(** Everything of length below [n] is read soundly. *)
Definition OldSound (n : nat) : Prop :=
  (forall s r v, (length s < n)%nat -> SV s = Ok r v -> VTerm U v s r) /\
  (forall s r m, (length s < n)%nat -> MV s = Ok r m -> exists l, m = Unmerged l /\ VEntries U l s r /\ ws_rest r = r).

Lemma vsep_sound n : OldSound n -> forall k s r l, (length s <= k)%nat -> (length s < n)%nat ->
  VSEP s = Ok r l ->
  forall v s0 w rr, Ws w -> VTerm U v s0 s -> Close r rr -> VItems U (v :: l) (w ++ s0) rr.
Proof.
  intros [HS _]. induction k as [|k IH]; intros s r l Hk Hn H e s0 w rr Hw He HC; rewrite vsep_unfold in H.
  - destruct s; [|cbn in Hk; lia]. cbn in H. injection H as <- <-.
    destruct HC as [(w' & _ & E1)|(w' & w'' & _ & _ & E1)]; destruct w'; discriminate.
  - assert (Hstop : Ok s [] = Ok r l -> VItems U (e :: l) (w ++ s0) rr).
    { intros [= <- <-]. destruct HC as [(w' & Hw' & ->)|(w1 & w2 & H1 & H2 & ->)].
      - eapply VI_last; eassumption.
      - eapply VI_last_comma; [exact Hw|exact H1|exact H2|exact He]. }
    destruct (char_p c_comma (ws_rest s)) as [s2 c| | | |] eqn:Ec; auto.
    apply char_p_ok in Ec as [Ec _]. destruct (ws_split s) as (w1 & Hw1 & Es).
    pose proof (suffix_len _ _ (ws_rest_suffix s)) as Hl. rewrite Ec in Hl. cbn in Hl.
    pose proof (suffix_len _ _ (ws_rest_suffix s2)) as Hl2.
    destruct (SV (ws_rest s2)) as [s3 v| | | |] eqn:Ev; auto; try discriminate.
    pose proof (wf_single_value U (ws_rest s2)) as Hg. rewrite Ev in Hg. cbn in Hg. apply suffix_len in Hg.
    destruct (Nat.eqb _ _); [discriminate|].
    apply map_res_ok in H as (l' & H & ->). destruct (ws_split s2) as (w2 & Hw2 & Es2).
    apply HS in Ev; [|lia].
    assert (HI : VItems U (v :: l') s2 rr).
    { rewrite Es2. eapply IH; [| |exact H|exact Hw2|exact Ev|exact HC]; lia. }
    eapply VI_cons; [exact Hw|exact Hw1| |exact HI].
    rewrite Es, Ec in He. exact He.
Qed.
Lemma vlist_sound n s r l : OldSound n -> (length s <= n)%nat -> vlist SV s = Ok r l ->
  exists s1, s = 91 :: s1 /\ VItems U l s1 r.
Proof.
  intros HS Hn H. apply vlist_ok in H as (s1 & r1 & -> & H & HC). exists s1. split; [reflexivity|].
  cbn in Hn. unfold vlist_items in H. rewrite separated_list_eq, wrap_ws in H.
  destruct (ws_split s1) as (w & Hw & Es). pose proof (suffix_len _ _ (ws_rest_suffix s1)) as Hl.
  destruct (SV (ws_rest s1)) as [r2 v| | | |] eqn:Ev; try discriminate.
  - destruct (Nat.eqb _ _); [discriminate|].
    apply map_res_ok in H as (l' & H & ->).
    pose proof (wf_single_value U (ws_rest s1)) as Hg. rewrite Ev in Hg. cbn in Hg. apply suffix_len in Hg.
    apply HS in Ev; [|lia]. rewrite Es.
    eapply (vsep_sound n HS (length r2)); [| |exact H|exact Hw|exact Ev|exact HC]; lia.
  - injection H as <- <-. destruct HC as [(w' & Hw' & ->)|(w1 & w2 & H1 & H2 & ->)].
    + apply VI_nil, Hw'.
    + apply VI_comma; assumption.
Qed.

(** ** Maps *)
Lemma VEntries_ws w l s r : Ws w -> VEntries U l s r -> VEntries U l (w ++ s) r.
Proof.
  intros Hw [w' r' Hw'|k v l' w' s0 s1 s2 r' Hw' He Hs Hl]; rewrite app_assoc.
  - apply VE_nil, Ws_app; assumption.
  - eapply VE_cons; [apply (Ws_app _ _ Hw Hw')|exact He|exact Hs|exact Hl].
Qed.
Lemma map_expression_ok p s r m : map_expression p s = Ok r m <->
  exists s1 r1, ws_rest s = 123 :: s1 /\ p (ws_rest s1) = Ok r1 m /\ ws_rest r1 = 125 :: r.
Proof.
  unfold map_expression. split.
  - intros H. rewrite ws_m, wrap_ws in H. apply bind_ok in H as (r1 & v1 & H1 & H).
    apply bind_ok in H1 as (s1 & c & H1 & H9). injection H9 as <- <-. apply char_p_ok in H1 as [H1 _].
    rewrite ws_m, wrap_ws, ws_rest_idem in H. apply bind_ok in H as (r2 & l2 & H2 & H).
    apply bind_ok in H as (r3 & c3 & H3 & H). injection H as -> ->.
    apply bind_ok in H2 as (r4 & l4 & H2 & H9). injection H9 as <- <-.
    apply char_p_ok in H3 as [H3 _]. exists s1, r4. auto.
  - intros (s1 & r1 & H1 & H2 & H3). rewrite ws_m, wrap_ws, H1, char_p_eq. cbn [bind].
    rewrite ws_m, wrap_ws, ws_rest_idem, H2. cbn [bind]. rewrite H3, char_p_eq. reflexivity.
Qed.
Lemma map_expression_first p s : (forall q, ws_rest s <> 123 :: q) -> map_expression p s = Err.
Proof.
  intros H. unfold map_expression. rewrite ws_m, wrap_ws. destruct (ws_rest s) as [|c q]; [reflexivity|].
  rewrite char_p_neq; [reflexivity|]. intros ->. apply (H q eq_refl).
Qed.
Lemma map_expression_sound n s r m : OldSound n -> (length s <= n)%nat -> map_expression MV s = Ok r m ->
  exists w s1 l, Ws w /\ s = w ++ [123] ++ s1 /\ m = Unmerged l /\ VEntries U l s1 ([125] ++ r).
Proof.
  intros [_ HS] Hn H. apply map_expression_ok in H as (s1 & r1 & H1 & H2 & H3).
  destruct (ws_split s) as (w & Hw & Es). destruct (ws_split s1) as (w1 & Hw1 & Es1).
  pose proof (suffix_len _ _ (ws_rest_suffix s)) as L1. pose proof (suffix_len _ _ (ws_rest_suffix s1)) as L2. rewrite H1 in L1. cbn [length] in L1.
  apply HS in H2 as (l & -> & H2 & H4); [|lia]. exists w, s1, l. split; [exact Hw|]. split; [rewrite Es at 1; rewrite H1; reflexivity|]. split; [reflexivity|].
  rewrite Es1. apply VEntries_ws; [exact Hw1|]. rewrite <- H4, H3 in H2. exact H2.
Qed.

Lemma old_separator_sound s r v : old_separator (iws_rest s) = Ok r v -> exists w s2, VSep s s2 /\ Ws w /\ s2 = w ++ r.
Proof.
  intros H. destruct (iws_split s) as (i & Hi & Es). apply alt_inv in H as [H|[_ H]].
  - rewrite ws_m, wrap_ws in H. apply bind_ok in H as (r1 & v1 & H & H9). injection H9 as <- <-. apply tag1_ok in H. rewrite ws_rest_iws_rest in H.
    destruct (ws_split s) as (w & Hw & Es'). destruct (ws_split r1) as (w1 & Hw1 & Er1). exists w1, r1. split; [|auto].
    rewrite Es', H. apply VS_comma, Hw.
  - apply alt_inv in H as [H|[_ H]].
    + apply pmap_inv in H as (x & H & _). apply newline_sound in H as (n0 & w2 & Hn0 & Hw2 & H); [|apply iws_rest_idem].
      exists w2, (w2 ++ r). split; [|auto]. rewrite Es, H. apply VS_line; assumption.
    + unfold eof in H. destruct (iws_rest s) eqn:E0; [|discriminate]. injection H as <- <-. rewrite app_nil_r in Es. subst i.
      exists [], []. split; [apply VS_end, Hi|]. split; [constructor|reflexivity].
Qed.

Lemma old_attribute_sound n s r k v : OldSound n -> (length s <= n)%nat -> old_attribute U SV MV s = Ok r (k, v) ->
  exists r0, VEntry U k v (iws_rest s) r0 /\ r = iws_rest r0.
Proof.
  intros HS Hn H. unfold old_attribute in H. rewrite iws_m in H. apply bind_ok in H as (r0 & kv & H & H9). injection H9 as <- ->.
  exists r0. split; [|reflexivity]. pose proof (suffix_len _ _ (iws_rest_suffix s)) as L0.
  apply alt_inv in H as [H|[_ H]].
  { apply bind_ok in H as (r1 & k' & H1 & H). rewrite wrap_iws in H1. apply literal_key_ok in H1. pose proof (VKey_len _ _ _ H1) as L1.
    apply bind_ok in H as (r2 & c & H2 & H). rewrite wrap_iws in H2. apply char_p_ok in H2 as [H2 _].
    apply bind_ok in H as (r3 & e' & H3 & H). rewrite wrap_iws in H3. injection H as -> -> ->.
    destruct (iws_rest_sound r1) as (i1 & Hi1 & E1). destruct (iws_rest_sound r2) as (i2 & Hi2 & E2).
    pose proof (suffix_len _ _ (iws_rest_suffix r1)) as L2. rewrite H2 in L2. cbn [length] in L2. pose proof (suffix_len _ _ (iws_rest_suffix r2)) as L3.
    apply HS in H3; [|lia]. rewrite H2 in E1. rewrite E1, E2 in H1. exact (VE_attr U k v i1 i2 _ _ r0 Hi1 Hi2 H1 H3). }
  apply alt_inv in H as [H|[HB H]].
  - apply bind_ok in H as (r1 & i & H1 & H). rewrite wrap_iws in H1. apply identifier_ok in H1. pose proof (GIdent_len _ _ _ _ H1) as L1. apply GIdent_borrowed in H1.
    apply bind_ok in H as (r2 & o & H2 & H). rewrite wrap_iws in H2.
    apply bind_ok in H as (r3 & m & H3 & H). rewrite wrap_iws in H3. injection H as -> <- <-.
    destruct (iws_rest_sound r1) as (i1 & Hi1 & E1). destruct (iws_rest_sound r2) as (i2 & Hi2 & E2).
    pose proof (suffix_len _ _ (iws_rest_suffix r1)) as L2. pose proof (suffix_len _ _ (iws_rest_suffix r2)) as L3.
    assert (L4 : (length r2 <= length (iws_rest r1))%nat).
    { pose proof (wf_opt _ (wf_char c_eq) (iws_rest r1)) as Hg. rewrite H2 in Hg. apply suffix_len in Hg. exact Hg. }
    apply (map_expression_sound n) in H3 as (w & s1 & l & Hw & E3 & -> & HE); [|exact HS|lia].
    unfold opt in H2. destruct (simple_char c_eq (iws_rest r1)) as [(q & c & Ec)|Ec]; rewrite Ec in H2; injection H2 as <- <-.
    + apply char_p_ok in Ec as [Ec _]. rewrite Ec in E1. rewrite E1, E2 in H1.
      refine (VE_attr U _ _ i1 i2 _ _ r0 Hi1 Hi2 (VK_ident U _ _ _ H1) _). rewrite E3. apply VT_object; assumption.
    + rewrite iws_rest_idem in E3. rewrite E1, E3, app_assoc in H1.
      exact (VE_object U _ l _ _ s1 r0 (Ws_app _ _ (Iws_Ws _ Hi1) Hw) H1 HE).
  - apply bind_ok in H as (r1 & i & H0 & H). rewrite wrap_iws in H0. pose proof H0 as H1. apply identifier_ok in H1. pose proof (GIdent_len _ _ _ _ H1) as L1. apply GIdent_borrowed in H1.
    apply bind_ok in H as (r2 & ls & H2 & H). fold old_label in H2.
    apply bind_ok in H as (r3 & m & H3 & H). rewrite wrap_iws in H3. injection H as -> <- <-.
    apply (old_labels_sound (length r1)) in H2; [|lia]. pose proof (VLabels_ends_quote _ _ _ H2) as L2.
    destruct (iws_rest_sound r2) as (i2 & Hi2 & E2). pose proof (suffix_len _ _ (iws_rest_suffix r2)) as L3.
    pose proof H3 as H3'.
    apply (map_expression_sound n) in H3 as (w & s1 & l & Hw & E3 & -> & HE); [|exact HS|lia].
    pose proof H2 as H2'.
    rewrite E2, E3, app_assoc in H2. pose proof (Ws_app _ _ (Iws_Ws _ Hi2) Hw) as Hw'.
    destruct ls as [|l0 ls]; [|exact (VE_block U _ (l0 :: ls) l _ _ _ s1 r0 Hw' ltac:(discriminate) H1 H2 HE)].
    exfalso. assert (Er : r1 = r2) by (inversion H2'; congruence). clear H2'. subst r2. rewrite wrap_iws, H0 in HB. cbn [bind] in HB. rewrite wrap_iws in HB.
    rewrite opt_none in HB.
    + cbn [bind] in HB. rewrite wrap_iws, iws_rest_idem, H3' in HB. discriminate.
    + rewrite E3. assert (Hq : ws_rest (w ++ [123] ++ s1) = 123 :: s1) by (rewrite ws_rest_ws by exact Hw; apply ws_rest_stop; lia).
      destruct (w ++ [123] ++ s1) as [|c q] eqn:Eq; [reflexivity|]. apply char_p_neq. intros ->. rewrite ws_rest_stop in Hq by lia. discriminate.
Qed.

(** ** Bodies of maps *)
Definition old_item : parser (key * Value.value) := wrap whitespace (terminated (old_attribute U SV MV) old_separator).
Lemma wf_old_item : wf old_item.
Proof. apply wf_wrap_ws, wf_terminated; [apply wf_old_attribute|apply wf_old_separator]. Qed.
Lemma map_values_unfold s : MV s = bind (many0 old_item s) (fun r v => Ok (ws_rest r) (Unmerged v)).
Proof.
  rewrite map_values_eq. unfold map_values_step. rewrite ws_m. fold old_item. destruct (many0 old_item s); reflexivity.
Qed.
Lemma old_item_sound n s r k v : OldSound n -> (length s <= n)%nat -> old_item s = Ok r (k, v) ->
  exists w s0 s1 s2 w2, s = w ++ s0 /\ Ws w /\ VEntry U k v s0 s1 /\ VSep s1 s2 /\ Ws w2 /\ s2 = w2 ++ r.
Proof.
  intros HS Hn H. unfold old_item in H. rewrite wrap_ws in H. unfold terminated in H.
  apply bind_ok in H as (r1 & kv & H1 & H). apply bind_ok in H as (r2 & x & H2 & H). injection H as -> ->.
  pose proof (suffix_len _ _ (ws_rest_suffix s)) as Hl.
  apply (old_attribute_sound n) in H1 as (r0 & H1 & ->); [|exact HS|lia]. rewrite iws_ws_rest in H1.
  destruct (ws_rest_sound s) as (w & Hw & Es). apply old_separator_sound in H2 as (w2 & s2 & H2 & Hw2 & ->).
  exists w, (ws_rest s), r0, (w2 ++ r), w2. auto 10.
Qed.
Lemma old_items_sound n : OldSound n -> forall k s r l, (length s <= k)%nat -> (length s <= n)%nat ->
  many0 old_item s = Ok r l -> VEntries U l s (ws_rest r).
Proof.
  intros HS. induction k as [|k IH]; intros s r l Hk Hn H; rewrite many0_eq in H by apply wf_upto_of, wf_old_item.
  - destruct s; [|cbn in Hk; lia]. cbn in H. injection H as <- <-. apply (VE_nil U [] []). constructor.
  - assert (Hstop : Ok s [] = Ok r l -> VEntries U l s (ws_rest r)).
    { intros [= <- <-]. destruct (ws_rest_sound s) as (w & Hw & Es). rewrite Es at 1. apply VE_nil, Hw. }
    pose proof (wf_old_item s) as Hg.
    destruct (old_item s) as [r1 [k1 v1]| | | |] eqn:El; auto; try discriminate.
    destruct (str_eqb r1 s) eqn:Eq; auto. apply str_eqb_neq in Eq.
    cbn in Hg. pose proof (suffix_neq_len _ _ Hg Eq) as Hl.
    apply map_res_ok in H as (l' & H & ->).
    apply (old_item_sound n) in El; [|exact HS|exact Hn].
    destruct El as (w & s0 & s1 & s2 & w2 & -> & Hw & He & Hs & Hw2 & ->).
    eapply VE_cons; [exact Hw|exact He|exact Hs|]. apply VEntries_ws; [exact Hw2|]. apply IH; [lia|lia|exact H].
Qed.

Lemma old_sound_step n : OldSound n -> OldSound (S n).
Proof.
  intros HS. split.
  - intros s r v Hs H. rewrite single_value_eq in H. unfold single_value_step in H.
    apply alt_inv in H as [H|[_ H]].
    { apply pmap_inv in H as (u & H & ->). apply null_ok in H as ->. apply VT_null. }
    apply alt_inv in H as [H|[_ H]].
    { apply literal_number_ok in H as (x & t & -> & H1 & H2 & H3). exact (VT_number U x t v r H1 H2 H3). }
    apply alt_inv in H as [H|[_ H]].
    { apply pmap_inv in H as (b & H & ->). apply boolean_ok in H as ->. destruct b; constructor. }
    apply alt_inv in H as [H|[_ H]].
    { apply pmap_inv in H as (c & H & ->). apply string_p_ok in H as [(w & s' & -> & -> & H)|H].
      - apply (VT_quoted U w s' r). exact H.
      - apply VT_heredoc, H. }
    apply alt_inv in H as [H|[_ H]].
    { apply pmap_inv in H as (l & H & ->). apply (vlist_sound n) in H as (s1 & -> & H); [|exact HS|lia]. apply (VT_list U l s1 r), H. }
    apply pmap_inv in H as (m & H & ->). apply (map_expression_sound n) in H as (w & s1 & l & Hw & -> & -> & H); [|exact HS|lia].
    exact (VT_object U l w s1 r Hw H).
  - intros s r m Hs H. rewrite map_values_unfold in H. apply bind_ok in H as (r1 & l & H & H9). injection H9 as <- <-.
    exists l. split; [reflexivity|]. split; [apply (old_items_sound n HS (length s)); [lia|lia|exact H]|apply ws_rest_idem].
Qed.
Lemma old_sound n : OldSound n.
Proof. induction n as [|n IH]; [split; intros ? ? ? H; lia|apply old_sound_step, IH]. Qed.
Theorem single_value_sound s r v : SV s = Ok r v -> VTerm U v s r.
Proof. apply (old_sound (S (length s))). lia. Qed.
Theorem map_values_sound s r m : MV s = Ok r m -> exists l, m = Unmerged l /\ VEntries U l s r.
Proof. intros H. apply (old_sound (S (length s))) in H as (l & -> & H & _); [eauto|lia]. Qed.

(** ** Completeness *)
Lemma vlist_first p c s : c <> 91 -> vlist p (c :: s) = Err.
Proof. intros H. unfold vlist, preceded. rewrite char_p_neq by exact H. reflexivity. Qed.
Lemma old_compound x c x' : x = c :: x' -> ws_char c = true \/ c = 123 ->
  SV x = pmap (fun m => VObject [m]) (map_expression MV) x.
Proof.
  intros -> Hc. rewrite single_value_eq. unfold single_value_step.
  assert (Hn : c <> 110 /\ is_dec_digit c = false /\ c <> 46 /\ c <> 43 /\ c <> 45 /\ c <> 116 /\ c <> 102 /\
    c <> 34 /\ c <> 60 /\ c <> 91).
  { unfold ws_char, is_dec_digit in *. lia. }
  rewrite alt_err by (apply pmap_err, null_first; tauto).
  rewrite alt_err by (apply literal_number_err, number_first_err; tauto).
  rewrite alt_err by (apply pmap_err, boolean_first; tauto).
  rewrite alt_err by (apply pmap_err, string_p_first; tauto).
  rewrite alt_err by (apply pmap_err, vlist_first; tauto).
  reflexivity.
Qed.
Lemma single_value_first_err c s : term_first c = false -> ws_char c = false -> SV (c :: s) = Err.
Proof.
  intros H1 H2. rewrite single_value_eq. unfold single_value_step.
  assert (Hn : c <> 110 /\ is_dec_digit c = false /\ c <> 46 /\ c <> 43 /\ c <> 45 /\ c <> 116 /\ c <> 102 /\
    c <> 34 /\ c <> 60 /\ c <> 91 /\ c <> 123).
  { unfold term_first in *. destruct (is_dec_digit c); lia. }
  rewrite alt_err by (apply pmap_err, null_first; tauto).
  rewrite alt_err by (apply literal_number_err, number_first_err; tauto).
  rewrite alt_err by (apply pmap_err, boolean_first; tauto).
  rewrite alt_err by (apply pmap_err, string_p_first; tauto).
  rewrite alt_err by (apply pmap_err, vlist_first; tauto).
  apply pmap_err, map_expression_first. rewrite ws_rest_nonws by exact H2. intros q [= -> _]. tauto.
Qed.

Definition ReadsT (v : Value.value) (s r : str) : Prop :=
  (length r < length s)%nat /\ SV s = Ok r v /\ SV (iws_rest s) = Ok r v /\ SV (ws_rest s) = Ok r v.
Definition ReadsI (l : list Value.value) (s r : str) : Prop :=
  exists r1, vlist_items s = Ok r1 l /\ Close r1 r /\ (length r < length s)%nat.
Definition ReadsEs (l : list (key * Value.value)) (s r : str) : Prop :=
  r = [] \/ FirstIs 125 r ->
  (length r <= length s)%nat /\ ~ FirstIs 44 (ws_rest s) /\
  forall x, ws_rest x = ws_rest s -> MV x = Ok r (Unmerged l).
Definition ReadsE (k : key) (v : Value.value) (s r : str) : Prop :=
  (length r < length s)%nat /\ ws_rest s = s /\ ~ FirstIs 44 s /\
  old_attribute U SV MV s = Ok (iws_rest r) (k, v).

Lemma reads_simple v s r c s' : s = c :: s' -> term_first c = true -> SV s = Ok r v -> (length r < length s)%nat -> ReadsT v s r.
Proof.
  intros -> Hc H Hl. apply term_first_nonws in Hc. split; [exact Hl|]. split; [exact H|].
  rewrite iws_rest_nonws, ws_rest_nonws by exact Hc. auto.
Qed.
Lemma vlist_items_cons v w s r1 l r2 : Ws w -> ReadsT v s r1 -> VSEP r1 = Ok r2 l -> vlist_items (w ++ s) = Ok r2 (v :: l).
Proof.
  intros Hw (Hl & _ & _ & He) Hs. unfold vlist_items. rewrite separated_list_eq, wrap_ws.
  rewrite ws_rest_ws by exact Hw. rewrite He. rewrite app_length.
  destruct (Nat.eqb_spec (length r1) (length w + length s)); [lia|]. rewrite Hs. reflexivity.
Qed.
Lemma vlist_items_inv s r2 v l : vlist_items s = Ok r2 (v :: l) ->
  exists r1, SV (ws_rest s) = Ok r1 v /\ length r1 <> length s /\ VSEP r1 = Ok r2 l.
Proof.
  unfold vlist_items. rewrite separated_list_eq, wrap_ws.
  destruct (SV (ws_rest s)) as [r1 v'| | | |]; try discriminate.
  destruct (Nat.eqb_spec (length r1) (length s)); [discriminate|].
  intros H. apply map_res_ok in H as (l' & H & E1). injection E1 as -> ->. eauto.
Qed.
Lemma vsep_close r1 r : Close r1 r -> VSEP r1 = Ok r1 [].
Proof.
  intros [(w & Hw & ->)|(w & w' & Hw & Hw' & ->)]; rewrite vsep_unfold, ws_rest_ws by exact Hw; cbn [app]; rewrite ws_rest_stop by lia.
  - rewrite char_p_neq by lia. reflexivity.
  - rewrite char_p_eq. rewrite ws_rest_ws by exact Hw'. rewrite ws_rest_stop by lia. rewrite single_value_first_err by reflexivity. reflexivity.
Qed.
Lemma map_expression_reads l w s r x : Ws w -> ReadsEs l s ([125] ++ r) -> ws_rest x = 123 :: s ->
  map_expression MV x = Ok r (Unmerged l).
Proof.
  intros Hw H Hx. destruct (H (or_intror (ex_intro _ r eq_refl))) as (_ & _ & HM).
  apply map_expression_ok. exists s, (125 :: r). split; [exact Hx|]. split; [apply HM, ws_rest_idem|]. apply ws_rest_stop; lia.
Qed.
Lemma ws_to_brace w s : Ws w -> ws_rest (w ++ [123] ++ s) = 123 :: s.
Proof. intros Hw. rewrite ws_rest_ws by exact Hw. apply ws_rest_stop; lia. Qed.
Lemma object_reads l w s r x : Ws w -> ReadsEs l s ([125] ++ r) -> ws_rest x = 123 :: s ->
  SV x = Ok r (VObject [Unmerged l]).
Proof.
  intros Hw H Hx. destruct (lead_char x 123 s Hx (or_introl eq_refl)) as (c0 & x' & Ex & Hc0).
  rewrite (old_compound x c0 x' Ex).
  - apply (pmap_ok (fun m => VObject [m])). eapply map_expression_reads; eassumption.
  - destruct Hc0 as [H0|[H0|H0]]; auto. subst. rewrite ws_rest_stop in Hx by lia. discriminate.
Qed.
Lemma VKey_first k s r : VKey U k s r -> exists c s', s = c :: s' /\ (id_first U c = true \/ c = 34).
Proof.
  intros [t s' r' H|v s' r' H]; [apply GIdent_first in H as (c & s'' & -> & H); eauto|]. eexists 34, _. split; [reflexivity|auto].
Qed.
Lemma id_first_not44 c : id_first U c = true \/ c = 34 -> c <> 44.
Proof. intros [H|H] ->; [rewrite id_first_ascii in H by lia; discriminate|discriminate]. Qed.
Lemma old_attribute_alt1_err t s s1 : GIdent U (Borrowed t) s s1 -> ~ FirstIs 61 (iws_rest s1) ->
  (let* (r1, k) := wrap inline_whitespace (literal_key U) s in
   let* (r2, _eq) := wrap inline_whitespace (char_p c_eq) r1 in
   let* (r3, v) := wrap inline_whitespace SV r2 in Ok r3 (k, v)) = Err.
Proof.
  intros Hi Hn. destruct (GIdent_ws _ _ _ _ Hi) as [_ Hs]. rewrite wrap_iws, Hs.
  assert (E : literal_key U s = Ok s1 (KeyIdent t)) by (apply literal_key_ok; constructor; exact Hi). rewrite E. cbn [bind]. rewrite wrap_iws.
  destruct (iws_rest s1) as [|c q]; [reflexivity|]. rewrite char_p_neq; [reflexivity|]. intros ->. apply Hn. eexists; reflexivity.
Qed.
Lemma brace_not_eq w s : Ws w -> ~ FirstIs 61 (iws_rest (w ++ [123] ++ s)) /\ string_literal (iws_rest (w ++ [123] ++ s)) = Err.
Proof.
  intros Hw. destruct (iws_ws_brace w s Hw) as (c & q & E & Hc). cbn [app]. rewrite E. split.
  - intros [q' [= -> _]]. destruct Hc as [Hc|Hc]; discriminate.
  - apply string_literal_first. intros ->. destruct Hc as [Hc|Hc]; discriminate.
Qed.
Lemma old_rbrace_no_item x q : ws_rest x = 125 :: q -> old_item x = Err.
Proof.
  intros Hx. unfold old_item. rewrite wrap_ws, Hx. unfold terminated, old_attribute. rewrite iws_m.
  assert (Hi : iws_rest (125 :: q) = 125 :: q) by (apply iws_rest_stop; lia).
  assert (Hid : identifier U (125 :: q) = Err) by (apply identifier_first_err; rewrite id_first_ascii by lia; reflexivity).
  rewrite alt_err.
  - rewrite alt_err; rewrite wrap_iws, Hi, Hid; reflexivity.
  - rewrite wrap_iws, Hi. unfold literal_key. rewrite alt_err by (apply pmap_err, Hid).
    unfold pmap. rewrite string_literal_first by lia. reflexivity.
Qed.
Lemma old_nil_no_item x : ws_rest x = [] -> old_item x = Err.
Proof. intros Hx. unfold old_item. rewrite wrap_ws, Hx. reflexivity. Qed.

Lemma LineEnd_ws_rest n s : LineEnd n -> ws_rest (n ++ s) = ws_rest s.
Proof. intros H. apply ws_rest_ws. destruct H as [e [|]|c H]; [repeat constructor; tauto|repeat constructor; tauto|]. rewrite <- (app_nil_r c). apply Ws_line; [exact H|constructor]. Qed.

(** The separator, read after the inline white space has been skipped *)
Lemma old_separator_complete s1 s2 : VSep s1 s2 -> ~ FirstIs 44 (ws_rest s2) ->
  exists r v, old_separator (iws_rest s1) = Ok r v /\ ws_rest r = ws_rest s2 /\ (length r <= length s1)%nat.
Proof.
  intros Hs Hn.
  assert (Hr : forall r v, old_separator (iws_rest s1) = Ok r v -> (length r <= length s1)%nat).
  { intros r v H. pose proof (wf_old_separator (iws_rest s1)) as Hg. rewrite H in Hg. apply suffix_len in Hg.
    pose proof (suffix_len _ _ (iws_rest_suffix s1)). lia. }
  cut (exists r v, old_separator (iws_rest s1) = Ok r v /\ ws_rest r = ws_rest s2).
  { intros (r & v & H1 & H2). exists r, v. split; [exact H1|]. split; [exact H2|]. eapply Hr, H1. }
  unfold old_separator. change (lit ",") with [44]. destruct Hs as [w s Hw|i n s Hi Hl|i Hi].
  - exists (ws_rest s), [44]. split; [|apply ws_rest_idem]. apply alt_ok_l. rewrite ws_m, wrap_ws, ws_rest_iws_rest, ws_rest_ws by exact Hw.
    cbn [app]. rewrite ws_rest_stop by lia. rewrite tag1_eq. reflexivity.
  - rewrite iws_rest_iws by exact Hi. rewrite iws_rest_LineEnd by exact Hl.
    destruct (newline_complete n s Hl) as (r & v & H1 & H2). exists r, []. split; [|exact H2].
    rewrite alt_err.
    + apply alt_ok_l. apply (pmap_ok (fun _ => @nil char)) in H1. exact H1.
    + rewrite ws_m, wrap_ws, LineEnd_ws_rest by exact Hl. destruct (ws_rest s) as [|c q]; [reflexivity|].
      rewrite tag_first; [reflexivity|]. intros ->. apply Hn. eexists; reflexivity.
  - rewrite <- (app_nil_r i). rewrite iws_rest_iws by exact Hi. exists [], []. split; reflexivity.
Qed.

Lemma old_complete_mut :
  (forall v s r, VTerm U v s r -> ReadsT v s r) /\
  (forall l s r, VItems U l s r -> ReadsI l s r) /\
  (forall l s r, VEntries U l s r -> ReadsEs l s r) /\
  (forall k v s r, VEntry U k v s r -> ReadsE k v s r).
Proof.
  apply old_mut.
  - (* null *) intros r. eapply reads_simple; [reflexivity|reflexivity| |rewrite app_length; cbn; lia].
    rewrite single_value_eq. apply alt_ok_l. apply (pmap_ok (fun _ => VNull) null _ _ tt). apply (pmap_ok (fun _ => tt) _ _ _ (lit "null")). apply tag_app.
  - (* true *) intros r. eapply reads_simple; [reflexivity|reflexivity| |rewrite app_length; cbn; lia].
    rewrite single_value_eq. unfold single_value_step. rewrite alt_err by reflexivity.
    rewrite alt_err by (cbn [lit app]; apply literal_number_err, number_first_err; [reflexivity|discriminate..]).
    apply alt_ok_l. apply (pmap_ok VBoolean). apply alt_ok_l. apply (pmap_ok (fun _ => true) _ _ _ (lit "true")). apply tag_app.
  - (* false *) intros r. eapply reads_simple; [reflexivity|reflexivity| |rewrite app_length; cbn; lia].
    rewrite single_value_eq. unfold single_value_step. rewrite alt_err by reflexivity.
    rewrite alt_err by (cbn [lit app]; apply literal_number_err, number_first_err; [reflexivity|discriminate..]).
    apply alt_ok_l. apply (pmap_ok VBoolean). unfold boolean. rewrite alt_err by reflexivity. apply (pmap_ok (fun _ => false) _ _ _ (lit "false")). apply tag_app.
  - (* number *) intros n t v r Hn HL Hv. destruct (NumLit_first _ _ Hn) as (c & t' & Et & Hc).
    assert (Hc' : c <> 110 /\ term_first c = true).
    { split; [unfold is_dec_digit in Hc; lia|]. unfold term_first. destruct (is_dec_digit c) eqn:Ed; [rewrite !orb_true_r; reflexivity|]. destruct Hc as [Hc|[->|[->| ->]]]; [discriminate|reflexivity..]. }
    eapply (reads_simple _ _ _ c (t' ++ r)); [rewrite Et; reflexivity|tauto| |rewrite app_length, Et; cbn [length]; lia].
    rewrite single_value_eq. unfold single_value_step. rewrite alt_err by (rewrite Et; cbn [app]; apply pmap_err, null_first; tauto).
    apply alt_ok_l. apply literal_number_ok. eauto 10.
  - (* quoted *) intros v s r H.
    assert (Hq : string_p U ([34] ++ s) = Ok r (Owned v)) by (apply string_p_ok; left; exists v, s; auto).
    eapply reads_simple; [reflexivity|reflexivity| |apply GChars_len in H; cbn [app length] in *; lia].
    rewrite single_value_eq. unfold single_value_step. cbn [app] in *. rewrite alt_err by reflexivity.
    rewrite alt_err by (apply literal_number_err, number_first_err; [reflexivity|discriminate..]).
    rewrite alt_err by reflexivity. apply alt_ok_l. apply (pmap_ok (fun c => VString (cow_str c)) _ _ _ _ Hq).
  - (* heredoc *) intros c s r H.
    assert (Hq : string_p U s = Ok r c) by (apply string_p_ok; right; exact H).
    assert (Hs : exists s', s = 60 :: s') by (destruct H; eexists; reflexivity). destruct Hs as [s' ->].
    eapply reads_simple; [reflexivity|reflexivity| |].
    + rewrite single_value_eq. unfold single_value_step. rewrite alt_err by reflexivity.
      rewrite alt_err by (apply literal_number_err, number_first_err; [reflexivity|discriminate..]).
      rewrite alt_err by reflexivity. apply alt_ok_l. apply (pmap_ok (fun c => VString (cow_str c)) _ _ _ _ Hq).
    + destruct H as [d m p b t r v Hm Hd Hc _ _]. destruct Hc as (e1 & e2 & r' & _ & _ & _ & -> & ->).
      rewrite !app_length. cbn [length]. lia.
  - (* list *) intros l s r _ (r1 & H1 & H2 & H3). eapply reads_simple; [reflexivity|reflexivity| |cbn [app length]; lia].
    rewrite single_value_eq. unfold single_value_step. cbn [app]. rewrite alt_err by reflexivity.
    rewrite alt_err by (apply literal_number_err, number_first_err; [reflexivity|discriminate..]).
    rewrite alt_err by reflexivity. rewrite alt_err by (apply pmap_err, string_p_first; discriminate).
    apply alt_ok_l. apply pmap_ok. apply vlist_ok. eauto.
  - (* object *) intros l w s r Hw _ H. pose proof (ws_to_brace w s Hw) as Hx.
    destruct (H (or_intror (ex_intro _ r eq_refl))) as (Hl & _).
    split; [rewrite !app_length in *; cbn [length] in *; lia|].
    split; [|split]; (eapply object_reads; [exact Hw|exact H|]); [exact Hx|rewrite ws_rest_iws_rest; exact Hx|rewrite ws_rest_idem; exact Hx].
  - (* items, nil *) intros w r Hw. exists (w ++ [93] ++ r). split.
    + unfold vlist_items. rewrite separated_list_eq, wrap_ws, ws_rest_ws by exact Hw. cbn [app].
      rewrite ws_rest_stop by lia. rewrite single_value_first_err by reflexivity. reflexivity.
    + split; [left; eauto|]. rewrite !app_length. cbn. lia.
  - (* items, lone comma *) intros w1 w2 r Hw1 Hw2. exists (w1 ++ [44] ++ w2 ++ [93] ++ r). split.
    + unfold vlist_items. rewrite separated_list_eq, wrap_ws, ws_rest_ws by exact Hw1. cbn [app].
      rewrite ws_rest_stop by lia. rewrite single_value_first_err by reflexivity. reflexivity.
    + split; [right; eauto|]. rewrite !app_length. cbn [length]. lia.
  - (* last *) intros v w1 w2 s r Hw1 Hw2 _ He. exists (w2 ++ [93] ++ r).
    assert (HC : Close (w2 ++ [93] ++ r) r) by (left; eauto). split.
    + eapply vlist_items_cons; [exact Hw1|exact He|]. eapply vsep_close, HC.
    + split; [exact HC|]. destruct He as [Hl _]. rewrite !app_length in *. cbn [length] in *. lia.
  - (* last, comma *) intros v w1 w2 w3 s r Hw1 Hw2 Hw3 _ He. exists (w2 ++ [44] ++ w3 ++ [93] ++ r).
    assert (HC : Close (w2 ++ [44] ++ w3 ++ [93] ++ r) r) by (right; eauto). split.
    + eapply vlist_items_cons; [exact Hw1|exact He|]. eapply vsep_close, HC.
    + split; [exact HC|]. destruct He as [Hl _]. rewrite !app_length in *. cbn [length] in *. lia.
  - (* cons *) intros v v' l w1 w2 s s' r Hw1 Hw2 _ He _ (r1 & H1 & H2 & H3). exists r1. split.
    + eapply vlist_items_cons; [exact Hw1|exact He|].
      apply vlist_items_inv in H1 as (r2 & H4 & H5 & H6).
      rewrite vsep_unfold, ws_rest_ws by exact Hw2. cbn [app]. rewrite ws_rest_stop by lia.
      rewrite char_p_eq, H4. destruct (Nat.eqb_spec (length r2) (length s')); [contradiction|]. rewrite H6. reflexivity.
    + split; [exact H2|]. destruct He as [Hl _]. rewrite !app_length in *. cbn [length] in *. lia.
  - (* entries, nil *) intros w r Hw Hr.
    assert (Hrr : ws_rest r = r) by (destruct Hr as [->|[q ->]]; [reflexivity|apply ws_rest_stop; lia]).
    split; [rewrite app_length; lia|]. rewrite ws_rest_ws, Hrr by exact Hw. split.
    + destruct Hr as [->|[q ->]]; intros [q' [=]].
    + intros x Hx. rewrite map_values_unfold, many0_eq by apply wf_upto_of, wf_old_item.
      assert (He : old_item x = Err) by (destruct Hr as [->|[q ->]]; [apply old_nil_no_item, Hx|eapply old_rbrace_no_item, Hx]).
      rewrite He. cbn [bind]. rewrite Hx. reflexivity.
  - (* entries, cons *) intros k v l w s s1 s2 r Hw _ (Hl & Hs & Hn & HRe) Hsep _ HRs Hr.
    destruct (HRs Hr) as (Hl2 & Hn2 & HM).
    destruct (old_separator_complete s1 s2 Hsep Hn2) as (r1 & x1 & He1 & He2 & He3).
    assert (Hls : (length r <= length (w ++ s))%nat).
    { pose proof (HM s2 eq_refl) as Hg'. rewrite app_length. pose proof (wf_map_values U r1) as Hg. rewrite (HM r1 He2) in Hg. apply suffix_len in Hg. lia. }
    split; [exact Hls|]. rewrite ws_rest_ws, Hs by exact Hw. split; [exact Hn|]. intros x Hx.
    assert (Hit : old_item x = Ok r1 (k, v)).
    { unfold old_item. rewrite wrap_ws, Hx. unfold terminated. rewrite HRe. cbn [bind]. rewrite He1. reflexivity. }
    pose proof (HM r1 He2) as Hbr1. rewrite map_values_unfold in Hbr1.
    rewrite map_values_unfold, many0_eq by apply wf_upto_of, wf_old_item. rewrite Hit.
    assert (Hne : r1 <> x).
    { intros ->. pose proof (suffix_len _ _ (ws_rest_suffix x)) as H3. rewrite Hx in H3. lia. }
    apply str_eqb_neq in Hne. rewrite Hne.
    destruct (many0 old_item r1) as [r2 b2| | | |]; cbn [bind map_res] in *; try discriminate.
    injection Hbr1 as -> ->. reflexivity.
  - (* attribute *) intros k v i1 i2 s s' r Hi1 Hi2 Hk _ (Hl & _ & He & _).
    destruct (VKey_ws _ _ _ Hk) as [H1 H2]. pose proof (VKey_len _ _ _ Hk) as L. rewrite !app_length in L. cbn [length] in L.
    split; [lia|]. split; [exact H1|]. split.
    { destruct (VKey_first _ _ _ Hk) as (c & q & -> & Hc). intros [q' [= -> _]]. apply id_first_not44 in Hc. congruence. }
    unfold old_attribute. rewrite iws_m. apply literal_key_ok in Hk. rewrite (alt_ok_l _ _ _ r (k, v)); [reflexivity|].
    rewrite wrap_iws, H2, Hk. cbn [bind app]. rewrite wrap_iws, iws_to_eq by exact Hi1. rewrite char_p_eq. cbn [bind].
    rewrite wrap_iws, iws_rest_iws by exact Hi2. rewrite He. reflexivity.
  - (* object *) intros t l w s s' r Hw Hi _ HR. destruct (GIdent_ws _ _ _ _ Hi) as [H1 H2].
    destruct (HR (or_intror (ex_intro _ r eq_refl))) as (Hl & _). pose proof (GIdent_len _ _ _ _ Hi) as L. rewrite !app_length in *. cbn [length] in *.
    split; [lia|]. split; [exact H1|]. split.
    { apply GIdent_first in Hi as (c & q & -> & Hc). intros [q' [= -> _]]. apply (id_first_not44 44); auto. }
    destruct (brace_not_eq w s' Hw) as [Hne _].
    unfold old_attribute. rewrite iws_m. rewrite alt_err by (eapply old_attribute_alt1_err; eassumption).
    rewrite (alt_ok_l _ _ _ r (KeyIdent t, VObject [Unmerged l])); [reflexivity|].
    apply identifier_ok in Hi. rewrite wrap_iws, H2, Hi. cbn [bind]. rewrite wrap_iws, opt_none.
    + cbn [bind]. rewrite wrap_iws, iws_rest_idem. erewrite map_expression_reads; [reflexivity|exact Hw|exact HR|].
      rewrite ws_rest_iws_rest. apply ws_to_brace, Hw.
    + destruct (iws_rest (w ++ [123] ++ s')) as [|c q]; [reflexivity|]. apply char_p_neq. intros ->. apply Hne. eexists; reflexivity.
  - (* block *) intros t ls l w s s1 s' r Hw Hls Hi HL _ HR. destruct (GIdent_ws _ _ _ _ Hi) as [H1 H2].
    destruct (HR (or_intror (ex_intro _ r eq_refl))) as (Hl & _). pose proof (GIdent_len _ _ _ _ Hi) as L.
    pose proof (VLabels_ends_quote _ _ _ HL) as L2. rewrite !app_length in *. cbn [length] in *.
    split; [lia|]. split; [exact H1|]. split.
    { apply GIdent_first in Hi as (c & q & -> & Hc). intros [q' [= -> _]]. apply (id_first_not44 44); auto. }
    destruct (brace_not_eq w s' Hw) as [_ Hne]. destruct (VLabels_first _ _ _ HL Hls) as [q Hq].
    unfold old_attribute. rewrite iws_m. rewrite alt_err.
    2:{ eapply old_attribute_alt1_err; [exact Hi|]. rewrite Hq. intros [q' [=]]. }
    apply identifier_ok in Hi. rewrite alt_err.
    + rewrite wrap_iws, H2, Hi. cbn [bind]. fold old_label. rewrite (old_labels_complete _ _ _ HL Hne). cbn [bind].
      rewrite wrap_iws. erewrite map_expression_reads; [reflexivity|exact Hw|exact HR|]. rewrite ws_rest_iws_rest. apply ws_to_brace, Hw.
    + rewrite wrap_iws, H2, Hi. cbn [bind]. rewrite wrap_iws, Hq, opt_none by (apply char_p_neq; discriminate). cbn [bind].
      rewrite wrap_iws, iws_rest_stop by lia. rewrite map_expression_first; [reflexivity|]. rewrite ws_rest_stop by lia. discriminate.
Qed.

Theorem single_value_complete v s r : VTerm U v s r -> SV s = Ok r v.
Proof. intros H. apply old_complete_mut in H as (_ & H & _). exact H. Qed.
Theorem map_values_complete l s r : VEntries U l s r -> r = [] \/ FirstIs 125 r -> MV s = Ok r (Unmerged l).
Proof. intros H Hr. apply old_complete_mut in H. apply H; [exact Hr|reflexivity]. Qed.
Theorem single_value_spec v s r : SV s = Ok r v <-> VTerm U v s r.
Proof. split; [apply single_value_sound|apply single_value_complete]. Qed.

Theorem old_body_spec s m : old_body U s = Ok [] m <-> exists l, m = Unmerged l /\ VDoc U l s.
Proof.
  unfold old_body, exact, terminated, VDoc. split.
  - intros H. apply bind_ok in H as (r & m' & H1 & H). apply bind_ok in H as (r2 & x & H2 & H). injection H as <- <-.
    unfold eof in H2. destruct r; [|discriminate]. injection H2 as <- <-. apply map_values_sound in H1. exact H1.
  - intros (l & -> & H). rewrite (map_values_complete _ _ _ H (or_introl eq_refl)). reflexivity.
Qed.
Lemma old_body_rest s r m : old_body U s = Ok r m -> r = [].
Proof.
  unfold old_body, exact, terminated. intros H. apply bind_ok in H as (r0 & m' & H1 & H). apply bind_ok in H as (r2 & x & H2 & H). injection H as <- <-.
  unfold eof in H2. destruct r0; [|discriminate]. injection H2 as <- <-. reflexivity.
Qed.
End WithTables.
