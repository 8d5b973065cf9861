(** * PrinterProofs: every way of writing a tree parses back to it *)
From Verif Require Import Base Nom NomFacts Ast Lex Grammar WsFacts NumFacts StrFacts HeredocFacts
  Parser ParserFacts ExprProofs BodyProofs Locality DocProofs Printer.

(** ** Escaping *)
Lemma GC_escape P v s r n c : EscShape n [c] -> is_oct_digit c = false -> c <> 120 -> c <> 117 -> c <> 85 ->
  ScalarValue n -> GChars P v s r -> GChars P (n :: v) (92 :: c :: s) r.
Proof.
  intros He Ho H1 H2 H3 Hv H. apply (GC_esc P n [c] v s r He); [|exact Hv|exact H].
  apply Longest_single; try assumption. exists n. exact He.
Qed.
Lemma escape_ok v r : GChars Plain v (escape v ++ r) r.
Proof.
  induction v as [|c v IH]; [constructor|]. cbn [escape flat_map]. unfold escape_char at 1.
  destruct (N.eqb_spec c 92) as [->|H1]; [|destruct (N.eqb_spec c 34) as [->|H2]].
  - apply GC_escape; try reflexivity; try discriminate; try (unfold ScalarValue; lia); [constructor|exact IH].
  - apply GC_escape; try reflexivity; try discriminate; try (unfold ScalarValue; lia); [constructor|exact IH].
  - cbn [app]. apply GC_char; [split; assumption|exact IH].
Qed.
Lemma escape_label_ok v r : GChars PlainLine v (escape_label v ++ r) r.
Proof.
  induction v as [|c v IH]; [constructor|]. cbn [escape_label flat_map]. unfold escape_label_char at 1, escape_char at 1.
  destruct (N.eqb_spec c 10) as [->|H3]; [|destruct (N.eqb_spec c 13) as [->|H4];
    [|destruct (N.eqb_spec c 92) as [->|H1]; [|destruct (N.eqb_spec c 34) as [->|H2]]]].
  - apply GC_escape; try reflexivity; try discriminate; try (unfold ScalarValue; lia); [constructor|exact IH].
  - apply GC_escape; try reflexivity; try discriminate; try (unfold ScalarValue; lia); [constructor|exact IH].
  - apply GC_escape; try reflexivity; try discriminate; try (unfold ScalarValue; lia); [constructor|exact IH].
  - apply GC_escape; try reflexivity; try discriminate; try (unfold ScalarValue; lia); [constructor|exact IH].
  - cbn [app]. apply GC_char; [repeat split; assumption|exact IH].
Qed.

Section WithTables.
Context (U : ucd).

Lemma Fill_app ps qs s : Fill (ps ++ qs) s -> exists a b, s = a ++ b /\ Fill ps a /\ Fill qs b.
Proof.
  revert s; induction ps as [|p ps IH]; intros s H; cbn [app] in H.
  - exists [], s. split; [reflexivity|]. split; [constructor|exact H].
  - inversion H as [|p' ps' g s' Hg Hs]; subst. apply IH in Hs as (a & b & -> & Ha & Hb).
    exists (g ++ a), b. rewrite app_assoc. split; [reflexivity|]. split; [constructor; assumption|exact Hb].
Qed.
Lemma Fill_cons_inv p ps s : Fill (p :: ps) s -> exists g s', s = g ++ s' /\ FillGap p g /\ Fill ps s'.
Proof. intros H. inversion H; subst; eauto. Qed.
Lemma Fill_tok t g : FillGap (T t) g -> g = t.
Proof. intros H; inversion H; reflexivity. Qed.
Lemma Fill_nil_inv s : Fill [] s -> s = [].
Proof. intros H; inversion H; reflexivity. Qed.

(** [t] is a text of [e] wherever a delimiter follows. *)
Definition TextOf (e : expr) (t : str) : Prop := forall r, Delim r -> GExpr U e (t ++ r) r.

Ltac fill H :=
  repeat match type of H with
  | Fill (T _ :: _) _ => let g := fresh "gt" in let s := fresh "s" in let Hg := fresh "Ht" in
      apply Fill_cons_inv in H as (g & s & -> & Hg & H); apply Fill_tok in Hg; subst g
  | Fill (_ :: _) _ => let g := fresh "gap" in let s := fresh "s" in let Hg := fresh "Hgap" in
      apply Fill_cons_inv in H as (g & s & -> & Hg & H)
  | Fill [] _ => apply Fill_nil_inv in H; subst
  end.
Lemma Fill_ws g : FillGap Gws g -> Ws g.
Proof. intros H; inversion H; assumption. Qed.
Lemma Fill_iws g : FillGap Giws g -> Iws g.
Proof. intros H; inversion H; assumption. Qed.

Lemma tuple_fill l : Forall (fun e => ValidExpr U e -> forall s, Fill (shape_expr e) s -> TextOf e s) l ->
  Forall (ValidExpr U) l -> l <> [] ->
  forall s w, Ws w -> Fill (sep_by [Gws; T [44]; Gws] (map shape_expr l)) s ->
  forall tail r, (Ws tail \/ exists w1 w2, Ws w1 /\ Ws w2 /\ tail = w1 ++ [44] ++ w2) ->
  GItems U l (w ++ s ++ tail ++ [93] ++ r) r.
Proof.
  induction l as [|e l IH]; intros HP HV Hne s w Hw H tail r Ht; [congruence|].
  inversion HP as [|x y HPe HPl]; subst. inversion HV as [|x y HVe HVl]; subst. destruct l as [|e' l].
  - cbn [map sep_by] in H. apply (HPe HVe) in H.
    destruct Ht as [Ht|(w1 & w2 & Hw1 & Hw2 & ->)].
    + apply (GI_last U e w tail); [exact Hw|exact Ht|]. apply H. apply Delim_ws; [exact Ht|reflexivity].
    + rewrite <- !app_assoc. apply (GI_last_comma U e w w1 w2); [exact Hw|exact Hw1|exact Hw2|]. apply H.
      apply Delim_ws; [exact Hw1|reflexivity].
  - change (Fill (shape_expr e ++ [Gws; T [44]; Gws] ++ sep_by [Gws; T [44]; Gws] (map shape_expr (e' :: l))) s) in H.
    apply Fill_app in H as (a & b & -> & Ha & H). apply Fill_app in H as (g & b' & -> & Hg & Hb). fill Hg.
    apply Fill_ws in Hgap, Hgap0. rewrite <- !app_assoc. cbn [app].
    apply (GI_cons U e e' l w gap _ (gap0 ++ b' ++ tail ++ [93] ++ r)); [exact Hw|exact Hgap| |].
    + apply (HPe HVe _ Ha). apply Delim_ws; [exact Hgap|reflexivity].
    + apply IH; try assumption. discriminate.
Qed.

Definition shape_member (kv : okey * expr) : list piece :=
  [T (shape_key (fst kv)); Giws; T [61]; Giws] ++ shape_expr (snd kv).

Lemma ValidKey_text k : ValidKey U k -> KeyText U k (shape_key k).
Proof.
  intros [i Hi|e c t Ht Hc1 Hc2]; cbn [shape_key cow_str]; [constructor; exact Hi|].
  eapply KT_expr; [exact Ht|reflexivity|]. destruct (id_first U c) eqn:E; [|reflexivity].
  apply id_first_spec in E as [E|E]; congruence.
Qed.

Lemma member_fill k e : (ValidExpr U e -> forall s, Fill (shape_expr e) s -> TextOf e s) ->
  ValidKey U k -> ValidExpr U e -> forall s, Fill (shape_member (k, e)) s ->
  forall w i3 s3 s4 l r, Ws w -> Iws i3 -> Delim s3 ->
  (s3 = [44] ++ s4 \/ (exists n, LineEnd n /\ s3 = n ++ s4) \/ (s3 = s4 /\ FirstIs 125 s3)) ->
  GMembers U l s4 r -> GMembers U ((k, e) :: l) (w ++ s ++ i3 ++ s3) r.
Proof.
  intros HP Hk He s H w i3 s3 s4 l r Hw Hi3 Hd Hsep Hm.
  apply Fill_app in H as (a & b & -> & Ha & Hb). cbn [fst snd] in *. fill Ha.
  apply Fill_iws in Hgap, Hgap0. rewrite <- !app_assoc. cbn [app].
  eapply (GM_cons U k e l w gap gap0 i3 _ _ s3 s4 r); try assumption.
  - apply KeyText_spec; [apply ValidKey_text, Hk|]. apply Delim_iws; [exact Hgap|reflexivity].
  - cbn [app]. apply (HP He _ Hb). apply Delim_iws; [exact Hi3|exact Hd].
Qed.

Lemma object_fill l : Forall (fun kv => ValidExpr U (snd kv) -> forall s, Fill (shape_expr (snd kv)) s -> TextOf (snd kv) s) l ->
  Forall (fun kv => ValidKey U (fst kv) /\ ValidExpr U (snd kv)) l -> l <> [] ->
  forall s w, Ws w -> Fill (sep_by [Gsep] (map shape_member l)) s ->
  forall i r, Iws i -> GMembers U l (w ++ s ++ i ++ [125] ++ r) r.
Proof.
  induction l as [|[k e] l IH]; intros HP HV Hne s w Hw H i r Hi; [congruence|].
  inversion HP as [|x y HPe HPl]; subst. inversion HV as [|x y [HVk HVe] HVl]; subst. destruct l as [|kv l].
  - cbn [map sep_by] in H. eapply member_fill; try eassumption.
    + reflexivity.
    + right; right. split; [reflexivity|eexists; reflexivity].
    + apply (GM_nil U [] r). constructor.
  - change (Fill (shape_member (k, e) ++ [Gsep] ++ sep_by [Gsep] (map shape_member (kv :: l))) s) in H.
    apply Fill_app in H as (a & b & -> & Ha & H). apply Fill_app in H as (g & b' & -> & Hg & Hb).
    apply Fill_cons_inv in Hg as (g' & s' & -> & Hg & Hs). apply Fill_nil_inv in Hs as ->. rewrite app_nil_r.
    inversion Hg as [| | | | |i0 w0 Hi0 Hw0|i0 n w0 Hi0 Hn Hw0| | | |]; subst; rewrite <- !app_assoc.
    + eapply (member_fill k e HPe HVk HVe a Ha w i0 _ (w0 ++ b' ++ i ++ [125] ++ r)); try assumption.
      * reflexivity.
      * left. reflexivity.
      * apply IH; try assumption. discriminate.
    + eapply (member_fill k e HPe HVk HVe a Ha w i0 _ (w0 ++ b' ++ i ++ [125] ++ r)); try assumption.
      * apply Delim_LineEnd, Hn.
      * right; left. exists n. auto.
      * apply IH; try assumption. discriminate.
Qed.

Lemma expr_fill e : ValidExpr U e -> forall s, Fill (shape_expr e) s -> TextOf e s.
Proof.
  induction e as [|n|b|v|l IH|l IH] using expr_ind'; intros HV s H r Hr.
  - cbn [shape_expr] in H. fill H. rewrite app_nil_r. apply GE_term, GT_null.
  - inversion HV as [| |n' t Hn| | |]; subst. cbn [shape_expr] in H. fill H. rewrite app_nil_r.
    apply GE_term. assert (Et : cow_str (num_input n) = t) by (destruct Hn; reflexivity). rewrite Et.
    apply GT_number; [exact Hn|]. apply (Longest_number n); [exact Hn|apply Delim_follow, Hr].
  - destruct b; cbn [shape_expr] in H; fill H; rewrite app_nil_r; apply GE_term; constructor.
  - inversion HV as [| | |v'| |]; subst. cbn [shape_expr cow_str] in H. fill H. rewrite app_nil_r.
    unfold quote. rewrite <- !app_assoc. apply GE_term, GT_quoted. apply escape_ok.
  - inversion HV as [| | | |l' Hl|]; subst. apply GE_term. destruct l as [|e l].
    + cbn [shape_expr] in H. fill H. rewrite <- !app_assoc. apply GT_tuple, GI_nil. apply Fill_ws, Hgap.
    + change (Fill ([T [91]; Gws] ++ sep_by [Gws; T [44]; Gws] (map shape_expr (e :: l)) ++ [Gcomma; T [93]]) s) in H.
      apply Fill_app in H as (a & b & -> & Ha & H). fill Ha. apply Fill_ws in Hgap. rewrite app_nil_r.
      apply Fill_app in H as (c & b' & -> & Hc & H). fill H. rewrite <- !app_assoc. cbn [app]. apply (GT_tuple U (e :: l)).
      apply tuple_fill; try assumption; [discriminate|].
      inversion Hgap0; subst; [left; assumption|]. right. eauto.
  - inversion HV as [| | | | |l' Hl]; subst. apply GE_term. destruct l as [|kv l].
    + cbn [shape_expr] in H. fill H. rewrite <- !app_assoc. apply GT_object, GM_nil. apply Fill_ws, Hgap.
    + change (Fill ([T [123]; Gws] ++ sep_by [Gsep] (map shape_member (kv :: l)) ++ [Giws; T [125]]) s) in H.
      apply Fill_app in H as (a & b & -> & Ha & H). fill Ha. apply Fill_ws in Hgap. rewrite app_nil_r.
      apply Fill_app in H as (c & b' & -> & Hc & H). fill H. rewrite <- !app_assoc. cbn [app]. apply (GT_object U (kv :: l)).
      apply object_fill; try assumption; [discriminate|]. apply Fill_iws, Hgap0.
Qed.

(** ** Labels, elements, documents *)
Lemma labels_fill ls : Forall (ValidLabel U) ls -> forall s i r, Fill (flat_map shape_label ls) s -> Iws i ->
  stops (id_char U) (s ++ i ++ 123 :: r) /\ GLabels U ls (s ++ i ++ 123 :: r) (123 :: r).
Proof.
  intros H. induction H as [|l ls Hl H IH]; intros s i r Hs Hi.
  - cbn in Hs. fill Hs. cbn [app]. split; [apply Delim_stops, Delim_iws; [exact Hi|reflexivity]|constructor; exact Hi].
  - cbn [flat_map] in Hs. apply Fill_app in Hs as (a & b & -> & Ha & Hb).
    destruct (IH b i r Hb Hi) as [HS HG]. destruct Hl as [t Ht|v]; cbn [shape_label cow_str] in Ha; fill Ha; rewrite app_nil_r, <- !app_assoc.
    + inversion Hgap as [| | |w Hw Hw1 E1 E2| | | | | | |]; subst. split.
      * apply Delim_stops. destruct Hw; [congruence| |]; [destruct H0 as [->| ->]; reflexivity|destruct H0; reflexivity].
      * eapply GLs_cons; [exact Hw| |exact HG]. constructor. exists t. split; [reflexivity|]. split; [reflexivity|].
        apply Longest_ident. split; [exact Ht|exact HS].
    + apply Fill_iws in Hgap. split; [apply Delim_stops, Delim_iws; [exact Hgap|reflexivity]|].
      eapply GLs_cons; [exact Hgap| |exact HG]. unfold quote. rewrite <- !app_assoc. constructor. apply escape_label_ok.
Qed.

Definition ElemTextOf (el : element) (t : str) : Prop := forall r, Delim r -> GElem U el (t ++ r) r.

Lemma body_fill b : Forall (fun el => ValidElem U el -> forall s, Fill (shape_elem el) s -> ElemTextOf el s) b ->
  Forall (ValidElem U) b -> forall s r, Fill (flat_map (fun el => shape_elem el ++ [Gend]) b) s ->
  GBody U b (s ++ r) r.
Proof.
  induction b as [|el b IH]; intros HP HV s r H.
  - cbn in H. fill H. apply (GB_nil U [] r). constructor.
  - inversion HP as [|x y HPe HPl]; subst. inversion HV as [|x y HVe HVl]; subst. cbn [flat_map] in H.
    apply Fill_app in H as (a & c & -> & Ha & Hc). apply Fill_app in Ha as (a' & g & -> & Ha & Hg).
    apply Fill_cons_inv in Hg as (g' & s' & -> & Hg & Hs). apply Fill_nil_inv in Hs as ->. rewrite app_nil_r.
    inversion Hg as [| | | |i n w Hi Hn Hw| | | | | |]; subst. rewrite <- !app_assoc.
    apply (GB_cons U el b [] i (a' ++ i ++ n ++ w ++ c ++ r) (n ++ w ++ c ++ r) (w ++ c ++ r) r); [constructor|exact Hi| | |].
    + apply (HPe HVe a' Ha). apply Delim_iws; [exact Hi|apply Delim_LineEnd, Hn].
    + left. exists n. auto.
    + apply (GBody_ws U); [exact Hw|]. apply IH; assumption.
Qed.

Lemma elem_fill el : ValidElem U el -> forall s, Fill (shape_elem el) s -> ElemTextOf el s.
Proof.
  induction el as [n v|t ls b IH] using element_ind'; intros HV s H r Hr.
  - inversion HV as [n' v' Hn Hv|]; subst.
    change (Fill ([T n0; Giws; T [61]; Giws] ++ shape_expr v) s) in H || idtac.
    cbn [shape_elem cow_str] in H. apply Fill_app in H as (a & c & -> & Ha & Hc). fill Ha. apply Fill_iws in Hgap, Hgap0.
    rewrite <- !app_assoc. cbn [app]. apply GE_attr. eapply (GA U _ _ gap gap0); [exact Hgap|exact Hgap0| |].
    + apply GIdent_intro; [exact Hn|]. apply Delim_iws; [exact Hgap|reflexivity].
    + apply (expr_fill v Hv); assumption.
  - inversion HV as [|t' ls' b' Ht Hls Hb]; subst. cbn [shape_elem cow_str] in H.
    apply Fill_app in H as (a & c & -> & Ha & H). fill Ha. rewrite app_nil_r.
    apply Fill_app in H as (a & c' & -> & Ha & H). 
    apply Fill_app in H as (a2 & c'' & -> & Ha2 & H).
    apply Fill_app in H as (a3 & c3 & -> & Ha3 & H). fill Ha2. fill H. apply Fill_iws in Hgap.
    inversion Hgap0 as [| | | |i n w Hi Hn Hw| | | | | |]; subst. rewrite <- !app_assoc. cbn [app].
    destruct (labels_fill ls Hls a gap (i ++ n ++ w ++ a3 ++ 125 :: r) Ha Hgap) as [HS HG].
    eapply (GE_block U _ _ _ i n); [exact Hi|exact Hn| |exact HG|].
    + exists t'. split; [reflexivity|]. split; [reflexivity|]. apply Longest_ident. split; assumption.
    + cbn [app]. apply (GBody_ws U); [exact Hw|]. apply body_fill; assumption.
Qed.

Theorem doc_fill b s : ValidDoc U b -> Fill (shape_doc b) s -> GConfig U b s.
Proof.
  intros HV H. unfold shape_doc in H. apply Fill_app in H as (w & c & -> & Hw & H). fill Hw. apply Fill_ws in Hgap.
  rewrite app_nil_r. apply (GBody_ws U); [exact Hgap|]. clear gap Hgap. destruct b as [|el b].
  - fill H. apply (GB_nil U [] []). constructor.
  - apply Fill_app in H as (a & c' & -> & Ha & H). fill H. rewrite app_nil_r.
    assert (Hfin : forall el a, ValidElem U el -> Fill (shape_elem el) a -> GConfig U [el] (a ++ gap)).
    { intros el0 a0 HVe Hf. pose proof (elem_fill el0 HVe a0 Hf) as HT.
      inversion Hgap as [| | | | | | | | |i Hi|i n w Hi Hn Hw]; subst.
      - apply (GB_cons U el0 [] [] gap _ [] []); [constructor|exact Hi| |right; auto|apply (GB_nil U [] []); constructor].
        rewrite app_nil_r. apply HT. rewrite <- (app_nil_r gap). apply Delim_iws; [exact Hi|exact I].
      - apply (GB_cons U el0 [] [] i _ (n ++ w) w); [constructor|exact Hi| |left; eauto|rewrite <- (app_nil_r w); apply (GB_nil U w []), Hw].
        apply HT. apply Delim_iws; [exact Hi|apply Delim_LineEnd, Hn]. }
    clear Hgap. revert el a HV Ha. induction b as [|el' b IH]; intros el a HV Ha;
      inversion HV as [|x y HVe HVl]; subst.
    + cbn [map sep_by] in Ha. apply Hfin; assumption.
    + change (Fill (shape_elem el ++ [Gend] ++ sep_by [Gend] (map shape_elem (el' :: b))) a) in Ha.
      apply Fill_app in Ha as (a1 & a2 & -> & Ha1 & Ha). apply Fill_app in Ha as (ge & a3 & -> & Hge & Ha). fill Hge.
      rewrite app_nil_r. inversion Hgap as [| | | |i n w Hi Hn Hw| | | | | |]; subst. rewrite <- !app_assoc.
      apply (GB_cons U el (el' :: b) [] i _ (n ++ w ++ a3 ++ gap) (w ++ a3 ++ gap) []); [constructor|exact Hi| |left; eauto|].
      * apply (elem_fill el HVe a1 Ha1). apply Delim_iws; [exact Hi|apply Delim_LineEnd, Hn].
      * apply (GBody_ws U); [exact Hw|]. apply IH; assumption.
Qed.

Lemma canon_fill ps : Fill ps (flat_map canon_gap ps).
Proof.
  induction ps as [|p ps IH]; [constructor|]. cbn [flat_map]. constructor; [|exact IH].
  assert (H0 : Iws [32]) by apply Iws_space.
  assert (H1 : LineEnd [10]) by repeat constructor.
  destruct p; cbn [canon_gap].
  - constructor.
  - constructor. constructor.
  - constructor. exact H0.
  - constructor; [exact H0|discriminate].
  - apply (F_end [] [10] []); [constructor|exact H1|constructor].
  - apply (F_sep_comma [] [32]); [constructor|apply Iws_Ws, H0].
  - apply F_comma_no. constructor.
  - apply (F_fin_yes [] [10] []); [constructor|exact H1|constructor].
Qed.
End WithTables.
