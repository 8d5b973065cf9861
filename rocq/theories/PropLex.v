(** * Property theorems: strings, heredocs, numbers, identifiers (C09-C13, C18, C19, C58) *)
From Verif Require Import Base Ast Grammar Nom NomFacts Lex WsFacts NumFacts StrFacts HeredocFacts Parser ParserFacts ExprProofs BodyProofs Locality
  DocProofs PanicProofs Printer PrinterProofs MoreProofs PropSyntax.

(** C09: any text can be written as a quoted string or as a quoted label. *)
Theorem C09_quoted_round_trip : forall U v,
  expression_parse U (lit """" ++ escape v ++ lit """") = OkR (EString (Owned v)).
Proof.
  intros U v. apply expression_parse_spec, GE_term. apply (GT_quoted U v (escape v ++ [34]) []).
  exact (escape_ok v [34]).
Qed.
Theorem C09_label_round_trip : forall U t v, IdentText U t ->
  parse_str U (t ++ lit " """ ++ escape_label v ++ lit """ {}") = OkR [Blk (Borrowed t) [LString v] []].
Proof.
  intros U t v Ht. apply parse_str_spec.
  apply (GB_cons U _ [] [] [] _ [] []); [constructor|constructor| |right; auto|apply (GB_nil U [] []); constructor].
  assert (HL : GLabels U [LString v] (lit " """ ++ escape_label v ++ lit """ {}") (lit "{}")).
  { pose proof (labels_text U [LString v] [quote (escape_label v)] [32] [125]) as HL. unfold quote in HL.
    cbn [flat_map app] in HL. rewrite <- !app_assoc in HL. apply HL; [|exact Iws_space].
    constructor; [|constructor]. apply (LT_string U v (escape_label v)). apply escape_label_ok. }
  eapply (GE_one_line_empty U _ _ []); [constructor| |exact HL]. apply GIdent_intro; [exact Ht|reflexivity].
Qed.
Print Assumptions C09_quoted_round_trip.
Print Assumptions C09_label_round_trip.
Example C09_nonvacuous : escape (lit "a""b\") = lit "a\""b\\" /\ escape_label (lit "a" ++ [10; 13]) = lit "a\n\r" /\
  IdentText ascii_ucd (lit "b").
Proof. split; [reflexivity|]. split; [reflexivity|]. eapply ident_ascii; reflexivity. Qed.

(** C10: a text starting with a double quote is accepted iff it spells some
    characters (plain ones and longest escape sequences denoting Unicode scalar
    values) up to a final double quote, and then denotes exactly these. *)
Theorem C10_quoted_exact : forall U s e, expression_parse U (lit """" ++ s) = OkR e <->
  exists v, e = EString (Owned v) /\ GChars Plain v s [34].
Proof.
  intros U s e. rewrite expression_parse_spec. change (lit """" ++ s) with (34 :: s). split.
  - intros H. apply GExpr_term in H; [|apply ws_rest_stop; lia]. remember (34 :: s) as D eqn:ED. remember (@nil N) as R eqn:ER.
    destruct H as [r|r|r|n t r Hn HL|v s' r H|v s' r H|l s' r H|l s' r H|e w1 w2 s' r H]; cbn [app] in ED; try discriminate ED.
    + exfalso. apply NumLit_first in Hn as (c & q & -> & Hc). injection ED as -> _. destruct Hc as [Hc|[Hc|[Hc|Hc]]]; discriminate.
    + injection ED as ->. subst. eauto.
    + exfalso. subst. inversion H.
  - intros (v & -> & H). apply GE_term. apply (GT_quoted U v s []). exact H.
Qed.
(** Each escape sequence denotes its character. *)
Theorem C10_escape_denotes : forall U n t, EscShape n t -> ScalarValue n ->
  expression_parse U (lit """\" ++ t ++ lit """") = OkR (EString (Owned [n])).
Proof.
  intros U n t Ht Hv. apply (C10_quoted_exact U ([92] ++ t ++ [34])). exists [n]. split; [reflexivity|].
  apply (GC_esc Plain n t [] [34] [34] Ht); [|exact Hv|constructor].
  split; [eauto|]. intros t' r' E [n' H']. destruct (Nat.le_gt_cases (length t') (length t)) as [Hl|Hl]; [exact Hl|exfalso].
  destruct (app_prefix_le t [34] t' r' E ltac:(lia)) as (z & -> & Ez). rewrite app_length in Hl.
  destruct z as [|c z]; [cbn in Hl; lia|]. injection Ez as <- Ez. symmetry in Ez. apply app_eq_nil in Ez as [-> ->].
  destruct t as [|c t]; [apply EscShape_nonempty in Ht; congruence|]. cbn [app] in H'.
  destruct (Esc_simple_head n' c (t ++ [34]) H') as [Ho|Hx]; [destruct t; discriminate| |].
  - apply Esc_oct in H' as [_ H']; [|exact Ho]. cbn [forallb] in H'. rewrite forallb_app in H'. cbn in H'. lia.
  - apply Esc_hex in H' as [_ H']; [|exact Hx]. rewrite forallb_app in H'. cbn in H'. lia.
Qed.
(** An unknown escape, or one that does not denote a Unicode scalar value, makes the
    parse fail. *)
Theorem C10_bad_escape_rejected : forall U p s, Forall Plain p ->
  (forall n t r, s = t ++ r -> EscShape n t -> Longest (fun t' => exists n', EscShape n' t') t r -> ~ ScalarValue n) ->
  forall e, expression_parse U (lit """" ++ p ++ lit "\" ++ s) <> OkR e.
Proof.
  intros U p s Hp Hs e H. apply C10_quoted_exact in H as (v & _ & H). change (lit "\" ++ s) with (92 :: s) in H. revert v H.
  induction Hp as [|c p [Hc1 Hc2] Hp IH]; intros v H.
  - cbn [app] in H. inversion H as [|c v' s' r Hc H' |n t v' s' r He HL Hv H']; subst.
    + destruct Hc; congruence.
    + specialize (Hs _ _ _ eq_refl He HL). congruence.
  - cbn [app] in H. inversion H as [r E1 E2|c' v' s' r Hc H' |n t v' s' r He HL Hv H']; subst; [|eapply IH; eassumption|congruence].
    destruct p; discriminate.
Qed.
Print Assumptions C10_quoted_exact.
Print Assumptions C10_escape_denotes.
Print Assumptions C10_bad_escape_rejected.
Example C10_nonvacuous :
  EscShape 233 (lit "xe9") /\ EscShape 128512 (lit "U1F600") /\ ScalarValue 128512 /\
  expression_parse ascii_ucd (lit """\q""") = ErrR (RCodePoint (lit "q""")) /\ expression_parse ascii_ucd (lit """\ud800""") = ErrR (RCodePoint (lit "ud800""")) /\
  expression_parse ascii_ucd (lit """\1234""") = OkR (EString (Owned [83; 52])).
Proof.
  split; [apply (Esc_x (lit "e9")); [cbn; lia|intros c [<-|[<-|[]]]; cbn; lia]|].
  split; [apply (Esc_U (lit "1F600")); [cbn; lia|intros c Hc; cbn in Hc; lia]|].
  split; [unfold ScalarValue; lia|]. repeat split; vm_compute; reflexivity.
Qed.

(** C11: an unindented heredoc denotes exactly the text between the marker line and
    the first closing line. *)
Theorem C11_heredoc_verbatim : forall U n m e content b t r b', IdentText U n -> MarkerText U m -> Eol e ->
  Closing m b t r ->
  (forall x y b' r', e ++ content = x ++ y -> y <> [] -> ~ Closing m b' (y ++ t) r') ->
  parse_str U r = OkR b' ->
  parse_str U (n ++ lit " = <<" ++ m ++ e ++ content ++ t) = OkR (Attr (Borrowed n) (EString (Borrowed content)) :: b').
Proof.
  intros U n m e content b t r b' Hn Hm He Hc HN Hb'. apply parse_str_spec in Hb'. apply parse_str_spec.
  pose proof (heredoc_value U n m [] e content b t r Hn Hm (or_introl eq_refl) He Hc HN (Borrowed content) eq_refl b' r eq_refl) as H.
  apply H. exact Hb'.
Qed.
(** The empty heredoc: the marker line is directly followed by the closing one. *)
Theorem C11_heredoc_empty : forall U n m d b t r b', IdentText U n -> MarkerText U m -> d = [] \/ d = lit "-" ->
  Closing m b t r -> parse_str U r = OkR b' ->
  parse_str U (n ++ lit " = <<" ++ d ++ m ++ t) = OkR (Attr (Borrowed n) (EString (Borrowed [])) :: b').
Proof. exact heredoc_empty_doc. Qed.
Print Assumptions C11_heredoc_verbatim.
Print Assumptions C11_heredoc_empty.
Example C11_nonvacuous :
  parse_str ascii_ucd (lit "a = <<EOF
 x\n ""
EOFx
  EOF
b = true") = OkR [Attr (Borrowed (lit "a")) (EString (Borrowed (lit " x\n ""
EOFx"))); Attr (Borrowed (lit "b")) (EBool true)].
Proof. vm_compute. reflexivity. Qed.

(** C12: REFUTED: the content line "x" under a closing marker indented by one
    panics. *)
Theorem C12_unindent_refuted : exists content,
  parse_str ascii_ucd (lit "a = <<-EOF
" ++ content ++ lit "
 EOF
") = PanicR.
Proof. exists (lit "x"). vm_compute. reflexivity. Qed.
(** What holds: the value is the content with every line unindented as [Unindent]
    says, whenever that is defined, and otherwise the parse panics; with an unindented
    closing marker the content is verbatim. *)
Theorem C12_unindent_partial : forall U n m e content b t r b', IdentText U n -> MarkerText U m -> Eol e ->
  Closing m b t r ->
  (forall x y b' r', e ++ content = x ++ y -> y <> [] -> ~ Closing m b' (y ++ t) r') ->
  parse_str U r = OkR b' ->
  (b = [] -> parse_str U (n ++ lit " = <<-" ++ m ++ e ++ content ++ t)
             = OkR (Attr (Borrowed n) (EString (Borrowed content)) :: b')) /\
  (b <> [] -> forall out, Unindent (length b) content out ->
     parse_str U (n ++ lit " = <<-" ++ m ++ e ++ content ++ t)
     = OkR (Attr (Borrowed n) (EString (Owned out)) :: b')) /\
  (b <> [] -> (forall out, ~ Unindent (length b) content out) ->
     parse_str U (n ++ lit " = <<-" ++ m ++ e ++ content ++ t) = PanicR).
Proof.
  intros U n m e content b t r b' Hn Hm He Hc HN Hb'. apply parse_str_spec in Hb'.
  assert (HE : n ++ lit " = <<-" ++ m ++ e ++ content ++ t = n ++ lit " = <<" ++ [45] ++ m ++ e ++ content ++ t) by reflexivity.
  split; [|split].
  - intros ->. apply parse_str_spec. rewrite HE.
    apply (heredoc_value U n m [45] e content [] t r Hn Hm (or_intror eq_refl) He Hc HN (Borrowed content) eq_refl b' r eq_refl), Hb'.
  - intros Hb out Ho. apply parse_str_spec. rewrite HE.
    apply (heredoc_value U n m [45] e content b t r Hn Hm (or_intror eq_refl) He Hc HN (Owned out)) with (s2 := r); [|reflexivity|exact Hb'].
    destruct b; [congruence|]. exists out. auto.
  - intros Hb Ho. apply (heredoc_panic U n m e content b t r Hn Hm He Hc HN Hb). intros (out & H). exact (Ho out H).
Qed.
(** Lines indented at least as much as the marker lose exactly that much. *)
Theorem C12_unindent_full_lines : forall n ls, (forall l, In l ls -> ~ In 10 l) -> ls <> [] ->
  Unindent n (unlines (map (fun l => repeat 32 n ++ l) ls)) (unlines ls).
Proof.
  intros n ls H Hne. exists (map (fun l => repeat 32 n ++ l) ls), ls. split; [destruct ls; [congruence|discriminate]|].
  split; [|split; [reflexivity|split; [reflexivity|]]].
  - intros l Hl. apply in_map_iff in Hl as (l' & <- & Hl'). rewrite in_app_iff. intros [Hi|Hi]; [|exact (H _ Hl' Hi)].
    apply repeat_spec in Hi. discriminate.
  - clear. induction ls; constructor; [constructor|assumption].
Qed.
Print Assumptions C12_unindent_refuted.
Print Assumptions C12_unindent_partial.
Print Assumptions C12_unindent_full_lines.
Example C12_nonvacuous :
  parse_str ascii_ucd (lit "a = <<-EOF
    x
   y
 zz
   EOF
") = OkR [Attr (Borrowed (lit "a")) (EString (Owned (lit " x
y
zz")))].
Proof. vm_compute. reflexivity. Qed.

(** C13: a number literal parses to its own text, split in its parts; conversely a
    text denoting a number is its literal (possibly inside parentheses). *)
Theorem C13_number_literal : forall U n t, NumLit n t ->
  expression_parse U t = OkR (ENumber n) /\ cow_str (num_input n) = t.
Proof.
  intros U n t H. split; [|apply NumLit_input, H]. apply expression_parse_spec. rewrite <- (app_nil_r t).
  apply GE_term, GT_number; [exact H|]. apply (Longest_number n t [] H). apply Delim_follow. exact I.
Qed.
Theorem C13_number_text : forall U t n, expression_parse U t = OkR (ENumber n) ->
  exists x y, t = x ++ cow_str (num_input n) ++ y /\ NumLit n (cow_str (num_input n)) /\
    (x = [] -> y = []) /\ (x <> [] -> exists w x', x = w ++ lit "(" ++ x' /\ Ws w).
Proof.
  intros U t n H. apply expression_parse_spec in H. unfold GWholeExpr in H.
  destruct (number_inv U _ _ _ H n eq_refl) as (x & y & E & Hn & H1 & H2). rewrite app_nil_r in E.
  exists x, y. split; [exact E|]. split; [exact Hn|]. split; [intros Hx; apply (H1 Hx)|exact H2].
Qed.
(** The lexical parser takes the longest literal. *)
Theorem C13_longest : forall s r n, number s = Ok r n <-> exists t, s = t ++ r /\ NumLit n t /\ Longest NumberText t r.
Proof. exact number_spec. Qed.
Print Assumptions C13_number_literal.
Print Assumptions C13_number_text.
Print Assumptions C13_longest.
Example C13_nonvacuous : NumLit (mk_number (Borrowed (lit "-12.5e+3")) false (Some (Borrowed (lit "12"))) (Some (Borrowed (lit "5")))
    (Some (mk_exponent true (Borrowed (lit "3"))))) (lit "-12.5e+3").
Proof.
  apply (NL false (lit "-") (Some (lit "12")) (Some (lit "5")) (lit "12.5") (Some (mk_exponent true (Borrowed (lit "3")))) (lit "e+3")).
  - constructor.
  - apply (M_dec (lit "12") (lit "5")); [discriminate|intros c [<-|[<-|[]]]; cbn; lia|intros c [<-|[]]; cbn; lia].
  - apply (X_some 101 true (lit "+") (lit "3")); [auto|constructor|discriminate|intros c [<-|[]]; cbn; lia].
Qed.

(** C18: identifiers. *)
Theorem C18_identifier_exact : forall U t,
  parse_str U (t ++ lit " = null") = OkR [Attr (Borrowed t) ENull] <->
  exists c cs, t = c :: cs /\ (IdStart U c \/ c = 95) /\
    forall d, In d cs -> IdContinue U d \/ d = 45.
Proof.
  intros U t. change (parse_str U (t ++ lit " = null") = OkR [Attr (Borrowed t) ENull] <-> IdentText U t). split.
  - intros H. apply parse_str_spec in H. inversion H as [|el b w i s s1 s2 r Hw Hi He Hs Hb]; subst.
    inversion He as [i' e s' r Ha| | |]; subst. inversion Ha as [i0 e0 i1 i2 s3 s4 r0 _ _ Hid _]; subst.
    destruct Hid as (t' & [= <-] & _ & [Ht _]). exact Ht.
  - intros H. apply (C62_attribute_of_expression U t ENull (lit "null") [32] [32] H Iws_space Iws_space). reflexivity.
Qed.
Theorem C18_identifier_longest : forall U s r i, identifier U s = Ok r i <->
  exists t, i = Borrowed t /\ s = t ++ r /\ Longest (IdentText U) t r.
Proof. exact identifier_ok. Qed.
Print Assumptions C18_identifier_exact.
Print Assumptions C18_identifier_longest.
Example C18_nonvacuous : parse_str ascii_ucd (lit "_a-1 = null") = OkR [Attr (Borrowed (lit "_a-1")) ENull] /\
  parse_str ascii_ucd (lit "-a = null") = ErrR (RParse (Some (lit "-a = null"))).
Proof. split; vm_compute; reflexivity. Qed.

(** C19: keywords. *)
Theorem C19_keyword_value : forall U k v s e,
  (k, v) = (lit "null", ENull) \/ (k, v) = (lit "true", EBool true) \/ (k, v) = (lit "false", EBool false) ->
  (expression_parse U (k ++ s) = OkR e <-> s = [] /\ e = v).
Proof.
  intros U k v s e H. rewrite expression_parse_spec. apply keyword_whole.
  destruct H as [[= -> ->]|[[= -> ->]|[= -> ->]]]; unfold keyword; auto.
Qed.
Theorem C19_keyword_as_name : forall U k v,
  (k, v) = (lit "null", ENull) \/ (k, v) = (lit "true", EBool true) \/ (k, v) = (lit "false", EBool false) ->
  parse_str U (k ++ lit " = " ++ k) = OkR [Attr (Borrowed k) v].
Proof.
  intros U k v H.
  assert (HK : keyword k v) by (destruct H as [[= -> ->]|[[= -> ->]|[= -> ->]]]; unfold keyword; auto).
  apply (C62_attribute_of_expression U k v k [32] [32]); [eapply keyword_ident, HK|exact Iws_space|exact Iws_space|].
  rewrite <- (app_nil_r k). apply (C19_keyword_value U k v); auto.
Qed.
Theorem C19_keyword_prefix_rejected : forall U n k v c s b, IdentText U n ->
  (k, v) = (lit "null", ENull) \/ (k, v) = (lit "true", EBool true) \/ (k, v) = (lit "false", EBool false) ->
  IdContinue U c \/ c = 45 ->
  parse_str U (n ++ lit " = " ++ k ++ [c] ++ s) <> OkR b.
Proof.
  intros U n k v c s b Hn H Hc HP.
  assert (HK : keyword k v) by (destruct H as [[= -> ->]|[[= -> ->]|[= -> ->]]]; unfold keyword; auto).
  apply (C28_after_attribute U n _ _ _ b Hn (keyword_term U k v ([c] ++ s) HK)) in HP as (b' & s2 & i & s1 & _ & Er & Hi & Hs & _).
  assert (HD : Delim (c :: s)).
  { eapply (ElemEnd_delim (c :: s) s2). exists i, s1. auto. }
  apply (delim_not_id_char U) in HD. apply id_char_spec in Hc. congruence.
Qed.
Print Assumptions C19_keyword_value.
Print Assumptions C19_keyword_as_name.
Print Assumptions C19_keyword_prefix_rejected.
Example C19_nonvacuous : parse_str ascii_ucd (lit "a = truest") = ErrR (RParse (Some (lit "a = truest"))) /\
  parse_str ascii_ucd (lit "truest = true") = OkR [Attr (Borrowed (lit "truest")) (EBool true)].
Proof. split; vm_compute; reflexivity. Qed.

(** C58: [take_till_match!] on strings. *)
Theorem C58_take_till_match_first : forall A (p : parser A) s r a v,
  take_till_match p s = Ok r (a, v) <->
  exists t, s = a ++ t /\ t <> [] /\ p t = Ok r v /\
    forall x y, a = x ++ y -> y <> [] -> p (y ++ t) = Err \/ (exists q, p (y ++ t) = Fail q).
Proof. exact @take_till_match_ok. Qed.
Theorem C58_take_till_match_error : forall A (p : parser A) s,
  (forall x, p x = Err \/ (exists q, p x = Fail q) \/ exists r v, p x = Ok r v) ->
  (take_till_match p s = Err <-> forall a t, s = a ++ t -> t <> [] -> p t = Err \/ (exists q, p t = Fail q)).
Proof. exact @take_till_match_err. Qed.
Print Assumptions C58_take_till_match_first.
Print Assumptions C58_take_till_match_error.
Example C58_nonvacuous : take_till_match eol (lit "ab" ++ [10] ++ lit "c") = Ok (lit "c") (lit "ab", [10]) /\
  take_till_match eol (lit "ab") = Err /\
  (forall x, eol x = Err \/ (exists q, eol x = Fail q) \/ exists r v, eol x = Ok r v).
Proof.
  split; [reflexivity|]. split; [reflexivity|]. intros x. unfold eol, alt.
  destruct (simple_tag [c_lf] x) as [(r & v & E)|E]; rewrite E; [eauto|].
  destruct (simple_tag [c_cr; c_lf] x) as [(r & v & E2)|E2]; rewrite E2; eauto.
Qed.
