(** * Property theorems: concrete syntax (C01-C08, C23-C28, C60, C61)
    Only statements, with witnesses that the hypotheses can be met; the proofs are
    in the [*Proofs.v] files.  [parse_str] and [expression_parse] are the models of
    [parser::parse_str] and [Expression::parse]; [GConfig], [GWholeExpr], [Ws],
    [LineEnd] ... are the specification in Grammar.v. *)
From Verif Require Import Base Ast Grammar Nom Lex NumFacts Parser ParserFacts ExprProofs BodyProofs Locality
  DocProofs PanicProofs Printer PrinterProofs MoreProofs Reprint.

(** C01: [parse_str] accepts exactly the documents of the grammar, and returns
    the tree the grammar assigns to them. *)
Theorem C01_parse_str_grammar : forall (U : ucd) (s : str) (b : body_t),
  parse_str U s = OkR b <-> GConfig U b s.
Proof. exact parse_str_spec. Qed.
Print Assumptions C01_parse_str_grammar.

Example C01_nonvacuous :
  parse_str ascii_ucd (lit "a = 1 # c
b ""l"" {
  c = [true, null]
}
") = OkR [Attr (Borrowed (lit "a")) (ENumber (mk_number (Borrowed (lit "1")) true (Some (Borrowed (lit "1"))) None None));
          Blk (Borrowed (lit "b")) [LString (lit "l")]
            [Attr (Borrowed (lit "c")) (ETuple [EBool true; ENull])]].
Proof. vm_compute. reflexivity. Qed.

(** C02: the recursion bounds of the model are never reached: parsing always ends,
    and giving more fuel never changes the outcome.  (The [Value::from_str] part
    is in PropValue.v.) *)
Theorem C02_parse_str_terminates : forall U s, parse_str U s <> Diverges.
Proof. exact parse_str_total. Qed.
Theorem C02_expression_terminates : forall U s, expression_parse U s <> Diverges.
Proof. exact expression_parse_total. Qed.
Theorem C02_fuel_irrelevant : forall U s fuel, (length s < fuel)%nat ->
  body_f U fuel s = body U s /\ expression_f U fuel s = expression U s.
Proof. intros U s fuel H. split; [exact (body_enough U fuel s H)|exact (expression_enough U fuel s H)]. Qed.
Print Assumptions C02_parse_str_terminates.
Print Assumptions C02_expression_terminates.
Print Assumptions C02_fuel_irrelevant.

(** C03: REFUTED.  An indented heredoc panics in string.rs:66-77. *)
Definition panic_doc : str := lit "a = <<-EOF
x
 EOF
".
Theorem C03_no_panic_refuted : exists s, parse_str ascii_ucd s = PanicR.
Proof. exists panic_doc. vm_compute. reflexivity. Qed.
(** What holds: a document without "<<-" never panics, and a panic always comes
    from a "<<-" heredoc with a line that cannot be unindented. *)
Theorem C03_no_panic_partial : forall U s, (forall x y, s <> x ++ lit "<<-" ++ y) ->
  parse_str U s <> PanicR /\ expression_parse U s <> PanicR.
Proof.
  intros U s H. split; intros E; [apply parse_str_panic in E|apply expression_parse_panic in E];
    apply PanicAt_shape in E as (x & m & e & content & b & t & r & E & _); exact (H _ _ E).
Qed.
Theorem C03_panic_cause : forall U s, parse_str U s = PanicR ->
  exists x m e content b t r,
    s = x ++ lit "<<-" ++ m ++ e ++ content ++ t /\ MarkerText U m /\ Eol e /\ Closing m b t r /\ b <> [] /\
    (forall p y b' r', e ++ content = p ++ y -> y <> [] -> ~ Closing m b' (y ++ t) r') /\
    ~ exists out, Unindent (length b) content out.
Proof. intros U s H. exact (PanicAt_shape U s (parse_str_panic U s H)). Qed.
Print Assumptions C03_no_panic_refuted.
Print Assumptions C03_no_panic_partial.
Print Assumptions C03_panic_cause.

(** C04: nothing is skipped.  The [Error::Bug] outcome is unreachable, and an
    accepted input is, as a whole, a document of the grammar (C01). *)
Theorem C04_no_bug : forall U s, parse_str U s <> ErrR RBug.
Proof. exact parse_str_no_bug. Qed.
(** Every accepted document is cut into consecutive pieces, one per element,
    each of which parses to that element alone. *)
Theorem C04_every_character_accounted : forall U s b, parse_str U s = OkR b ->
  exists ds, s = concat ds /\ Forall2 (fun d el => parse_str U d = OkR [el]) ds b \/ (b = [] /\ Ws s).
Proof.
  intros U s b H. apply parse_str_spec in H. destruct b as [|el b].
  - exists []. right. split; [reflexivity|]. inversion H. rewrite app_nil_r. assumption.
  - revert el s H. induction b as [|el2 b IH]; intros el s H.
    + exists [s]. left. cbn [concat]. rewrite app_nil_r. split; [reflexivity|]. constructor; [|constructor].
      apply parse_str_spec. exact H.
    + apply (GConfig_split U [el]) in H as (d1 & d2 & -> & H1 & H2). destruct (IH _ _ H2) as (ds & [[E Hd]|[E _]]); [|discriminate].
      exists (d1 :: ds). left. cbn [concat]. rewrite E. split; [reflexivity|]. constructor; [|exact Hd].
      apply parse_str_spec. exact H1.
Qed.
Print Assumptions C04_no_bug.
Print Assumptions C04_every_character_accounted.

(** C05: every valid tree, written down in any way the concrete syntax allows
    (tokens of [shape_doc b], gaps filled arbitrarily), parses back to itself. *)
Theorem C05_print_parse : forall U b s, ValidDoc U b -> Fill (shape_doc b) s -> parse_str U s = OkR b.
Proof. intros U b s HV HF. apply parse_str_spec, doc_fill; assumption. Qed.
Theorem C05_canonical_print_parse : forall U b, ValidDoc U b -> parse_str U (print_doc b) = OkR b.
Proof. intros U b HV. apply C05_print_parse; [exact HV|apply canon_fill]. Qed.
Print Assumptions C05_print_parse.
Print Assumptions C05_canonical_print_parse.

Definition sample_doc : body_t :=
  [Attr (Borrowed (lit "a")) (ETuple [EBool true; EObject [(KIdent (Borrowed (lit "k")), EString (Owned (lit "x""y\z")))]]);
   Blk (Borrowed (lit "b")) [LString (lit "l 1"); LIdent (Borrowed (lit "m"))]
     [Attr (Borrowed (lit "c")) (ETuple []); Blk (Borrowed (lit "d")) [] []]].
Lemma ident_ascii U t c cs : t = c :: cs -> is_ascii_alpha c = true -> forallb (fun d => is_ascii_alpha d) cs = true ->
  IdentText U t.
Proof.
  intros -> Hc Hcs. assert (HA : forall d, is_ascii_alpha d = true -> d < 128) by (unfold is_ascii_alpha; lia).
  exists c, cs. split; [reflexivity|]. split.
  - left. apply is_id_start_spec. unfold is_id_start. replace (c <? 128) with true by (symmetry; apply N.ltb_lt, HA, Hc). exact Hc.
  - intros d Hd. left. rewrite forallb_forall in Hcs. specialize (Hcs d Hd). apply is_id_continue_spec. unfold is_id_continue.
    replace (d <? 128) with true by (symmetry; apply N.ltb_lt, HA, Hcs). rewrite Hcs. reflexivity.
Qed.
Example C05_nonvacuous : forall U, ValidDoc U sample_doc /\
  print_doc sample_doc = lit "a = [true,{k = ""x\""y\\z"" }]
b ""l 1"" m {
c = []
d {
}
}
".
Proof.
  intros U. split; [|vm_compute; reflexivity].
  repeat (constructor || (eapply ident_ascii; [reflexivity|reflexivity|reflexivity])).
Qed.

(** C60: whatever was parsed can be written down again: after giving heredoc
    values the flavour of quoted strings, every rendering of the parsed tree
    parses to that same tree. *)
Theorem C60_reprint : forall U s b, parse_str U s = OkR b ->
  forall s', Fill (shape_doc (own_doc b)) s' -> parse_str U s' = OkR (own_doc b).
Proof. intros U s b H. exact (proj2 (reprint U s b H)). Qed.
Theorem C60_reprint_canonical : forall U s b, parse_str U s = OkR b -> parse_str U (print_doc (own_doc b)) = OkR (own_doc b).
Proof. intros U s b H. apply (C60_reprint U s b H), canon_fill. Qed.
Print Assumptions C60_reprint.
Print Assumptions C60_reprint_canonical.
Example C60_nonvacuous :
  let b := [Attr (Borrowed (lit "a")) (EString (Borrowed (lit "t")))] in
  parse_str ascii_ucd (lit "a=<<E
t
E
") = OkR b /\ print_doc (own_doc b) = lit "a = ""t""
".
Proof. split; vm_compute; reflexivity. Qed.

(** C61: the grammar is unambiguous - a document denotes at most one tree. *)
Theorem C61_unambiguous : forall U s b b', GConfig U b s -> GConfig U b' s -> b = b'.
Proof. exact GConfig_unique. Qed.
Theorem C61_unambiguous_expression : forall U s r r' e e', GExpr U e s r -> GExpr U e' s r' -> e = e' /\ r = r'.
Proof. exact GExpr_unique. Qed.
Print Assumptions C61_unambiguous.
Print Assumptions C61_unambiguous_expression.
Example C61_nonvacuous : GConfig ascii_ucd
  [Attr (Borrowed (lit "a")) (EBool true); Attr (Borrowed (lit "a")) (EBool false)] (lit "a = true # x
a=false").
Proof. apply C01_parse_str_grammar. vm_compute. reflexivity. Qed.

(** C06: documents concatenate, separated by any line end (a newline or a line comment). *)
Theorem C06_concatenation : forall U d1 d2 b1 b2 n, parse_str U d1 = OkR b1 -> parse_str U d2 = OkR b2 -> LineEnd n ->
  parse_str U (d1 ++ n ++ d2) = OkR (b1 ++ b2).
Proof. intros U d1 d2 b1 b2 n H1 H2 Hn. apply parse_str_spec in H1, H2. apply parse_str_spec, GConfig_app; assumption. Qed.
Print Assumptions C06_concatenation.
Example C06_nonvacuous :
  (exists b, parse_str ascii_ucd (lit "a = 1") = OkR b) /\ (exists b, parse_str ascii_ucd (lit "b ""x"" { c = {} }") = OkR b) /\
  LineEnd [10] /\ LineEnd (lit "# comment" ++ [10]).
Proof.
  split; [eexists; vm_compute; reflexivity|]. split; [eexists; vm_compute; reflexivity|].
  split; [repeat constructor|]. apply LE_comment, (LC_hash (lit " comment") [10]); [|constructor].
  intros c Hc. cbn in Hc. lia.
Qed.

(** C07: white space and comments.  Before a document they never change the
    outcome (error or panic included); after it inline ones do not change the
    tree; and between the tokens of a document any filling gives the same tree. *)
Theorem C07_leading : forall U w s, Ws w -> parse_str U (w ++ s) = parse_str U s.
Proof. exact parse_str_ws. Qed.
Theorem C07_trailing : forall U i n s b, parse_str U s = OkR b -> Iws i -> LineEnd n ->
  parse_str U (s ++ i) = OkR b /\ parse_str U (s ++ i ++ n) = OkR b.
Proof.
  intros U i n s b H Hi Hn. apply parse_str_spec in H.
  assert (H1 : GConfig U b (s ++ i)) by (apply (GBody_trail U b s [] i H eq_refl Hi)).
  split; apply parse_str_spec; [exact H1|]. rewrite app_assoc, <- (app_nil_r n), <- (app_nil_r b).
  apply GConfig_app; [exact H1|exact Hn|]. apply (GB_nil U [] []). constructor.
Qed.
Theorem C07_between_tokens : forall U b s1 s2, ValidDoc U b ->
  Fill (shape_doc b) s1 -> Fill (shape_doc b) s2 -> parse_str U s1 = parse_str U s2.
Proof. intros U b s1 s2 HV H1 H2. rewrite !(C05_print_parse U b) by assumption. reflexivity. Qed.
Print Assumptions C07_leading.
Print Assumptions C07_trailing.
Print Assumptions C07_between_tokens.
Example C07_nonvacuous : Ws (lit " # c" ++ [10] ++ lit "/* d */") /\ Iws (lit " /* d */ ").
Proof.
  assert (HI : InlineComment (lit "/* d */")).
  { apply (IC (lit " d ")). intros x y E. destruct x as [|? [|? [|? [|? x]]]]; discriminate. }
  split.
  - apply Ws_blank; [auto|]. apply (Ws_line (lit "# c" ++ [10])).
    + apply (LC_hash (lit " c") [10]); [|constructor]. intros c Hc. cbn in Hc. lia.
    + apply (Ws_inline (lit "/* d */") []); [exact HI|constructor].
  - apply Iws_blank; [auto|]. apply (Iws_comment (lit "/* d */") [32]); [exact HI|]. apply Iws_blank; [auto|constructor].
Qed.

(** C08: source order and duplicates.  If the tree is [b1 ++ b2], the text splits
    into a text of [b1] followed by a text of [b2]; likewise for tuples and
    objects. *)
Theorem C08_body_order : forall U s b1 b2, parse_str U s = OkR (b1 ++ b2) ->
  exists d1 d2, s = d1 ++ d2 /\ parse_str U d1 = OkR b1 /\ parse_str U d2 = OkR b2.
Proof.
  intros U s b1 b2 H. apply parse_str_spec, GConfig_split in H as (d1 & d2 & -> & H1 & H2).
  exists d1, d2. rewrite !parse_str_spec. auto.
Qed.
Theorem C08_tuple_order : forall U s l, l <> [] -> expression_parse U ([91] ++ s) = OkR (ETuple l) ->
  exists ts tail, s = join [44] ts ++ tail ++ [93] /\ (Ws tail \/ exists w, Ws w /\ tail = [44] ++ w) /\
    Forall2 (fun t e => expression_parse U (lit "(" ++ t ++ lit ")") = OkR e) ts l.
Proof.
  intros U s l Hl H. apply expression_parse_spec in H. change ([91] ++ s) with (91 :: s) in H.
  apply tuple_texts in H as (l' & [= <-] & [(ts & tail & E & Hts & HF & Ht)|[(E & _)|(E & _)]]); [|congruence..].
  exists ts, tail. split; [exact E|]. split; [exact Ht|]. eapply Forall2_impl; [|exact HF].
  intros t e He. apply expression_parse_spec. exact He.
Qed.
Theorem C08_object_order : forall U s m m2 l, expression_parse U ([123] ++ s) = OkR (EObject (m :: m2 :: l)) ->
  exists t sep s', s = t ++ sep ++ s' /\ (sep = [44] \/ LineEnd sep) /\
    expression_parse U ([123] ++ t ++ sep ++ [125]) = OkR (EObject [m]) /\
    expression_parse U ([123] ++ s') = OkR (EObject (m2 :: l)).
Proof.
  intros U s m m2 l H. apply expression_parse_spec, object_whole, object_split in H as (t & sep & s' & E & Hs & H1 & H2).
  exists t, sep, s'. split; [exact E|]. split; [exact Hs|]. rewrite !expression_parse_spec.
  split; apply object_whole; [apply H1|exact H2].
Qed.
Print Assumptions C08_body_order.
Print Assumptions C08_tuple_order.
Print Assumptions C08_object_order.
Example C08_nonvacuous :
  parse_str ascii_ucd (lit "a = true
a = false") = OkR ([Attr (Borrowed (lit "a")) (EBool true)] ++ [Attr (Borrowed (lit "a")) (EBool false)]) /\
  expression_parse ascii_ucd (lit "[true, null,]") = OkR (ETuple [EBool true; ENull]) /\
  expression_parse ascii_ucd (lit "{a = true, a = null}") =
    OkR (EObject [(KIdent (Borrowed (lit "a")), EBool true); (KIdent (Borrowed (lit "a")), ENull)]).
Proof. repeat split; vm_compute; reflexivity. Qed.

(** C23: [Expression::parse] accepts exactly one whole expression. *)
Theorem C23_expression_parse : forall (U : ucd) (s : str) (e : expr),
  expression_parse U s = OkR e <-> GWholeExpr U e s.
Proof. exact expression_parse_spec. Qed.
(** In particular an expression followed by something that is not part of it is
    rejected, and the error says what was left. *)
Theorem C23_trailing_input_rejected : forall U s x e, GExpr U e (s ++ x) x -> x <> [] ->
  expression_parse U (s ++ x) = ErrR (RRemaining x).
Proof.
  intros U s x e H Hx. apply expression_spec in H. unfold expression_parse. rewrite H. destruct x; [congruence|reflexivity].
Qed.
Print Assumptions C23_expression_parse.
Print Assumptions C23_trailing_input_rejected.
Example C23_nonvacuous :
  expression_parse ascii_ucd (lit "[1, ]") =
    OkR (ETuple [ENumber (mk_number (Borrowed (lit "1")) true (Some (Borrowed (lit "1"))) None None)])
  /\ expression_parse ascii_ucd (lit "[1] x") = ErrR (RRemaining (lit " x")).
Proof. split; vm_compute; reflexivity. Qed.

(** C24: comments.  A line comment may stand before a document and counts as the
    line end of an element. *)
Theorem C24_line_comment_is_blank : forall U c d, LineComment c -> parse_str U (c ++ d) = parse_str U d.
Proof. intros U c d H. apply parse_str_ws. rewrite <- (app_nil_r c). apply Ws_line; [exact H|constructor]. Qed.
Theorem C24_inline_comment_is_blank : forall U c d, InlineComment c -> parse_str U (c ++ d) = parse_str U d.
Proof. intros U c d H. apply parse_str_ws. rewrite <- (app_nil_r c). apply Ws_inline; [exact H|constructor]. Qed.
Theorem C24_line_comment_ends_element : forall U d1 d2 b1 b2 c, LineComment c ->
  parse_str U d1 = OkR b1 -> parse_str U d2 = OkR b2 -> parse_str U (d1 ++ c ++ d2) = OkR (b1 ++ b2).
Proof. intros U d1 d2 b1 b2 c Hc H1 H2. apply C06_concatenation; [exact H1|exact H2|apply LE_comment, Hc]. Qed.
(** REFUTED parts: the public parser [line_comment] rejects every "//" comment,
    and a comment on the last line without a final newline is rejected. *)
Theorem C24_line_comment_slash_refuted : forall t, line_comment (lit "//" ++ t) = Err.
Proof. reflexivity. Qed.
Theorem C24_final_comment_refuted : forall U t b, NoEol t -> parse_str U (lit "#" ++ t) <> OkR b.
Proof. intros U t b Ht H. apply parse_str_spec in H. exact (unterminated_comment U t Ht b H). Qed.
Print Assumptions C24_line_comment_is_blank.
Print Assumptions C24_inline_comment_is_blank.
Print Assumptions C24_line_comment_ends_element.
Print Assumptions C24_line_comment_slash_refuted.
Print Assumptions C24_final_comment_refuted.
Example C24_nonvacuous : LineComment (lit "// x" ++ [10]) /\ LineComment (lit "#" ++ [13; 10]) /\ NoEol (lit " x").
Proof.
  assert (H : NoEol (lit " x")) by (intros c Hc; cbn in Hc; lia).
  split; [apply (LC_slash (lit " x")); [exact H|constructor]|]. split; [|exact H].
  apply (LC_hash [] [13; 10]); [intros c []|constructor].
Qed.

(** C25: parentheses are transparent, at any depth. *)
Theorem C25_parens : forall U s e w1 w2, Ws w1 -> Ws w2 -> expression_parse U s = OkR e ->
  expression_parse U (lit "(" ++ w1 ++ s ++ w2 ++ lit ")") = OkR e.
Proof.
  intros U s e w1 w2 H1 H2 H. apply expression_parse_spec in H. apply expression_parse_spec, paren_intro; assumption.
Qed.
Theorem C25_parens_nested : forall U s e n, expression_parse U s = OkR e ->
  expression_parse U (repeat 40 n ++ s ++ repeat 41 n) = OkR e.
Proof.
  intros U s e n H. induction n as [|n IH]; [cbn; rewrite app_nil_r; exact H|].
  replace (repeat 40 (S n) ++ s ++ repeat 41 (S n)) with (lit "(" ++ [] ++ (repeat 40 n ++ s ++ repeat 41 n) ++ [] ++ lit ")").
  - apply C25_parens; [constructor|constructor|exact IH].
  - change (repeat 41 (S n)) with (41 :: repeat 41 n). rewrite (repeat_cons n 41). cbn [app repeat lit]. rewrite <- !app_assoc. reflexivity.
Qed.
(** Conversely what is between accepted parentheses is, up to white space, a text
    of the same expression. *)
Theorem C25_parens_inv : forall U t e, expression_parse U (lit "(" ++ t ++ lit ")") = OkR e ->
  exists w1 te w2, Ws w1 /\ Ws w2 /\ t = w1 ++ te ++ w2 /\ GExpr U e (te ++ w2) w2.
Proof.
  intros U t e H. apply expression_parse_spec, paren_inv in H as (w1 & te & w2 & H1 & H2 & -> & _ & He).
  exists w1, te, w2. split; [exact H1|]. split; [exact H2|]. split; [reflexivity|].
  specialize (He [] I). rewrite !app_nil_r in He. exact He.
Qed.
Print Assumptions C25_parens.
Print Assumptions C25_parens_nested.
Print Assumptions C25_parens_inv.
Example C25_nonvacuous : expression_parse ascii_ucd (lit "((( [true] )))") = OkR (ETuple [EBool true]).
Proof. vm_compute. reflexivity. Qed.

(** C26: REFUTED: "[,]" is accepted as the empty tuple. *)
Theorem C26_lone_comma_refuted : forall U, expression_parse U (lit "[,]") = OkR (ETuple []).
Proof.
  intros U. apply expression_parse_spec. change (lit "[,]") with (91 :: [] ++ [44] ++ [] ++ [93]). apply tuple_texts. exists []. split; [reflexivity|].
  right. right. split; [reflexivity|]. exists [], []. repeat constructor.
Qed.
(** What holds: a text starting with "[" is accepted iff it is a comma-separated list of
    (parenthesisable) expressions with an optional trailing comma, an empty
    list, or a lone comma. *)
Theorem C26_tuple_syntax_partial : forall U s e, expression_parse U ([91] ++ s) = OkR e <->
  exists l, e = ETuple l /\
  ((exists ts tail, s = join [44] ts ++ tail ++ [93] /\ ts <> [] /\
      Forall2 (fun t e => expression_parse U (lit "(" ++ t ++ lit ")") = OkR e) ts l /\
      (Ws tail \/ exists w, Ws w /\ tail = [44] ++ w))
   \/ (l = [] /\ exists w, Ws w /\ s = w ++ [93])
   \/ (l = [] /\ exists w1 w2, Ws w1 /\ Ws w2 /\ s = w1 ++ [44] ++ w2 ++ [93])).
Proof.
  assert (HI : forall U ts l, Forall2 (fun t e => expression_parse U (lit "(" ++ t ++ lit ")") = OkR e) ts l <->
                Forall2 (Item U) ts l).
  { intros U ts l. split; intros H; (eapply Forall2_impl; [|exact H]); intros t e' He; apply expression_parse_spec; exact He. }
  intros U s e. rewrite expression_parse_spec. change ([91] ++ s) with (91 :: s). rewrite tuple_texts.
  split; intros (l & E & [(ts & tail & Es & Hts & HF & Ht)|H]); exists l; (split; [exact E|]).
  - left. exists ts, tail. rewrite HI. auto.
  - right. exact H.
  - left. exists ts, tail. rewrite <- HI. auto.
  - right. exact H.
Qed.
Print Assumptions C26_lone_comma_refuted.
Print Assumptions C26_tuple_syntax_partial.
Example C26_nonvacuous : exists ts l, ts <> [] /\
  Forall2 (fun t e => expression_parse ascii_ucd (lit "(" ++ t ++ lit ")") = OkR e) ts l /\ (2 <= length l)%nat.
Proof.
  exists [lit "true"; lit " null "], [EBool true; ENull]. split; [discriminate|]. split; [|cbn; lia].
  repeat constructor; vm_compute; reflexivity.
Qed.

(** C27: two consecutive members of an object are separated by a comma or a line
    end (C08_object_order); the separators are interchangeable and the last member
    may be followed by the closing brace. *)
Theorem C27_object_members : forall U ms,
  Forall (fun m => let '(k, kt, e, et) := m in KeyText U k kt /\ expression_parse U et = OkR e) ms ->
  forall seps, length seps = length ms -> Forall (fun sep => sep = [44] \/ LineEnd sep) seps ->
  expression_parse U (lit "{" ++
      flat_map (fun x => let '((k, kt, e, et), sep) := x in kt ++ lit " = " ++ et ++ sep) (combine ms seps) ++ lit "}")
  = OkR (EObject (map (fun m => let '(k, kt, e, et) := m in (k, e)) ms)).
Proof.
  intros U ms H. intros seps Hl Hs. apply expression_parse_spec. apply (object_whole U _ (_ ++ lit "}")).
  revert seps Hl Hs. induction H as [|[[[k kt] e] et] ms [Hk He] H IH]; intros [|sep seps] Hl Hs; try discriminate Hl.
  - apply (GM_nil U []). constructor.
  - cbn [combine flat_map map]. inversion Hs as [|? ? Hsep Hs']; subst.
    apply expression_parse_spec in He. apply GExpr_replace in He as (te & E & Hte & He). rewrite app_nil_r in E. subst te.
    rewrite <- !app_assoc. change (lit " = ") with ([32] ++ [61] ++ [32]). rewrite <- !app_assoc.
    assert (Hsp : Iws [32]) by (apply Iws_blank; [auto|constructor]).
    set (X := flat_map _ _ ++ lit "}") in *.
    eapply (GM_cons U k e _ [] [32] [32] [] _ (et ++ sep ++ X) (sep ++ X) X); [constructor|exact Hsp|exact Hsp|constructor| | | |].
    + apply KeyText_spec; [exact Hk|reflexivity].
    + apply He; [destruct Hsep as [->|Hsep]; [reflexivity|apply (Delim_LineEnd sep X), Hsep]|].
      intros (e0 & r' & [|] & E); discriminate.
    + destruct Hsep as [->|Hsep]; [left; reflexivity|right; left; exists sep; split; [exact Hsep|reflexivity]].
    + apply IH; [cbn in Hl; lia|exact Hs'].
Qed.
(** The last separator may be left out. *)
Theorem C27_last_member : forall U k kt e et, KeyText U k kt -> expression_parse U et = OkR e ->
  expression_parse U (lit "{" ++ kt ++ lit " = " ++ et ++ lit "}") = OkR (EObject [(k, e)]).
Proof.
  intros U k kt e et Hk He. apply expression_parse_spec. apply (object_whole U _ (kt ++ lit " = " ++ et ++ lit "}")).
  apply expression_parse_spec in He. apply GExpr_replace in He as (te & E & Hte & He). rewrite app_nil_r in E. subst te.
  change (lit " = ") with ([32] ++ [61] ++ [32]). rewrite <- !app_assoc.
  assert (Hsp : Iws [32]) by (apply Iws_blank; [auto|constructor]).
  eapply (GM_cons U k e _ [] [32] [32] [] _ _ (lit "}") (lit "}")); [constructor|exact Hsp|exact Hsp|constructor| | | |].
  - apply KeyText_spec; [exact Hk|reflexivity].
  - apply He; [reflexivity|]. intros (e0 & r' & [|] & E); discriminate.
  - right. right. split; [reflexivity|]. eexists; reflexivity.
  - apply (GM_nil U []). constructor.
Qed.
(** A member not followed by a separator (or the closing brace) is rejected. *)
Theorem C27_missing_separator : forall U k kt e et r, KeyText U k kt -> GExpr U e (et ++ r) r ->
  (forall i s, r = i ++ s -> Iws i -> ~ (FirstIs 44 s \/ FirstIs 125 s \/ exists n q, LineEnd n /\ s = n ++ q)) ->
  forall e', expression_parse U (lit "{" ++ kt ++ lit " = " ++ et ++ r) <> OkR e'.
Proof. exact object_missing_sep. Qed.
Print Assumptions C27_object_members.
Print Assumptions C27_last_member.
Print Assumptions C27_missing_separator.
Example C27_nonvacuous : KeyText ascii_ucd (KIdent (Borrowed (lit "a"))) (lit "a") /\
  expression_parse ascii_ucd (lit "true") = OkR (EBool true) /\
  GExpr ascii_ucd (EBool true) (lit "true" ++ lit " b = null}") (lit " b = null}") /\
  (forall i s, lit " b = null}" = i ++ s -> Iws i ->
     ~ (FirstIs 44 s \/ FirstIs 125 s \/ exists n q, LineEnd n /\ s = n ++ q)) /\
  expression_parse ascii_ucd (lit "{a = true b = null}") = ErrR (RParse None).
Proof.
  split; [constructor; eapply ident_ascii; reflexivity|]. split; [reflexivity|].
  split; [apply GE_term; constructor|]. split; [|vm_compute; reflexivity].
  intros i s E Hi H.
  assert (Hf : FirstIs 32 s \/ FirstIs 98 s).
  { destruct Hi as [|c w Hc Hi|c w [t Ht] Hi]; [left; exists (lit "b = null}"); symmetry; exact E| |discriminate E].
    cbn [app] in E. injection E as <- E. destruct Hi as [|c w Hc2 Hi|c w [t Ht] Hi]; [right; eexists; symmetry; exact E| |discriminate E].
    cbn [app] in E. injection E as <- E. lia. }
  destruct H as [[q ->]|[[q ->]|(n & q & Hn & ->)]]; [destruct Hf as [[? [=]]|[? [=]]]..|].
  destruct Hn as [e [|]|c [t e Ht He|t e Ht He]]; destruct Hf as [[? [=]]|[? [=]]].
Qed.

(** C28: every element ends its line. *)
Theorem C28_one_element_per_line : forall U s b, parse_str U s = OkR b ->
  (length b <= 1 + count_occ N.eq_dec s 10%N)%nat.
Proof. intros U s b H. apply parse_str_spec in H. exact (lines_bound U b s [] H eq_refl). Qed.
Theorem C28_line_end_between_elements : forall U s el el2 b, parse_str U s = OkR (el :: el2 :: b) ->
  exists t i n d2, s = t ++ i ++ n ++ d2 /\ Iws i /\ LineEnd n /\
    parse_str U (t ++ i ++ n) = OkR [el] /\ parse_str U d2 = OkR (el2 :: b).
Proof.
  intros U s el el2 b H. apply parse_str_spec, element_own_line in H as (t & i & n & d2 & E & Hi & Hn & H1 & H2).
  exists t, i, n, d2. rewrite !parse_str_spec. auto.
Qed.
(** After an attribute whose value ends at [r], the document is accepted iff [r]
    is inline white space, then a line end or the end of input, then a document. *)
Theorem C28_after_attribute : forall U n s' e r b, IdentText U n -> GExpr U e s' r ->
  parse_str U (n ++ lit " = " ++ s') = OkR b <->
  exists b' s2 i s1, b = Attr (Borrowed n) e :: b' /\ r = i ++ s1 /\ Iws i /\
    ((exists le, LineEnd le /\ s1 = le ++ s2) \/ (s1 = [] /\ s2 = [])) /\ parse_str U s2 = OkR b'.
Proof.
  intros U n s' e r b Hn He. rewrite parse_str_spec.
  pose proof (first_attr U n [32] [32] s' e r b Hn Iws_space Iws_space He) as HF.
  change (lit " = ") with ([32] ++ [61] ++ [32]). rewrite <- !app_assoc. rewrite HF. split.
  - intros (b' & s2 & E & (i & s1 & Er & Hi & Hs) & Hb). exists b', s2, i, s1. rewrite parse_str_spec. auto.
  - intros (b' & s2 & i & s1 & E & Er & Hi & Hs & Hb). rewrite parse_str_spec in Hb. exists b', s2.
    split; [exact E|]. split; [|exact Hb]. exists i, s1. auto.
Qed.
Print Assumptions C28_one_element_per_line.
Print Assumptions C28_line_end_between_elements.
Print Assumptions C28_after_attribute.
Example C28_nonvacuous :
  (exists el el2, parse_str ascii_ucd (lit "a = 1 // x
b = 2") = OkR [el; el2]) /\ parse_str ascii_ucd (lit "a = 1 b = 2") = ErrR (RParse (Some (lit "a = 1 b = 2"))).
Proof. split; [eexists _, _|]; vm_compute; reflexivity. Qed.

(** C62: nesting.  Any document becomes the body of a block, any expression text
    the value of an attribute, with any labels. *)
Theorem C62_block_of_document : forall U t ls ts b d i n, IdentText U t -> Forall2 (LabelText U) ls ts ->
  Iws i -> LineEnd n -> parse_str U d = OkR b ->
  parse_str U (t ++ flat_map (fun l => lit " " ++ l) ts ++ lit " {" ++ i ++ n ++ d ++ [10] ++ lit "}")
  = OkR [Blk (Borrowed t) ls b].
Proof.
  intros U t ls ts b d i n Ht Hl Hi Hn Hd. apply parse_str_spec in Hd. apply parse_str_spec.
  exact (block_doc U t ls ts b d i n Ht Hl Hi Hn Hd).
Qed.
Theorem C62_attribute_of_expression : forall U n e t i1 i2, IdentText U n -> Iws i1 -> Iws i2 ->
  expression_parse U t = OkR e -> parse_str U (n ++ i1 ++ lit "=" ++ i2 ++ t) = OkR [Attr (Borrowed n) e].
Proof.
  intros U n e t i1 i2 Hn H1 H2 He. apply expression_parse_spec in He. apply parse_str_spec. apply attr_doc; assumption.
Qed.
Print Assumptions C62_block_of_document.
Print Assumptions C62_attribute_of_expression.
Example C62_nonvacuous : Forall2 (LabelText ascii_ucd) [LString (lit "x"); LIdent (Borrowed (lit "y"))] [lit """x"""; lit "y"].
Proof.
  constructor; [|constructor; [|constructor]].
  - apply (LT_string ascii_ucd (lit "x") (lit "x")). repeat (apply GC_char; [repeat split; discriminate|]). constructor.
  - constructor. eapply ident_ascii; reflexivity.
Qed.
