(** * Property theorems: the parser functions of the public modules, exactly (C115-C117)

    The modules of [parser] are public, so every rule of the grammar can be called by itself
    on any text; it returns a value and the text left over. *)
From Verif Require Import Base Nom NomFacts Ast Lex Grammar WsFacts NumFacts StrFacts HeredocFacts Parser ParserFacts
  ExprProofs BodyProofs DocProofs PanicProofs MeetsSpec MeetsProofs PubSpec PubProofs PubStruct.

(** ** C115: tokens *)
Theorem C115_null : forall s r u, null s = Ok r u <-> s = [110; 117; 108; 108] ++ r.
Proof. intros s r u. split; [apply null_ok|]. intros ->. destruct u. reflexivity. Qed.
Theorem C115_boolean : forall s r b, boolean s = Ok r b <->
  s = (if b then [116; 114; 117; 101] else [102; 97; 108; 115; 101]) ++ r.
Proof. intros s r b. split; [intros H; apply boolean_ok in H; destruct b; exact H|]. intros ->. destruct b; reflexivity. Qed.
(** The inside of a one-line quoted text: characters and escape sequences up to a quote, a
    line end or the end of the text. *)
Theorem C115_string_literal_content : forall s r v, string_literal_content s = Ok r v <->
  GChars PlainLine v s r /\ (r = [] \/ exists c r', r = c :: r' /\ (c = 34 \/ c = 10 \/ c = 13)).
Proof. exact content_exact. Qed.
Theorem C115_string_literal : forall s r v, string_literal s = Ok r v <->
  exists s', s = [34] ++ s' /\ GChars PlainLine v s' ([34] ++ r).
Proof. exact string_literal_ok. Qed.
Theorem C115_string : forall U s r v, string_p U s = Ok r v <->
  (exists w s', v = Owned w /\ s = [34] ++ s' /\ GChars Plain w s' ([34] ++ r)) \/ GHeredoc U v s r.
Proof. exact string_p_ok. Qed.
Theorem C115_heredoc : forall U s r v, heredoc_string U s = Ok r v <-> GHeredoc U v s r.
Proof. exact heredoc_string_ok. Qed.
Theorem C115_heredoc_begin : forall U s r h, heredoc_begin U s = Ok r h <->
  exists d e r', MarkerText U (hd_ident h) /\ d = (if hd_indented h then [45] else []) /\
    Eol e /\ r = e ++ r' /\ s = [60; 60] ++ d ++ hd_ident h ++ r.
Proof.
  intros U s r h. rewrite heredoc_begin_ok. split.
  - intros (d & m & e & r' & Hm & Hd & He & Hr & Hs & ->). exists d, e, r'. destruct Hd as [->| ->]; cbn [hd_ident hd_indented]; auto.
  - intros (d & e & r' & Hm & Hd & He & Hr & Hs). exists d, (hd_ident h), e, r'. destruct h as [m []]; cbn in *; subst d; auto 8.
Qed.
(** The end of a heredoc whose beginning has been read: a line end, blanks, the marker and a
    line end, which is left; the number of blanks counts for "<<-" only. *)
Theorem C115_heredoc_end : forall U h s r n, MarkerText U (hd_ident h) ->
  (heredoc_end h s = Ok r n <-> exists b, Closing (hd_ident h) b s r /\ n = if hd_indented h then length b else 0%nat).
Proof. exact heredoc_end_ok. Qed.

(** ** C115: white space and comments, with the texts they yield *)
Theorem C115_inline_comment : forall s r t, inline_comment s = Ok r t <-> NoClose t /\ s = [47; 42] ++ t ++ [42; 47] ++ r.
Proof. exact inline_comment_exact. Qed.
Theorem C115_hash_comment : forall s r t, hash_comment s = Ok r t <-> exists e, NoEol t /\ Eol e /\ s = [35] ++ t ++ e ++ r.
Proof. exact hash_comment_exact. Qed.
Theorem C115_slash_comment : forall s r t, slash_comment s = Ok r t <-> exists e, NoEol t /\ Eol e /\ s = [47; 47] ++ t ++ e ++ r.
Proof. exact slash_comment_exact. Qed.
(** [line_comment] reads "#" comments only: its two alternatives are the same. *)
Theorem C115_line_comment : forall s r t, line_comment s = Ok r t <-> exists e, NoEol t /\ Eol e /\ s = [35] ++ t ++ e ++ r.
Proof. exact line_comment_exact. Qed.
Theorem C115_inline_whitespace : forall s r l, inline_whitespace s = Ok r l <-> All IwsPiece l s r.
Proof. intros. apply inline_whitespace_exact. Qed.
Theorem C115_whitespace : forall s r l, whitespace s = Ok r l <-> All WsPiece l s r.
Proof. intros. apply whitespace_exact. Qed.
Theorem C115_newline : forall s r l, newline s = Ok r l <-> Newlines l s r.
Proof. intros. apply newline_exact. Qed.
(** The pieces are the white space of the grammar: all there is of it is read. *)
Theorem C115_inline_whitespace_all : forall s r, (exists l, inline_whitespace s = Ok r l) <-> SkipIws s r.
Proof.
  intros s r. rewrite skip_iws. destruct (inline_whitespace_eq s) as (v & E). rewrite E. split; [intros (l & H); congruence|intros ->; eauto].
Qed.
Theorem C115_whitespace_all : forall s r, (exists l, whitespace s = Ok r l) <-> SkipWs s r.
Proof.
  intros s r. rewrite skip_ws. destruct (whitespace_eq s) as (v & E). rewrite E. split; [intros (l & H); congruence|intros ->; eauto].
Qed.

(** Read by computation, and by the theorems: what the specification says of these texts *)
Example C115_nonvacuous_content : GChars PlainLine (lit "a" ++ [10]) (lit "a\n""rest") (lit """rest").
Proof. apply (C115_string_literal_content (lit "a\n""rest") (lit """rest")). vm_compute. reflexivity. Qed.
Example C115_nonvacuous_white : All WsPiece [lit " c"; lit "  "; lit " d "; [32; 10]] (lit "# c" ++ [10] ++ lit "  /* d */ " ++ [10] ++ lit "x") (lit "x") /\
  Newlines [lit " c"; lit " e "; [13; 10]] (lit "// c" ++ [10] ++ lit "/* e */" ++ [10; 13; 10] ++ lit " x") (lit " x").
Proof. split; [apply C115_whitespace|apply C115_newline]; vm_compute; reflexivity. Qed.
Example C115_nonvacuous_heredoc : heredoc_begin ascii_ucd (lit "<<-EOF" ++ [10] ++ lit "x") = Ok ([10] ++ lit "x") (mk_heredoc (lit "EOF") true) /\
  heredoc_end (mk_heredoc (lit "EOF") true) ([10; 32; 32] ++ lit "EOF" ++ [10]) = Ok [10] 2%nat /\ MarkerText ascii_ucd (lit "EOF").
Proof.
  assert (E : heredoc_begin ascii_ucd (lit "<<-EOF" ++ [10] ++ lit "x") = Ok ([10] ++ lit "x") (mk_heredoc (lit "EOF") true)) by (vm_compute; reflexivity).
  split; [exact E|]. split; [vm_compute; reflexivity|]. apply C115_heredoc_begin in E as (d & e & r' & Hm & _). exact Hm.
Qed.
Example C115_nonvacuous_line_comment : line_comment (lit "// c" ++ [10]) = Err /\ slash_comment (lit "// c" ++ [10]) = Ok [] (lit " c").
Proof. split; vm_compute; reflexivity. Qed.

(** ** C116: expressions, attributes, blocks and bodies *)
Section C116.
Context (U : ucd).

Lemma pieces_stop {A} (p : parser A) (item : A -> str -> str -> Prop) (Bad : (str -> Prop) -> (str -> Prop) -> str -> Prop) : wf p ->
  (forall v s r, item v s r <-> p s = Ok r v /\ r <> s) ->
  (forall s, p s = Panic <-> Bad (BadHeredoc U) (fun _ => False) s) ->
  (forall q s, p s = Fail q <-> Bad (BadEscape Plain q) (BadEscape PlainLine q) s) ->
  forall l s r, many0 p s = Ok r l <-> Upto U item Bad l s r.
Proof.
  intros Hp Hi HP HF. apply many0_run; [exact Hp|exact Hi|]. intros s. unfold NothingBad. rewrite <- HP. split.
  - intros (Hn & H1 & H2). pose proof (Hp s) as Hg. destruct (p s) as [r v| |q| |] eqn:E; [|auto|exfalso..].
    + destruct (str_eqb r s) eqn:Eq; [apply str_eqb_eq in Eq as ->; eauto|]. apply str_eqb_neq in Eq.
      exfalso. apply (Hn v r), Hi. auto.
    + apply (H2 q), HF, E.
    + auto.
    + exact Hg.
  - intros [E|(v & E)]; rewrite E; (split; [intros v' r' H; apply Hi in H as [H1 H2]; congruence|]); (split; [discriminate|]);
      intros q Hq; apply HF in Hq; congruence.
Qed.
End C116.

Theorem C116_expression : forall U s r e, expression U s = Ok r e <-> GExpr U e s r.
Proof. intros. apply expression_spec. Qed.
Theorem C116_tuple : forall U s r l, tuple (expression U) s = Ok r l <-> exists s1, s = [91] ++ s1 /\ GItems U l s1 r.
Proof. intros. apply tuple_exact. Qed.
Theorem C116_object : forall U s r l, object U (expression U) s = Ok r l <-> exists s1, SkipWs s ([123] ++ s1) /\ GMembers U l s1 r.
Proof. intros. apply object_exact. Qed.
Theorem C116_bracket_expression : forall U s r e, bracket_expression (expression U) s = Ok r e <->
  exists s1 s2 r1, SkipWs s ([40] ++ s1) /\ SkipWs s1 s2 /\ GExpr U e s2 r1 /\ SkipWs r1 ([41] ++ r).
Proof. intros. apply paren_exact. Qed.
Theorem C116_object_element_identifier : forall U s r k, object_element_identifier U (expression U) s = Ok r k <-> KeyText U k s r.
Proof. intros. apply key_exact. Qed.
Theorem C116_object_element : forall U s r ke, object_element U (expression U) s = Ok r ke <-> ObjElement U ke s r.
Proof. intros. apply element_exact. Qed.
Theorem C116_object_separator : forall s r v, object_separator s = Ok r v <-> ObjSeparator v s r.
Proof. intros. apply separator_exact. Qed.
Theorem C116_attribute : forall U s r i e, attribute U s = Ok r (i, e) <->
  exists s0 r0, SkipIws s s0 /\ GAttr U i e s0 r0 /\ SkipIws r0 r.
Proof. intros. apply attr_exact. Qed.
Theorem C116_block_label : forall U s r l, block_label U s = Ok r l <-> GLabel U l s r.
Proof. intros. apply block_label_ok. Qed.
Theorem C116_one_line_block : forall U s r el, one_line_block U s = Ok r el <->
  exists s0 r0, SkipIws s s0 /\ OneLine U el s0 r0 /\ SkipIws r0 r.
Proof. intros. apply one_line_exact. Qed.
Theorem C116_block : forall U s r el, block U (body U) s = Ok r el <->
  exists s0 r0, SkipIws s s0 /\ MultiLine U el s0 r0 /\ SkipIws r0 r.
Proof. intros. apply block_exact. Qed.
Theorem C116_body_element : forall U s r el, body_element U (body U) s = Ok r el <->
  exists s0 r0, SkipIws s s0 /\ GElem U el s0 r0 /\ SkipIws r0 r.
Proof. intros. apply body_element_exact. Qed.

(** ** C117: where each function panics or gives up *)
(** [p] panics at a heredoc that cannot be unindented, ends the whole reading at a bad escape
    (with the text after its backslash), as [Bad] says, and never runs out of fuel. *)
Definition Stops (U : ucd) {A} (p : parser A) (Bad : (str -> Prop) -> (str -> Prop) -> str -> Prop) : Prop :=
  (forall s, p s = Panic <-> Bad (BadHeredoc U) (fun _ => False) s) /\
  (forall q s, p s = Fail q <-> Bad (BadEscape Plain q) (BadEscape PlainLine q) s) /\
  forall s, p s <> OutOfFuel.
Lemma wf_total {A} (p : parser A) : wf p -> forall s, p s <> OutOfFuel.
Proof. intros H s E. pose proof (H s) as Hg. rewrite E in Hg. exact Hg. Qed.
Local Ltac stops L W := intros U; split; [intros s; exact (L U SPanic (BadHeredoc U) (fun _ => False) (string_bad_heredoc U) no_literal_panic s)|];
  split; [intros q s; exact (L U (SFail q) (BadEscape Plain q) (BadEscape PlainLine q) (string_bad_escape U q) (literal_bad q) s)|];
  apply wf_total; apply W.

Theorem C117_expression : forall U, Stops U (expression U) (fun T _ => MeetsExpr U T).
Proof. stops expression_halts wf_expression. Qed.
Theorem C117_tuple : forall U, Stops U (tuple (expression U)) (fun T _ => BadTuple U T).
Proof. stops tuple_stops wf_tuple. Qed.
Theorem C117_object : forall U, Stops U (object U (expression U)) (fun T _ => BadObject U T).
Proof. stops object_stops wf_object. Qed.
Lemma wf_paren U : wf (bracket_expression (expression U)).
Proof.
  intros s. unfold bracket_expression. apply good_bind; [|intros r1 v1 _ _; apply good_bind; [|intros r2 v2 _ _; apply good_bind]].
  - apply wf_ws_m, wf_wrap_ws, wf_tag.
  - apply wf_ws_m, wf_wrap_ws, wf_expression.
  - apply wf_tag.
  - intros r v H _. apply suffix_refl.
Qed.
Theorem C117_bracket_expression : forall U, Stops U (bracket_expression (expression U)) (fun T _ => BadParen U T).
Proof. stops paren_stops wf_paren. Qed.
Theorem C117_object_element_identifier : forall U, Stops U (object_element_identifier U (expression U)) (fun T _ => MeetsExpr U T).
Proof. stops key_stops wf_oei. Qed.
Theorem C117_object_element : forall U, Stops U (object_element U (expression U)) (fun T _ => BadElement U T).
Proof. stops element_stops wf_object_element. Qed.
Theorem C117_object_body : forall U, Stops U (object_body U (expression U)) (fun T _ => MeetsMembers U T).
Proof. stops object_body_stops wf_object_body. Qed.
Theorem C117_attribute : forall U, Stops U (attribute U) (fun T _ => BadAttr U T).
Proof. stops attr_stops wf_attribute. Qed.
Theorem C117_one_line_block_body : forall U, Stops U (one_line_block_body U) (fun T _ => BadAttr U T).
Proof. stops opt_attr_stops (fun U => wf_opt _ (wf_attribute U)). Qed.
Theorem C117_block_label : forall U, Stops U (block_label U) (fun _ L => L).
Proof. stops label_stops wf_block_label. Qed.
Theorem C117_block_labels : forall U, Stops U (block_labels U) (fun _ L => BadLabels U L).
Proof. stops labels_stops wf_block_labels. Qed.
Theorem C117_one_line_block : forall U, Stops U (one_line_block U) (BadOneLine U).
Proof. stops one_line_stops wf_one_line_block. Qed.
Lemma wf_block_p U : wf (block U (body U)).
Proof. apply wf_of_below. intros [|n]; [intros s H; lia|]. apply block_below, wf_below_of, wf_body. Qed.
Theorem C117_block : forall U, Stops U (block U (body U)) (BadMultiLine U).
Proof. stops block_stops wf_block_p. Qed.
Theorem C117_body_element : forall U, Stops U (body_element U (body U)) (BadBodyElement U).
Proof. stops body_element_stops wf_body_element. Qed.
Theorem C117_body : forall U, Stops U (body U) (MeetsBody U).
Proof. stops body_halts wf_body. Qed.
Theorem C117_string : forall U, Stops U (string_p U) (fun T _ => T).
Proof.
  intros U. split; [exact (string_bad_heredoc U)|]. split; [exact (string_bad_escape U)|]. apply wf_total, wf_string_p.
Qed.
Theorem C117_string_literal : forall U, Stops U string_literal (fun _ L => L).
Proof.
  intros U. split; [exact no_literal_panic|]. split; [exact literal_bad|]. apply wf_total, wf_string_literal.
Qed.
(** The inside of a quoted text, without its quote: an error when the text ends in a backslash *)
Theorem C117_string_literal_content : forall s,
  (forall q, string_literal_content s = Fail q <-> BadEscape PlainLine q ([34] ++ s)) /\
  (string_literal_content s = Err <-> exists v, GChars PlainLine v s [92]) /\
  string_literal_content s <> Panic /\ string_literal_content s <> OutOfFuel.
Proof.
  intros s. split; [intros q; apply content_fails|]. split; [apply content_err|].
  destruct (chars_outcome _ _ legal_line_spec eq_refl s) as [(r & v & E)|[E|(q & E)]];
    unfold string_literal_content; rewrite E; split; discriminate.
Qed.
Theorem C117_heredoc : forall U s, (heredoc_string U s = Panic <-> BadHeredoc U s) /\ (forall q, heredoc_string U s <> Fail q) /\
  heredoc_string U s <> OutOfFuel.
Proof.
  intros U s. split; [apply heredoc_bad|]. destruct (heredoc_string_outcome U s) as [(r & v & E)|[E|E]]; rewrite E; split; intros; discriminate.
Qed.
(** The other tokens either read something or are an error the caller can recover from, and
    skipping white space always succeeds. *)
Theorem C117_tokens : forall U s,
  (forall A (p : parser A), In (existT parser A p)
     [existT parser _ null; existT parser _ boolean; existT parser _ (identifier U); existT parser _ number;
      existT parser _ (heredoc_begin U); existT parser _ inline_comment; existT parser _ hash_comment; existT parser _ slash_comment;
      existT parser _ line_comment; existT parser _ newline; existT parser _ object_separator] ->
   (exists r v, p s = Ok r v) \/ p s = Err) /\
  (forall h, (exists r n, heredoc_end h s = Ok r n) \/ heredoc_end h s = Err) /\
  (exists r l, inline_whitespace s = Ok r l) /\ (exists r l, whitespace s = Ok r l).
Proof.
  intros U s. split; [|split; [|split]].
  - intros A p Hin.
    assert (H : forall x, In x
     [existT parser _ null; existT parser _ boolean; existT parser _ (identifier U); existT parser _ number;
      existT parser _ (heredoc_begin U); existT parser _ inline_comment; existT parser _ hash_comment; existT parser _ slash_comment;
      existT parser _ line_comment; existT parser _ newline; existT parser _ object_separator] -> simple (projT2 x)).
    { clear. intros x H. repeat (destruct H as [<-|H]); cbn [projT2]; [..|destruct H].
      - apply simple_pmap, simple_tag.
      - apply simple_alt; apply simple_pmap, simple_tag.
      - apply simple_identifier.
      - apply simple_number.
      - apply simple_heredoc_begin.
      - apply simple_inline_comment.
      - apply simple_hash_comment.
      - apply simple_slash_comment.
      - apply simple_alt; apply simple_hash_comment.
      - apply simple_newline.
      - apply simple_alt; [apply simple_tag|]. apply simple_alt; apply simple_pmap; [apply simple_newline|]. apply simple_peek, simple_char. }
    exact (H _ Hin s).
  - intros h. apply simple_heredoc_end.
  - destruct (inline_whitespace_eq s) as (l & E). eauto.
  - destruct (whitespace_eq s) as (l & E). eauto.
Qed.

Lemma GElem_len U el s r : GElem U el s r -> (length r < length s)%nat.
Proof.
  intros H. destruct H as [i e s r H|t ls i1 s s' r Hi Ht HL|t ls n v i1 i2 s s' s2 r Hi Hi2 Ht HL Ha|t ls b i1 n s s' s2 r Hi Hn Ht HL Hb].
  - eapply GAttr_len, H.
  - apply GIdent_len in Ht. apply GLabels_len in HL. rewrite !app_length in HL. cbn [length] in HL. lia.
  - apply GIdent_len in Ht. apply GLabels_len in HL. apply GAttr_len in Ha. rewrite !app_length in *. cbn [length] in *. lia.
  - apply GIdent_len in Ht. apply GLabels_len in HL.
    assert (HB : body U s2 = Ok (125 :: r) b) by (apply (proj2 (body_complete_mut U) _ _ _ Hb); [right; eexists; reflexivity|reflexivity]).
    pose proof (wf_body U s2) as Hg. rewrite HB in Hg. cbn in Hg. apply suffix_len in Hg. rewrite !app_length in *. cbn [length] in *. lia.
Qed.
Lemma element_len U ke s r : ObjElement U ke s r -> (length r < length s)%nat.
Proof.
  intros [k e s' s0 s1 s2 s3 s4 r' H0 Hk H1 H2 He H4]. apply skip_iws in H0, H1, H2, H4. apply GExpr_len in He.
  apply key_exact in Hk. pose proof (wf_oei U s0) as Hg. rewrite Hk in Hg. cbn in Hg. apply suffix_len in Hg.
  pose proof (suffix_len _ _ (iws_rest_suffix s')). pose proof (suffix_len _ _ (iws_rest_suffix s1)).
  pose proof (suffix_len _ _ (iws_rest_suffix s2)). pose proof (suffix_len _ _ (iws_rest_suffix s4)).
  rewrite <- H1 in *. cbn [app length] in *. subst. lia.
Qed.

(** ** C116, continued: the repeating functions *)
(** No attribute is read exactly when none is there and nothing bad is met looking for one. *)
Theorem C116_one_line_block_body : forall U s r o, one_line_block_body U s = Ok r o <->
  match o with
  | Some (i, e) => exists s0 r0, SkipIws s s0 /\ GAttr U i e s0 r0 /\ SkipIws r0 r
  | None => r = s /\ (forall i e s0 r0, SkipIws s s0 -> ~ GAttr U i e s0 r0) /\ NothingBad U (fun T _ => BadAttr U T) s
  end.
Proof.
  intros U s r o. rewrite opt_attr_exact. destruct o as [[i e]|]; [tauto|]. destruct (C117_attribute U) as (HP & HF & Ht). split; intros [-> H].
  - split; [reflexivity|]. split; [|split].
    + intros i e s0 r0 H0 Ha. assert (Hx : attribute U s = Ok (iws_rest r0) (i, e)) by (apply C116_attribute; exists s0, r0; auto using skip_iws_here).
      congruence.
    + intros Hx. apply HP in Hx. congruence.
    + intros q Hx. apply HF in Hx. congruence.
  - destruct H as (Hn & H1 & H2). split; [reflexivity|]. specialize (Ht s). destruct (attribute U s) as [r1 [i e]| |q| |] eqn:Ea; [exfalso|reflexivity|exfalso..].
    + apply C116_attribute in Ea as (s0 & r0 & Ha & Hb & _). exact (Hn _ _ _ _ Ha Hb).
    + apply HF in Ea. exact (H2 q Ea).
    + apply HP in Ea. exact (H1 Ea).
    + exact (Ht eq_refl).
Qed.
(** As many labels as there are, white space around each skipped *)
Theorem C116_block_labels : forall U s r ls, block_labels U s = Ok r ls <-> Upto U (LabelItem U) (fun _ L => BadLabelItem L) ls s r.
Proof.
  intros U s r ls. apply (pieces_stop U (label_item U)).
  - apply wf_label_item.
  - intros v s1 r1. unfold label_item. rewrite iws_m, wrap_iws. split.
    + intros [l s2 s0 s3 r2 H0 Hl H1]. apply skip_iws in H0, H1. pose proof Hl as Hl'. apply block_label_ok in Hl. subst s0. rewrite Hl. cbn [bind]. subst r2.
      split; [reflexivity|]. intros E. apply GLabel_len in Hl'. pose proof (suffix_len _ _ (iws_rest_suffix s2)). pose proof (suffix_len _ _ (iws_rest_suffix s3)).
      rewrite E in *. lia.
    + intros [H _]. apply bind_ok in H as (r2 & l & H & E). injection E as E1 E2. subst. apply block_label_ok in H.
      eapply LI; [apply skip_iws_here|exact H|apply skip_iws_here].
  - intros s1. exact (label_item_stops U SPanic (BadHeredoc U) (fun _ => False) (string_bad_heredoc U) no_literal_panic s1).
  - intros q s1. exact (label_item_stops U (SFail q) (BadEscape Plain q) (BadEscape PlainLine q) (string_bad_escape U q) (literal_bad q) s1).
Qed.
Theorem C116_object_body : forall U s r l, object_body U (expression U) s = Ok r l <->
  exists r0, Upto U (ObjItem U) (fun T _ => BadItem U T) l s r0 /\ SkipWs r0 r.
Proof.
  intros U s r l. unfold object_body. rewrite ws_m. fold (member U).
  assert (HU : forall r0, many0 (member U) s = Ok r0 l <-> Upto U (ObjItem U) (fun T _ => BadItem U T) l s r0).
  { intros r0. apply (pieces_stop U (member U)).
    - apply wf_member.
    - intros v s1 r1. unfold member. rewrite wrap_ws. unfold terminated. split.
      + intros [ke s2 s0 s3 v1 r2 H0 He Hs]. apply skip_ws in H0. pose proof (element_len U _ _ _ He) as Hlen. apply C116_object_element in He. subst s0. rewrite He. cbn [bind].
        apply separator_exact in Hs. pose proof (wf_object_separator s3) as Hg. rewrite Hs in *. cbn [bind]. split; [reflexivity|].
        cbn in Hg. apply suffix_len in Hg. pose proof (suffix_len _ _ (ws_rest_suffix s2)). intros ->. lia.
      + intros [H _]. apply bind_ok in H as (r2 & ke & H1 & H). apply bind_ok in H as (r3 & v1 & H2 & H). injection H as E1 E2. subst.
        apply C116_object_element in H1. apply separator_exact in H2. eapply OI; [apply skip_ws_here|exact H1|exact H2].
    - intros s1. exact (item_stops U SPanic (BadHeredoc U) (fun _ => False) (string_bad_heredoc U) no_literal_panic s1).
    - intros q s1. exact (item_stops U (SFail q) (BadEscape Plain q) (BadEscape PlainLine q) (string_bad_escape U q) (literal_bad q) s1). }
  split.
  - intros H. apply bind_ok in H as (r0 & l' & H & E). injection E as E1 E2. subst. exists r0. split; [apply HU, H|apply skip_ws_here].
  - intros (r0 & H & Hr). apply HU in H. rewrite H. apply skip_ws in Hr. subst r. reflexivity.
Qed.
Theorem C116_body : forall U s r b, body U s = Ok r b <-> exists r0, Upto U (BodyItem U) (BadBodyItem U) b s r0 /\ SkipWs r0 r.
Proof.
  intros U s r b. rewrite body_unfold.
  assert (HU : forall r0, many0 (body_item U) s = Ok r0 b <-> Upto U (BodyItem U) (BadBodyItem U) b s r0).
  { intros r0. apply (pieces_stop U (body_item U)).
    - apply wf_body_item.
    - intros v s1 r1. unfold body_item. rewrite wrap_ws. unfold terminated.
      assert (HB : forall el x y, GElem U el (ws_rest s1) y -> SkipIws y x -> body_element U (body U) (ws_rest s1) = Ok x el).
      { intros el x y He Hx. apply C116_body_element. exists (ws_rest s1), y. split; [apply skip_iws; symmetry; apply iws_ws_rest|auto]. }
      split.
      + intros H. destruct H as [el s2 s0 s3 s4 l r2 H0 He H1 Hn|el s2 s0 s3 H0 He H1]; apply skip_ws in H0; subst s0;
          pose proof (GElem_len U _ _ _ He) as Hlen; pose proof (suffix_len _ _ (ws_rest_suffix s2)) as Hl2;
          rewrite (HB _ _ _ He H1); cbn [bind]; apply skip_iws in H1.
        * apply newline_exact in Hn. pose proof (wf_newline s4) as Hg. unfold alt, pmap. rewrite Hn in *. cbn [map_res bind].
          split; [reflexivity|]. cbn in Hg. apply suffix_len in Hg. subst s4. pose proof (suffix_len _ _ (iws_rest_suffix s3)). intros ->. lia.
        * split; [reflexivity|]. intros <-. cbn in *. lia.
      + intros [H _]. apply bind_ok in H as (r2 & el & H1 & H). apply bind_ok in H as (r3 & v1 & H2 & H). injection H as E1 E2. subst.
        apply C116_body_element in H1 as (s0 & r0' & H0 & He & Hr). apply skip_iws in H0. rewrite iws_ws_rest in H0. subst s0.
        apply alt_inv in H2 as [H2|[_ H2]].
        * apply pmap_inv in H2 as (l & H2 & _). apply newline_exact in H2. eapply BI_line; [apply skip_ws_here|exact He|exact Hr|exact H2].
        * unfold eof in H2. destruct r2; [|discriminate]. injection H2 as <- <-. eapply BI_last; [apply skip_ws_here|exact He|exact Hr].
    - intros s1. exact (body_item_stops U SPanic (BadHeredoc U) (fun _ => False) (string_bad_heredoc U) no_literal_panic s1).
    - intros q s1. exact (body_item_stops U (SFail q) (BadEscape Plain q) (BadEscape PlainLine q) (string_bad_escape U q) (literal_bad q) s1). }
  split.
  - intros H. apply bind_ok in H as (r0 & l' & H & E). injection E as E1 E2. subst. exists r0. split; [apply HU, H|apply skip_ws_here].
  - intros (r0 & H & Hr). apply HU in H. rewrite H. apply skip_ws in Hr. subst r. reflexivity.
Qed.
Theorem C116_object_begin : forall s r c, object_begin s = Ok r c <-> c = 123 /\ s = [123] ++ r.
Proof. intros s r c. split; [intros H; apply char_p_ok in H as [-> ->]; auto|]. intros [-> ->]. apply char_p_eq. Qed.
Theorem C116_object_end : forall s r c, object_end s = Ok r c <-> c = 125 /\ s = [125] ++ r.
Proof. intros s r c. split; [intros H; apply char_p_ok in H as [-> ->]; auto|]. intros [-> ->]. apply char_p_eq. Qed.
Theorem C116_config_file : forall U s r b, config_file U s = Ok r b <-> r = [] /\ GConfig U b s.
Proof.
  intros U s r b. rewrite <- parse_str_spec. unfold parse_str. split.
  - intros H. rewrite H. assert (r = []) as ->; [|auto]. unfold config_file, exact, terminated in H.
    apply bind_ok in H as (r1 & v1 & _ & H). apply bind_ok in H as (r2 & v2 & H2 & H). unfold eof in H2. destruct r1; [|discriminate]. congruence.
  - intros [-> H]. destruct (config_file U s) as [[|c r] v| |q| |]; try discriminate. congruence.
Qed.

(** Blocks: leading and trailing white space goes, a line end after the block stays; the
    label "l" is kept; the second text has a value with a comment in the middle. *)
Example C116_nonvacuous_blocks :
  one_line_block ascii_ucd (lit " a b ""l"" { x = true } " ++ [10]) =
    Ok [10] (Blk (Borrowed (lit "a")) [LIdent (Borrowed (lit "b")); LString (lit "l")] [Attr (Borrowed (lit "x")) (EBool true)]) /\
  block_labels ascii_ucd (lit " b ""l"" = ") = Ok (lit "= ") [LIdent (Borrowed (lit "b")); LString (lit "l")] /\
  one_line_block_body ascii_ucd (lit " x }") = Ok (lit " x }") None /\
  body ascii_ucd (lit "x = true" ++ [10; 10] ++ lit "y = null }") = Ok (lit "y = null }") [Attr (Borrowed (lit "x")) (EBool true)].
Proof. repeat split; vm_compute; reflexivity. Qed.
Example C116_nonvacuous_objects :
  object_body ascii_ucd (expression ascii_ucd) (lit " a = true, (2) = null " ++ [10] ++ lit " } ") =
    Ok (lit "} ") [(KIdent (Borrowed (lit "a")), EBool true); (KExpr (Borrowed (lit "(2)")), ENull)] /\
  object_element_identifier ascii_ucd (expression ascii_ucd) (lit " (2) = 1") = Ok (lit " = 1") (KExpr (Borrowed (lit " (2)"))) /\
  object_separator (lit "}") = Ok (lit "}") [].
Proof. repeat split; vm_compute; reflexivity. Qed.
(** The label, the attribute and the heredoc of the first, second and third text stop it. *)
Example C117_nonvacuous :
  BadLabels ascii_ucd (BadEscape PlainLine (lit "q""")) (lit " b ""l"" ""\q""") /\
  BadOneLine ascii_ucd (BadEscape Plain (lit "q"" }")) (BadEscape PlainLine (lit "q"" }")) (lit " a { x = ""\q"" }") /\
  BadTuple ascii_ucd (BadHeredoc ascii_ucd) (lit "[1, <<-E" ++ [10] ++ lit "x" ++ [10] ++ lit "  E" ++ [10] ++ lit "]") /\
  (exists v, GChars PlainLine v (lit "ab\") [92]).
Proof.
  split; [apply (C117_block_labels ascii_ucd); vm_compute; reflexivity|].
  split; [apply (C117_one_line_block ascii_ucd); vm_compute; reflexivity|].
  split; [apply (C117_tuple ascii_ucd); vm_compute; reflexivity|].
  apply C117_string_literal_content. vm_compute. reflexivity.
Qed.
