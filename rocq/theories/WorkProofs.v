(** * WorkProofs: the counted parsers are the parsers, and what the tokens cost *)
From Coq Require Import Lia.
From Verif Require Import Base Nom NomFacts Ast Lex Grammar WsFacts NumFacts StrFacts HeredocFacts Parser ParserFacts ExprProofs BodyProofs CallCount CallProofs WorkCount.
Open Scope nat_scope.

(** ** Erasure *)
Lemma we_prim {A} (p : parser A) c : Erases (prim p c) p.
Proof. intros s. reflexivity. Qed.
Lemma we_pmap {A B} (f : A -> B) cp p : Erases cp p -> Erases (wpmap f cp) (pmap f p).
Proof. intros H s. unfold wpmap, pmap. specialize (H s). destruct (cp s) as [x n]. cbn in *. rewrite H. reflexivity. Qed.
Lemma we_peek {A} (cp : cparser A) p : Erases cp p -> Erases (cpeek cp) (peek p).
Proof. intros H s. apply er_bind; [apply H|reflexivity]. Qed.
Lemma we_verify {A} (cp : cparser A) p f : Erases cp p -> Erases (cverify cp f) (verify p f).
Proof. intros H s. apply er_bind; [apply H|reflexivity]. Qed.
Lemma we_delimited {A B C} (cp : cparser A) p (cq : cparser B) q (ct : cparser C) t :
  Erases cp p -> Erases cq q -> Erases ct t -> Erases (cdelimited cp cq ct) (delimited p q t).
Proof. intros Hp Hq Ht s. apply er_bind; [apply Hp|]. intros r v. apply er_bind; [apply Hq|]. intros r' v'. apply er_bind; [apply Ht|reflexivity]. Qed.
Lemma we_return_error {A} (cp : cparser A) p : Erases cp p -> Erases (creturn_error cp) (return_error p).
Proof. intros H s. unfold creturn_error, return_error. specialize (H s). destruct (cp s) as [[r v| | | |] n]; cbn in *; rewrite <- H; reflexivity. Qed.
Lemma we_map_opt {B} (cp : cparser str) p (f : str -> option B) : Erases cp p -> Erases (cmap_opt cp f) (map_opt p f).
Proof. intros H s. apply er_bind; [apply H|reflexivity]. Qed.
Lemma we_many0_loop {A} (cp : cparser A) p : Erases cp p -> forall f s, fst (cmany0_loop f cp s) = many0_loop f p s.
Proof.
  intros Hp. induction f as [|f IH]; intros s; [reflexivity|]. cbn. pose proof (Hp s) as H. destruct (cp s) as [[r v| | | |] n]; cbn in H; rewrite <- H; try reflexivity.
  destruct (str_eqb r s); [reflexivity|]. cbn. rewrite IH. reflexivity.
Qed.
Lemma we_many1 {A} (cp : cparser A) p : Erases cp p -> Erases (cmany1 cp) (many1 p).
Proof. intros H s. apply er_bind; [apply H|]. intros r v. cbn [fst]. rewrite (we_many0_loop cp p H). reflexivity. Qed.
Lemma we_sep_loop {A B} (cs : cparser B) sep (cp : cparser A) p : Erases cs sep -> Erases cp p -> forall f s, fst (wsep_loop f cs cp s) = sep_loop f sep p s.
Proof.
  intros Hs Hp. induction f as [|f IH]; intros s; [reflexivity|]. cbn. pose proof (Hs s) as E. destruct (cs s) as [[s2 w| | | |] m]; cbn in E; rewrite <- E; try reflexivity.
  destruct (length s2 =? length s); [reflexivity|]. pose proof (Hp s2) as H. destruct (cp s2) as [[r v| | | |] n]; cbn in H; rewrite <- H; try reflexivity.
  destruct (length r =? length s2); [reflexivity|]. cbn [fst]. rewrite IH. reflexivity.
Qed.
Lemma we_separated_list {A B} (cs : cparser B) sep (cp : cparser A) p : Erases cs sep -> Erases cp p -> Erases (wseparated_list cs cp) (separated_list sep p).
Proof.
  intros Hs Hp s. unfold wseparated_list, separated_list. pose proof (Hp s) as H. destruct (cp s) as [[r v| | | |] n]; cbn in H; rewrite <- H; try reflexivity.
  destruct (length r =? length s); [reflexivity|]. cbn [fst]. rewrite (we_sep_loop cs sep cp p Hs Hp). reflexivity.
Qed.
Lemma we_escaped_loop normal (ct : cparser str) t : Erases ct t -> forall f s, fst (wescaped_loop f normal ct s) = escaped_loop f normal t s.
Proof.
  intros H. induction f as [|f IH]; intros s; [reflexivity|]. cbn [wescaped_loop escaped_loop]. destruct s as [|c s']; [reflexivity|].
  destruct (span normal (c :: s')) as [[|a a'] b].
  - destruct (c =? c_backslash)%N; [|reflexivity]. destruct s' as [|c' s'']; [reflexivity|]. cbn [add fst]. apply er_bind; [apply H|]. intros r o. cbn [fst]. rewrite IH. reflexivity.
  - cbn [fst]. rewrite IH. reflexivity.
Qed.
Lemma we_escaped normal ct t : Erases ct t -> Erases (wescaped_transform normal ct) (escaped_transform normal t).
Proof. intros H s. apply we_escaped_loop, H. Qed.
Lemma we_take_till {A} (cp : cparser A) p : Erases cp p -> Erases (wtake_till_match cp) (take_till_match p).
Proof.
  intros H. intros s. induction s as [|c s' IH]; [reflexivity|]. cbn. pose proof (H (c :: s')) as E. destruct (cp (c :: s')) as [[r v| |q| |] n]; cbn in E; rewrite <- E; cbn [fst]; rewrite ?IH; reflexivity.
Qed.
#[local] Hint Resolve we_prim we_pmap we_peek we_verify we_delimited we_return_error we_map_opt we_many1 we_separated_list we_escaped we_take_till
  er_alt er_opt er_preceded er_terminated er_recognize er_many0 : er.
Lemma we_tag t : Erases (w_tag t) (tag t). Proof. apply we_prim. Qed.
Lemma we_char c : Erases (w_char c) (char_p c). Proof. apply we_prim. Qed.
Lemma we_tw p : Erases (w_take_while p) (take_while p). Proof. apply we_prim. Qed.
Lemma we_tw1 p : Erases (w_take_while1 p) (take_while1 p). Proof. apply we_prim. Qed.
Lemma we_twmn m n p : Erases (w_take_while_m_n m n p) (take_while_m_n m n p). Proof. apply we_prim. Qed.
Lemma we_tu t : Erases (w_take_until t) (take_until t). Proof. apply we_prim. Qed.
Lemma we_eof : Erases w_eof eof. Proof. apply we_prim. Qed.
#[local] Hint Resolve we_tag we_char we_tw we_tw1 we_twmn we_tu we_eof : er.
Lemma we_eol : Erases weol eol. Proof. unfold weol, eol. auto with er. Qed.
#[local] Hint Resolve we_eol : er.
Lemma we_inline_comment : Erases winline_comment inline_comment. Proof. unfold winline_comment, inline_comment. auto with er. Qed.
Lemma we_hash_comment : Erases whash_comment hash_comment. Proof. unfold whash_comment, hash_comment. auto with er. Qed.
Lemma we_slash_comment : Erases wslash_comment slash_comment. Proof. unfold wslash_comment, slash_comment. auto with er. Qed.
Lemma we_eat l : Erases (weat_separator l) (eat_separator l). Proof. unfold weat_separator, eat_separator. auto with er. Qed.
#[local] Hint Resolve we_inline_comment we_hash_comment we_slash_comment we_eat : er.
Lemma we_inline_whitespace : Erases winline_whitespace inline_whitespace. Proof. unfold winline_whitespace, inline_whitespace. auto with er. Qed.
Lemma we_whitespace : Erases wwhitespace whitespace. Proof. unfold wwhitespace, whitespace. auto 10 with er. Qed.
Lemma we_newline_item : Erases wnewline_item newline_item. Proof. unfold wnewline_item, newline_item. auto 10 with er. Qed.
#[local] Hint Resolve we_inline_whitespace we_whitespace we_newline_item : er.
Lemma we_newline : Erases wnewline newline. Proof. unfold wnewline, newline. auto with er. Qed.
Lemma we_wrap {A} sp sp' (cp : cparser A) p : Erases sp sp' -> Erases cp p -> Erases (wwrap sp cp) (wrap sp' p).
Proof. intros Hs H. apply er_preceded; assumption. Qed.
Lemma we_iws {A} (cp : cparser A) p : Erases cp p -> Erases (winline_whitespace_m cp) (inline_whitespace_m p).
Proof. intros H. apply er_terminated; auto with er. Qed.
Lemma we_ws {A} (cp : cparser A) p : Erases cp p -> Erases (wwhitespace_m cp) (whitespace_m p).
Proof. intros H. apply er_terminated; auto with er. Qed.
#[local] Hint Resolve we_newline we_wrap we_iws we_ws : er.
Lemma we_wrap_iws {A} (cp : cparser A) p : Erases cp p -> Erases (wwrap winline_whitespace cp) (wrap inline_whitespace p). Proof. auto with er. Qed.
Lemma we_wrap_ws {A} (cp : cparser A) p : Erases cp p -> Erases (wwrap wwhitespace cp) (wrap whitespace p). Proof. auto with er. Qed.
Ltac eb := repeat (first [apply er_bind; [solve [match goal with |- fst (?c ?s) = ?p ?s => apply (fun H : Erases c p => H s); auto 12 with er end]|intros ? ?] | reflexivity]).
Lemma we_identifier U : Erases (widentifier U) (identifier U). Proof. unfold widentifier, identifier. auto with er. Qed.
Lemma we_boolean : Erases wboolean boolean. Proof. unfold wboolean, boolean. auto with er. Qed.
Lemma we_null : Erases wnull null. Proof. unfold wnull, null. auto with er. Qed.
Lemma we_digit : Erases wdigit digit. Proof. unfold wdigit, digit. auto with er. Qed.
Lemma we_sign : Erases wsign_char sign_char. Proof. unfold wsign_char, sign_char. auto with er. Qed.
#[local] Hint Resolve we_identifier we_boolean we_null we_digit we_sign : er.
Lemma we_exponent : Erases wexponent exponent. Proof. apply er_opt. intros s. eb. Qed.
Lemma we_mantissa : Erases wmantissa mantissa.
Proof.
  apply er_alt; intros s; eb. apply er_bind; [|reflexivity].
  match goal with |- fst (?c ?s) = ?p ?s => apply (fun H : Erases c p => H s) end. apply er_opt. intros s1. apply er_bind; [reflexivity|]. intros ? ?. apply (er_opt _ _ we_digit).
Qed.
#[local] Hint Resolve we_exponent we_mantissa : er.
Lemma we_number : Erases wnumber number. Proof. intros s. unfold number, wnumber. eb. Qed.
Lemma we_hex c n : Erases (whex_escape c n) (hex_escape c n). Proof. unfold whex_escape, hex_escape. auto with er. Qed.
#[local] Hint Resolve we_number we_hex : er.
Lemma we_hex_to_unicode : Erases whex_to_unicode hex_to_unicode. Proof. unfold whex_to_unicode, hex_to_unicode. auto 10 with er. Qed.
Lemma we_octal : Erases woctal_escape octal_escape. Proof. unfold woctal_escape, octal_escape. auto with er. Qed.
#[local] Hint Resolve we_hex_to_unicode we_octal : er.
Lemma we_unescape : Erases wunescape unescape. Proof. unfold wunescape, unescape. repeat (apply er_alt; [auto with er|]). auto with er. Qed.
#[local] Hint Resolve we_unescape : er.
Lemma we_quoted : Erases wquoted_string quoted_string. Proof. unfold wquoted_string, quoted_string, multiline_string_content. auto with er. Qed.
Lemma we_literal : Erases wstring_literal string_literal. Proof. unfold wstring_literal, string_literal, string_literal_content. auto with er. Qed.
Lemma we_space0 : Erases wspace0 space0. Proof. unfold wspace0, space0. auto with er. Qed.
#[local] Hint Resolve we_quoted we_literal we_space0 : er.
Lemma we_hbegin U : Erases (wheredoc_begin U) (heredoc_begin U). Proof. intros s. unfold wheredoc_begin, heredoc_begin. eb. Qed.
Lemma we_hend h : Erases (wheredoc_end h) (heredoc_end h). Proof. intros s. unfold wheredoc_end, heredoc_end. eb. Qed.
#[local] Hint Resolve we_hbegin we_hend : er.
Lemma we_heredoc U : Erases (wheredoc_string U) (heredoc_string U).
Proof.
  intros s. unfold wheredoc_string, heredoc_string. apply er_bind; [apply we_hbegin|]. intros r1 h. apply er_bind; [|reflexivity].
  match goal with |- fst (?c ?s) = ?p ?s => apply (fun H : Erases c p => H s) end. apply er_alt; [auto with er|]. intros s1. apply er_bind; [apply we_eol|]. intros ? ?. apply we_take_till, we_hend.
Qed.
Lemma we_string U : Erases (wstring_p U) (string_p U). Proof. unfold wstring_p, string_p. apply er_alt; [auto with er|apply we_heredoc]. Qed.
#[local] Hint Resolve we_string : er.
Section U.
Variable U : ucd.
Lemma we_tuple ce e : Erases ce e -> Erases (wtuple ce) (tuple e).
Proof. intros H. unfold wtuple, tuple. auto 12 with er. Qed.
Lemma we_key ce e : Erases ce e -> Erases (wobject_element_identifier U ce) (object_element_identifier U e).
Proof. intros H. unfold wobject_element_identifier, object_element_identifier. auto with er. Qed.
#[local] Hint Resolve we_key we_tuple : er.
Lemma we_element ce e : Erases ce e -> Erases (wobject_element U ce) (object_element U e).
Proof. intros H. apply we_iws. intros s. eb. Qed.
Lemma we_separator : Erases wobject_separator object_separator. Proof. unfold wobject_separator, object_separator. auto 10 with er. Qed.
#[local] Hint Resolve we_element we_separator : er.
Lemma we_object_body ce e : Erases ce e -> Erases (wobject_body U ce) (object_body U e).
Proof. intros H. unfold wobject_body, object_body. auto 10 with er. Qed.
#[local] Hint Resolve we_object_body : er.
Lemma we_object ce e : Erases ce e -> Erases (wobject U ce) (object U e).
Proof. intros H s. unfold wobject, object. eb. Qed.
Lemma we_bracket ce e : Erases ce e -> Erases (wbracket_expression ce) (bracket_expression e).
Proof. intros H s. unfold wbracket_expression, bracket_expression. eb. Qed.
#[local] Hint Resolve we_object we_bracket : er.
Lemma we_expression_step ce e : Erases ce e -> Erases (wexpression_step U ce) (expression_step U e).
Proof. intros H. unfold wexpression_step, expression_step. repeat (apply er_alt; [auto with er|]). auto with er. Qed.
Lemma we_expression_f f : Erases (wexpression_f U f) (expression_f U f).
Proof. induction f as [|f IH]; [intros s; reflexivity|]. apply we_expression_step, IH. Qed.
Theorem we_expression : Erases (wexpression U) (expression U).
Proof. intros s. apply we_expression_f. Qed.
#[local] Hint Resolve we_expression : er.
Lemma we_attribute : Erases (wattribute U) (attribute U).
Proof. apply we_iws. intros s. eb. Qed.
Lemma we_block_label : Erases (wblock_label U) (block_label U). Proof. unfold wblock_label, block_label. auto with er. Qed.
#[local] Hint Resolve we_attribute we_block_label : er.
Lemma we_block_labels : Erases (wblock_labels U) (block_labels U). Proof. unfold wblock_labels, block_labels. auto with er. Qed.
#[local] Hint Resolve we_block_labels : er.
Lemma we_one_line : Erases (wone_line_block U) (one_line_block U).
Proof. apply we_iws. intros s. unfold one_line_block_body. eb. Qed.
Lemma we_block cb b : Erases cb b -> Erases (wblock U cb) (block U b).
Proof. intros H. apply we_iws. intros s. eb. Qed.
#[local] Hint Resolve we_one_line we_block : er.
Lemma we_body_step cb b : Erases cb b -> Erases (wbody_step U cb) (body_step U b).
Proof. intros H. unfold wbody_step, body_step, wbody_element, body_element. auto 14 with er. Qed.
Lemma we_body_f f : Erases (wbody_f U f) (body_f U f).
Proof. induction f as [|f IH]; [intros s; reflexivity|]. apply we_body_step, IH. Qed.
Theorem we_config_file : Erases (wconfig_file U) (config_file U).
Proof. apply er_terminated; [intros s; apply we_body_f|apply we_eof]. Qed.
End U.
