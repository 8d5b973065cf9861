(** * Property theorems: what more text after a document can change (C98) *)
From Verif Require Import Base Ast Grammar Nom Lex Parser ParserFacts ExprProofs BodyProofs Locality DocProofs PanicProofs
  MoreProofs MeetsSpec MeetsProofs PropMeets PropFail AppendProofs.

(** C98: after a document that parses and a line end, reading goes on as if the rest stood
    alone: what comes out is the elements of the first and whatever the rest gives - its
    tree, its error (which names the same place) or its panic. *)
Theorem C98_append : forall U d1 d2 b1 n, parse_str U d1 = OkR b1 -> LineEnd n ->
  parse_str U (d1 ++ n ++ d2) = match parse_str U d2 with OkR b2 => OkR (b1 ++ b2) | o => o end.
Proof.
  intros U d1 d2 b1 n H Hn. apply parse_str_spec in H. unfold parse_str. rewrite (config_append U _ _ _ d2 H Hn).
  assert (ER : eof_rest (body U) (d1 ++ n ++ d2) = eof_rest (body U) d2).
  { unfold eof_rest. rewrite (body_append U _ _ _ _ d2 H eq_refl Hn). destruct (body U d2) as [[|]| | | |]; reflexivity. }
  rewrite ER. destruct (config_file U d2) as [[|]| | | |]; reflexivity.
Qed.
(** The same for [parser::config_file], which also tells the place of a bad escape. *)
Theorem C98_config_file : forall U d1 d2 b1 n, config_file U d1 = Ok [] b1 -> LineEnd n ->
  (forall b2, config_file U d2 = Ok [] b2 -> config_file U (d1 ++ n ++ d2) = Ok [] (b1 ++ b2)) /\
  (config_file U d2 = Err -> config_file U (d1 ++ n ++ d2) = Err) /\
  (forall p, config_file U d2 = Fail p -> config_file U (d1 ++ n ++ d2) = Fail p) /\
  (config_file U d2 = Panic -> config_file U (d1 ++ n ++ d2) = Panic).
Proof.
  intros U d1 d2 b1 n H Hn. assert (HG : GConfig U b1 d1) by (apply parse_str_spec; unfold parse_str; rewrite H; reflexivity).
  rewrite (config_append U _ _ _ d2 HG Hn).
  split; [intros b2 ->; reflexivity|]. split; [intros ->; reflexivity|]. split; [intros p ->; reflexivity|intros ->; reflexivity].
Qed.
(** A panic is final: no text after the document takes it back. *)
Theorem C98_panic_final : forall U s x, parse_str U s = PanicR -> parse_str U (s ++ x) = PanicR.
Proof. intros U s x H. apply parse_str_panics. apply parse_str_panics in H. apply meets_heredoc_append, H. Qed.
Theorem C98_expression_panic_final : forall U s x, expression_parse U s = PanicR -> expression_parse U (s ++ x) = PanicR.
Proof. intros U s x H. apply expression_parse_panics. apply expression_parse_panics in H. apply expr_meets_heredoc_append, H. Qed.
(** So is a bad escape sequence, unless the text after the document continues its digits; the
    failure then records the longer rest. *)
Definition StartsWithoutHex (x : str) : Prop :=
  forall c x', x = c :: x' -> ~ (48 <= c <= 57 \/ 65 <= c <= 70 \/ 97 <= c <= 102).
Lemma not_hex x : StartsWithoutHex x -> NotHex x.
Proof. destruct x as [|c x]; [intros; exact I|]. intros H. exact (H c x eq_refl). Qed.
Theorem C98_escape_final : forall U s p x, config_file U s = Fail p -> StartsWithoutHex x -> config_file U (s ++ x) = Fail (p ++ x).
Proof.
  intros U s p x H Hx. apply C93_config_file. apply C93_config_file in H. apply meets_escape_append; [apply not_hex, Hx|exact H].
Qed.
Theorem C98_expression_escape_final : forall U s p x, expression U s = Fail p -> StartsWithoutHex x -> expression U (s ++ x) = Fail (p ++ x).
Proof.
  intros U s p x H Hx. apply C93_expression. apply C93_expression in H. apply expr_meets_escape_append; [apply not_hex, Hx|exact H].
Qed.
(** For any number of documents, each ended by a line end: the trees of those before the first
    that does not parse and then that one; a panic there is the outcome whatever follows. *)
Theorem C98_documents : forall U ds bs last, Forall2 (fun d b => exists t n, d = t ++ n /\ LineEnd n /\ parse_str U t = OkR b) ds bs ->
  (forall b, parse_str U last = OkR b -> parse_str U (concat ds ++ last) = OkR (concat bs ++ b)) /\
  (forall e, parse_str U last = ErrR e -> parse_str U (concat ds ++ last) = ErrR e) /\
  (parse_str U last = PanicR -> forall x, parse_str U (concat ds ++ last ++ x) = PanicR).
Proof.
  intros U ds bs last H. assert (HE : forall y, parse_str U (concat ds ++ y) = match parse_str U y with OkR b => OkR (concat bs ++ b) | o => o end).
  { intros y. induction H as [|d b ds bs (t & n & -> & Hn & Ht) _ IH]; [cbn; destruct (parse_str U y); reflexivity|].
    cbn [concat]. rewrite <- !app_assoc. rewrite (C98_append U t _ b n Ht Hn), IH.
    destruct (parse_str U y); rewrite ?app_assoc; reflexivity. }
  split; [intros b Hb; rewrite HE, Hb; reflexivity|]. split; [intros e He; rewrite HE, He; reflexivity|].
  intros Hp x. rewrite HE, (C98_panic_final U last x Hp). reflexivity.
Qed.
Print Assumptions C98_append.
Print Assumptions C98_config_file.
Print Assumptions C98_panic_final.
Print Assumptions C98_expression_panic_final.
Print Assumptions C98_escape_final.
Print Assumptions C98_expression_escape_final.
Print Assumptions C98_documents.

Definition bad_doc : str := lit "b = <<-EOF
x
 EOF
".
(* without a line end between them, documents do not compose; an ordinary error can be repaired
   by more text, and so can an escape sequence whose number goes on *)
Example C98_nonvacuous :
  LineEnd [10] /\ (exists b, parse_str ascii_ucd (lit "a = 1") = OkR b) /\
  parse_str ascii_ucd bad_doc = PanicR /\ parse_str ascii_ucd (lit "a = 1" ++ [10] ++ bad_doc) = PanicR /\
  parse_str ascii_ucd (lit "a = 1" ++ [10] ++ lit "b = [") = ErrR (RParse (Some (lit "b = ["))) /\
  parse_str ascii_ucd (lit "a = 1" ++ lit "b = 2") = ErrR (RParse (Some (lit "a = 1b = 2"))) /\
  (exists b, parse_str ascii_ucd (lit "b = [" ++ lit "]") = OkR b) /\
  config_file ascii_ucd (lit "a = ""\u") = Fail (lit "u") /\ (exists b, config_file ascii_ucd (lit "a = ""\u" ++ lit "41""") = Ok [] b) /\
  config_file ascii_ucd (lit "a = ""\u" ++ lit " 41""") = Fail (lit "u 41""") /\ StartsWithoutHex (lit " 41""").
Proof.
  split; [apply LE_eol; constructor|]. split; [eexists; vm_compute; reflexivity|]. split; [vm_compute; reflexivity|]. split; [vm_compute; reflexivity|].
  split; [vm_compute; reflexivity|]. split; [vm_compute; reflexivity|]. split; [eexists; vm_compute; reflexivity|]. split; [vm_compute; reflexivity|].
  split; [eexists; vm_compute; reflexivity|]. split; [vm_compute; reflexivity|]. intros c x' E. injection E as <- _. lia.
Qed.
