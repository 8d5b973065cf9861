(** * PropCut: C127 documents that were cut short *)
From Verif Require Import Base Nom NomFacts WsFacts NumFacts Ast Grammar Lex Parser ParserFacts ExprProofs BodyProofs Locality DocProofs MoreProofs Utf8 IoSpec PropIo PropSyntax MeetsProofs PropMeets AppendProofs PropAppend CutSpec CutProofs.

(** C127: a beginning of a text that [parse_str] accepts is accepted with the first elements of the whole (the last of which,
    an attribute with a number, may have lost the end of the number), or is an error.  It never panics. *)
Theorem C127_cut : forall U p q b, parse_str U (p ++ q) = OkR b ->
  (exists b', parse_str U p = OkR b' /\ CutShort b' b) \/ (exists e, parse_str U p = ErrR e).
Proof.
  intros U p q b H. destruct (parse_str U p) as [b'|e| |] eqn:E.
  - left. exists b'. split; [reflexivity|]. apply parse_str_spec in E. apply parse_str_spec in H.
    destruct (cut_body U _ _ _ E eq_refl _ _ H) as [(b2 & ->)|(b1 & i & n & n' & b2 & -> & -> & Hc & _)]; [apply CS_elements|apply CS_number, Hc].
  - right. eauto.
  - rewrite (C98_panic_final U p q E) in H. discriminate.
  - exfalso. exact (parse_str_total U p E).
Qed.
Print Assumptions C127_cut.

(** Unless the text is cut right after a digit or a point, nothing that was accepted is changed: in particular when whole lines are lost. *)
Definition LastIs (P : N -> Prop) (p : str) : Prop := exists x c, p = x ++ [c] /\ P c.
Theorem C127_whole_elements : forall U p q b b', parse_str U (p ++ q) = OkR b -> parse_str U p = OkR b' ->
  ~ LastIs (fun c => 48 <= c <= 57 \/ c = 46) p -> exists b2, b = b' ++ b2.
Proof.
  intros U p q b b' H E Hl. apply parse_str_spec in E. apply parse_str_spec in H.
  destruct (cut_body U _ _ _ E eq_refl _ _ H) as [(b2 & ->)|(b1 & i & n & n' & b2 & -> & -> & Hc & x & t & -> & Hn)]; [eauto|].
  exfalso. apply Hl. apply NumLit_last in Hn as (t' & c & -> & HL). exists (x ++ t'), c. rewrite <- app_assoc. auto.
Qed.
Theorem C127_lines : forall U p q b b', parse_str U (p ++ [10] ++ q) = OkR b -> parse_str U (p ++ [10]) = OkR b' -> exists b2, b = b' ++ b2.
Proof.
  intros U p q b b' H E. rewrite app_assoc in H. apply (C127_whole_elements U _ _ _ _ H E). intros (x & c & E2 & Hc).
  apply app_inj_tail in E2 as [_ <-]. lia.
Qed.
Print Assumptions C127_whole_elements.
Print Assumptions C127_lines.

(** Every number of first elements is what some beginning of the text gives. *)
Theorem C127_each : forall U s b k, parse_str U s = OkR b -> exists p q, s = p ++ q /\ parse_str U p = OkR (firstn k b).
Proof.
  intros U s b k H. apply parse_str_spec in H. rewrite <- (firstn_skipn k b) in H. apply GConfig_split in H as (d1 & d2 & -> & H1 & _).
  exists d1, d2. split; [reflexivity|]. apply parse_str_spec, H1.
Qed.
Print Assumptions C127_each.

(** Bytes that were cut short, be it in the middle of a character *)
Lemma from_utf8_app p bs : IsStr p -> from_utf8 (utf8 p ++ bs) = option_map (app p) (from_utf8 bs).
Proof.
  intros H. induction p as [|c p IH]; cbn [utf8 flat_map].
  - cbn [app]. destruct (from_utf8 bs); reflexivity.
  - rewrite <- app_assoc. inversion H as [|? ? Hc Hp]; subst. rewrite from_utf8_char by exact Hc. unfold utf8 in IH. rewrite (IH Hp).
    destruct (from_utf8 bs); reflexivity.
Qed.
Theorem C127_slice : forall U bs bs' b, parse_slice U (bs ++ bs') = OkR b ->
  (exists b', parse_slice U bs = OkR b' /\ CutShort b' b) \/ (exists e, parse_slice U bs = ErrR e).
Proof.
  intros U bs bs' b H. unfold parse_slice in *. destruct (from_utf8 bs) as [p|] eqn:E; [|right; eauto].
  destruct (from_utf8_sound (length bs) bs p (le_n _) E) as [Hp ->]. rewrite from_utf8_app in H by exact Hp.
  destruct (from_utf8 bs') as [q|]; [|discriminate]. cbn in H. apply (C127_cut U p q b H).
Qed.
Print Assumptions C127_slice.

(** A whole expression that goes on to be a whole expression is a number. *)
Theorem C127_expression : forall U p q e e', q <> [] -> expression_parse U p = OkR e -> expression_parse U (p ++ q) = OkR e' ->
  exists n n', e = ENumber n /\ e' = ENumber n' /\ number_text n = p /\ number_text n' = p ++ q.
Proof.
  intros U p q e e' Hq H H'. apply expression_parse_spec in H. apply expression_parse_spec in H'. unfold GWholeExpr in *.
  destruct (expr_at_end U _ _ H) as [(n & -> & Hn)|HE].
  - assert (Hf : ws_rest (p ++ q) = p ++ q).
    { destruct (NumLit_first _ _ Hn) as (c & t1 & -> & Hc). cbn [app]. apply ws_rest_nonws. unfold ws_char, is_dec_digit in *. destruct Hc as [Hc|Hc]; lia. }
    apply GExpr_term in H'; [|exact Hf]. destruct (number_term U n p q e' [] Hn H') as (n' & u & -> & Hn' & E).
    exists n, n'. split; [reflexivity|]. split; [reflexivity|]. unfold number_text. rewrite (NumLit_input _ _ Hn), (NumLit_input _ _ Hn'). split; [reflexivity|].
    rewrite app_nil_r in E. symmetry. exact E.
  - exfalso. destruct (C61_unambiguous_expression U _ _ _ _ _ (HE q) H') as [_ E]. congruence.
Qed.
Print Assumptions C127_expression.

Definition cut_doc : str := lit "a = 12
b {
  c = <<E
x
E
}
d = [1,
 2]
".
Example C127_nonvacuous : exists b, parse_str ascii_ucd cut_doc = OkR b /\ length b = 3%nat /\
  (* cut in the number, after the first element, in the block, in the heredoc, in the list *)
  (exists b', parse_str ascii_ucd (firstn 5 cut_doc) = OkR b' /\ length b' = 1%nat /\ b' <> firstn 1 b) /\
  parse_str ascii_ucd (firstn 7 cut_doc) = OkR (firstn 1 b) /\
  (exists e, parse_str ascii_ucd (firstn 10 cut_doc) = ErrR e) /\ (exists e, parse_str ascii_ucd (firstn 21 cut_doc) = ErrR e) /\
  parse_str ascii_ucd (firstn 26 cut_doc) = OkR (firstn 2 b) /\ (exists e, parse_str ascii_ucd (firstn 36 cut_doc) = ErrR e).
Proof.
  destruct (parse_str ascii_ucd cut_doc) as [b|e| |] eqn:E; [|exfalso; revert E; vm_compute; discriminate..].
  exists b. split; [reflexivity|]. vm_compute in E. injection E as <-. split; [reflexivity|].
  split; [eexists; split; [vm_compute; reflexivity|split; [reflexivity|discriminate]]|].
  split; [vm_compute; reflexivity|]. split; [eexists; vm_compute; reflexivity|]. split; [eexists; vm_compute; reflexivity|].
  split; [vm_compute; reflexivity|]. eexists; vm_compute; reflexivity.
Qed.
(* an accepted expression that is cut can be another accepted expression only if it is a number *)
Example C127_expression_nonvacuous : exists e e', expression_parse ascii_ucd (lit "1.5") = OkR e /\ expression_parse ascii_ucd (lit "1.5" ++ lit "e3") = OkR e' /\ e <> e'.
Proof. eexists. eexists. split; [vm_compute; reflexivity|]. split; [vm_compute; reflexivity|]. discriminate. Qed.
