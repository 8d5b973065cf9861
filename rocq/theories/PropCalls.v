(** * PropCalls: C103, C104, C118 - how much work the parsers do

    The counts are those of CallCount.v: calls of [expression] and [body] for the strict
    parser, of [single_value] and [map_values] for the parser behind [value::from_str]. *)
From Coq Require Import SpecFloat ZArith Lia.
From Verif Require Import Base Nom NomFacts Ast Lex Grammar WsFacts NumFacts StrFacts HeredocFacts Parser ParserFacts ExprProofs BodyProofs DocProofs NumConv Utf8 Kvp Value OldParser OldFacts OldGrammar OldProofs CallCount CallProofs CallBound.
Close Scope Z_scope.
Open Scope nat_scope.

(** ** C103: [parse_str] and [Expression::parse] *)
(** The counted parsers are the parsers. *)
Theorem C103_counted : forall U s, fst (cconfig_file U s) = config_file U s /\ fst (cexpression U s) = expression U s.
Proof. intros U s. split; [apply config_file_erase|apply expression_erase]. Qed.
Print Assumptions C103_counted.
(** Whatever the text - accepted, rejected or making the parser panic - there is at most one
    call per character, plus one. *)
Theorem C103_parse_str : forall U s, parse_str_calls U s <= length s + 1.
Proof. exact parse_str_linear. Qed.
Print Assumptions C103_parse_str.
Theorem C103_expression : forall U s, expression_parse_calls U s <= length s + 1.
Proof. exact expression_linear. Qed.
Print Assumptions C103_expression.
(** Cases: the bound is reached by the empty text and by a line of unclosed brackets. *)
Example C103_cases : parse_str_calls ascii_ucd [] = 1 /\ expression_parse_calls ascii_ucd (lit "[[[[[[[[") = 9 /\
  expression_parse_calls ascii_ucd (lit "[1,2,3]") = 4 /\ parse_str_calls ascii_ucd (lit "a={a={a={a={}}}}") = 9.
Proof. vm_compute. split; [|split; [|split]]; reflexivity. Qed.

(** ** C104: [value::from_str] *)
Theorem C104_counted : forall U s, fst (cold_body U s) = old_body U s.
Proof. exact old_body_erase. Qed.
Print Assumptions C104_counted.
(** On the texts it accepts it is as frugal, *)
Theorem C104_accepted : forall U s mb m, from_str U s mb (VOk m) -> value_from_str_calls U s <= length s + 1.
Proof.
  intros U s mb m H. unfold from_str in H. destruct (old_body U s) as [r m0| | | |] eqn:E; try discriminate.
  pose proof (old_body_rest U _ _ _ E) as ->. exact (value_from_str_linear U s m0 E).
Qed.
Print Assumptions C104_accepted.

(** but not on the others. [n] objects, each but the last the only member of the one before:
    [a={a={...a={}...}}] *)
Definition nested (n : nat) : str := concat (repeat (lit "a={") n) ++ repeat 125%N n.
Fixpoint nested_value (n : nat) : expr :=
  match n with
  | O => EObject []
  | S n' => EObject [(KIdent (Borrowed (lit "a")), nested_value n')]
  end.
Lemma nested_opens n : forall t, concat (repeat (lit "a={") n) ++ t = opens n t.
Proof. induction n as [|n IH]; intros t; [reflexivity|]. cbn [repeat concat]. rewrite <- app_assoc, IH. reflexivity. Qed.
Lemma opens_S n : forall t, opens (S n) t = opens n (opener ++ t).
Proof. induction n as [|n IH]; intros t; [reflexivity|]. change (opens (S (S n)) t) with (opener ++ opens (S n) t). rewrite IH. reflexivity. Qed.
Lemma id_a_G U s : GIdent U (Borrowed (lit "a")) (97%N :: 61%N :: s) (61%N :: s).
Proof. apply identifier_ok. reflexivity. Qed.
Lemma nested_term U n : forall r, GExpr U (nested_value n) (123%N :: opens n (repeat 125%N (S n) ++ r)) r.
Proof.
  induction n as [|n IH]; intros r; apply GE_term.
  - apply (GT_object U [] (125%N :: r) r). apply (GM_nil U [] r). constructor.
  - apply (GT_object U _ (opens (S n) (repeat 125%N (S (S n)) ++ r)) r).
    change (opens (S n) (repeat 125%N (S (S n)) ++ r)) with (97%N :: 61%N :: 123%N :: opens n (repeat 125%N (S (S n)) ++ r)).
    assert (E : repeat 125%N (S (S n)) ++ r = repeat 125%N (S n) ++ 125%N :: r).
    { change (125%N :: r) with ([125%N] ++ r). rewrite app_assoc. rewrite <- repeat_cons. reflexivity. }
    rewrite E. eapply (GM_cons U _ _ [] [] [] [] [] _ _ (125%N :: r) (125%N :: r) r); [constructor|constructor|constructor|constructor| | | |].
    + apply GK_ident, id_a_G.
    + apply IH.
    + right. right. split; [reflexivity|eexists; reflexivity].
    + apply (GM_nil U [] r). constructor.
Qed.
Lemma nested_doc U n : parse_str U (nested (S n)) = OkR [Attr (Borrowed (lit "a")) (nested_value n)].
Proof.
  apply parse_str_spec. unfold nested. rewrite nested_opens. unfold GConfig.
  eapply (GB_cons U _ [] [] [] _ [] [] []); [constructor|constructor| |right; auto|apply (GB_nil U [] []); constructor].
  apply GE_attr. eapply (GA U _ _ [] []); [constructor|constructor| |].
  - apply id_a_G.
  - pose proof (nested_term U n []) as H. rewrite app_nil_r in H. exact H.
Qed.
Lemma mv_brace U f Z : snd (cold_f U (S f)) (125%N :: Z) = (Ok (125%N :: Z) (Unmerged []), 1).
Proof.
  rewrite cold_f_S. cbn [snd]. unfold tick, cmap_values_step. set (it := cwrap _ _).
  assert (Ei : it (125%N :: Z) = (Err, 0)).
  { unfold it. rewrite cwrap_ws, ws_rest_stop by discriminate. unfold cterminated. rewrite cattr_dead by eauto. reflexivity. }
  unfold cwhitespace_m, cterminated, cmany0. cbn [cmany0_loop]. rewrite Ei. cbn [cbind]. unfold lift.
  destruct (whitespace_eq (125%N :: Z)) as [w ->]. rewrite ws_rest_stop by discriminate. reflexivity.
Qed.
Lemma sv_braces U f Z : fst (cold_f U (S (S f))) (123%N :: 125%N :: Z) = (Ok Z (VObject [Unmerged []]), 2).
Proof.
  rewrite cold_f_S. cbn [fst]. unfold tick, csingle_value_step. rewrite !calt_lift.
  rewrite (pmap_err (fun _ => VNull)) by (apply null_first; discriminate).
  rewrite literal_number_err by (apply number_first_err; [reflexivity|discriminate..]).
  rewrite (pmap_err VBoolean) by (apply boolean_first; discriminate).
  rewrite (pmap_err (fun c => VString (cow_str c))) by (apply string_p_first; discriminate).
  unfold calt, cpmap. rewrite cvlist_eq, char_p_neq by discriminate. cbn [map_res bind fst snd add].
  rewrite cmap_expression_eq, (ws_rest_stop 123) by discriminate. rewrite (char_p_eq 123).
  rewrite (ws_rest_stop 125) by discriminate. unfold cterminated, cwhitespace_m, cterminated. rewrite mv_brace. cbn [cbind]. unfold lift.
  destruct (whitespace_eq (125%N :: Z)) as [w ->]. rewrite ws_rest_stop by discriminate. reflexivity.
Qed.
Lemma inner_calls U k f : 3 <= f -> exists r v, snd (cold_f U f) (lit "a={}" ++ 125%N :: k) = (Ok r v, 3) /\ forall q w, char_p c_rbrace (ws_rest r) <> Ok q w.
Proof.
  intros Hf. destruct f as [|[|[|f]]]; try lia. exists (lit "a={}" ++ 125%N :: k), (Unmerged []).
  change (lit "a={}" ++ 125%N :: k) with (97%N :: 61%N :: 123%N :: 125%N :: 125%N :: k). split.
  2:{ intros q w. rewrite ws_rest_stop by discriminate. discriminate. }
  rewrite cold_f_S. cbn [snd]. pose proof (sv_braces U f (125%N :: k)) as Ev. set (pv := fst (cold_f U (S (S f)))) in *. set (pm := snd (cold_f U (S (S f)))). clearbody pv pm.
  unfold tick, cmap_values_step. set (it := cwrap _ _). set (X := 97%N :: _) in *.
  assert (Ei : it X = (Err, 2)).
  { unfold it, X. rewrite cwrap_ws, ws_rest_stop by discriminate. unfold cterminated.
    assert (Ea : cold_attribute U pv pm (97%N :: 61%N :: 123%N :: 125%N :: 125%N :: k) = (Ok (125%N :: k) (KeyIdent (lit "a"), VObject [Unmerged []]), 2)).
    { unfold cold_attribute, cinline_whitespace_m, cterminated, calt, lift. rewrite !wrap_iws, !(iws_rest_stop 97) by discriminate. rewrite key_a. cbn [cbind].
      rewrite !wrap_iws, !(iws_rest_stop 61) by discriminate. rewrite (char_p_eq 61). cbn [cbind]. rewrite !cwrap_iws, !(iws_rest_stop 123) by discriminate. rewrite Ev.
      cbn [cbind add fst snd]. destruct (inline_whitespace_eq (125%N :: k)) as [w ->]. rewrite iws_rest_stop by discriminate. reflexivity. }
    rewrite Ea. cbn [cbind]. unfold lift.
    assert (Es : old_separator (125%N :: k) = Err).
    { unfold old_separator, alt. rewrite ws_m, wrap_ws, ws_rest_stop by discriminate. change (lit ",") with [44%N]. rewrite tag_first by discriminate. cbn [bind].
      unfold pmap. rewrite newline_first_err by discriminate. reflexivity. }
    rewrite Es. reflexivity. }
  unfold cwhitespace_m, cterminated, cmany0. cbn [cmany0_loop]. rewrite Ei. cbn [cbind]. unfold lift.
  destruct (whitespace_eq X) as [w ->]. unfold X. rewrite ws_rest_stop by discriminate. reflexivity.
Qed.
(** [parse_str] accepts these texts (within the bound of C103), while
    [value::from_str] - under every merge behaviour - rejects them, after a number of calls that
    doubles with every level. *)
Theorem C104_doubling : forall U n,
  parse_str U (nested (n + 2)) = OkR [Attr (Borrowed (lit "a")) (nested_value (n + 1))] /\
  (forall mb o, from_str U (nested (n + 2)) mb o <-> o = VErr (RParse (Some (nested (n + 2))))) /\
  value_from_str_calls U (nested (n + 2)) = 10 * 2 ^ n - 2 /\
  length (nested (n + 2)) = 4 * n + 8.
Proof.
  intros U n.
  assert (El : length (nested (n + 2)) = 4 * n + 8).
  { unfold nested. rewrite app_length, repeat_length. assert (H : forall m, length (concat (repeat (lit "a={") m)) = 3 * m) by (induction m as [|m IH]; [reflexivity|cbn [repeat concat]; rewrite app_length, IH; cbn; lia]). rewrite H. lia. }
  assert (En : nested (n + 2) = opens (S n) (lit "a={}" ++ 125%N :: repeat 125%N n)).
  { unfold nested. rewrite nested_opens. rewrite Nat.add_comm. cbn [Nat.add]. rewrite opens_S. reflexivity. }
  assert (Hc : exists v, cmap_values U (nested (n + 2)) = (Ok (nested (n + 2)) v, 10 * 2 ^ n - 2)).
  { destruct (opens_calls U (lit "a={}" ++ 125%N :: repeat 125%N n) 3 3) with (n := S n) (f := S (length (nested (n + 2)))) as (r & v & H & _ & _ & Hr).
    - apply (ws_rest_stop 97); discriminate.
    - intros f Hf. apply inner_calls, Hf.
    - lia.
    - rewrite <- En in *. specialize (Hr (Nat.lt_0_succ n)). subst r. exists v. unfold cmap_values. rewrite H. f_equal. rewrite Nat.pow_succ_r'. lia. }
  destruct Hc as [v Hc]. assert (Hm : map_values U (nested (n + 2)) = Ok (nested (n + 2)) v).
  { pose proof (proj2 (er_old_f U (S (length (nested (n + 2))))) (nested (n + 2))) as He. unfold cmap_values in Hc. rewrite Hc in He. symmetry. exact He. }
  assert (Hne : exists c q, nested (n + 2) = c :: q) by (rewrite En; eexists; eexists; reflexivity). destruct Hne as (c & q & Hne).
  split; [replace (n + 2) with (S (n + 1)) by lia; apply nested_doc|]. split; [|split; [|exact El]].
  - intros mb o. unfold from_str, old_body, exact, terminated. rewrite Hm. cbn [bind]. unfold eof_rest. rewrite Hm, Hne. reflexivity.
  - unfold value_from_str_calls, cold_body. rewrite cterminated_lift_snd, Hc. reflexivity.
Qed.
Print Assumptions C104_doubling.
(** So no multiple of the length bounds its work, nor any power of it. *)
Theorem C104_no_bound : forall U k, exists s, (exists b, parse_str U s = OkR b) /\ value_from_str_calls U s > length s ^ k + k.
Proof.
  intros U k. set (j := 2 * k + 2). set (m := 2 * j). set (n := 2 ^ m). exists (nested (n + 2)).
  destruct (C104_doubling U n) as (Hp & _ & Hc & Hl). split; [eauto|]. rewrite Hc, Hl.
  assert (Hj : j < 2 ^ j) by (apply Nat.pow_gt_lin_r; lia).
  assert (Hm : k * (m + 4) + 1 <= n).
  { unfold n, m. replace (2 * j) with (j + j) by lia. rewrite Nat.pow_add_r. assert (S j * S j <= 2 ^ j * 2 ^ j) by (apply Nat.mul_le_mono; lia).
    assert (k * (j + j + 4) + 1 <= S j * S j); [unfold j; nia|lia]. }
  assert (Hn : 1 <= n) by lia.
  assert (H1 : (4 * n + 8) ^ k <= 2 ^ (k * (m + 4))).
  { rewrite (Nat.mul_comm k), Nat.pow_mul_r. apply Nat.pow_le_mono_l. rewrite Nat.pow_add_r. fold n. change (2 ^ 4) with 16. lia. }
  assert (H2 : 2 ^ (k * (m + 4)) <= 2 ^ n) by (apply Nat.pow_le_mono_r; lia).
  assert (H3 : n < 2 ^ n) by (apply Nat.pow_gt_lin_r; lia).
  assert (H4 : k <= n) by (unfold n; assert (m < 2 ^ m) by (apply Nat.pow_gt_lin_r; lia); unfold m, j in *; lia).
  clearbody n. lia.
Qed.
Print Assumptions C104_no_bound.
(** A line of openings only: rejected by both, and twice the work for each. *)
Theorem C104_unclosed : forall U n, value_from_str_calls U (concat (repeat (lit "a={") n)) = 3 * 2 ^ n - 2 /\
  parse_str_calls U (concat (repeat (lit "a={") n)) <= 3 * n + 1.
Proof.
  intros U n. rewrite <- (app_nil_r (concat _)), nested_opens.
  assert (El : length (opens n []) = 3 * n) by (clear; induction n as [|n IH]; [reflexivity|]; change (opens (S n) []) with (97%N :: 61%N :: 123%N :: opens n []); cbn [length]; rewrite IH; lia).
  split; [|rewrite <- El; apply C103_parse_str].
  destruct (opens_calls U [] 1 1) with (n := n) (f := S (length (opens n []))) as (r & v & H & _).
  - reflexivity.
  - intros f Hf. destruct f as [|f]; [lia|]. exists [], (Unmerged []). split; [|discriminate]. cbn [cold_f]. destruct (cold_f U f). reflexivity.
  - lia.
  - unfold value_from_str_calls, cold_body. rewrite cterminated_lift_snd. unfold cmap_values. rewrite H. reflexivity.
Qed.
Print Assumptions C104_unclosed.
Example C104_cases : value_from_str_calls ascii_ucd (nested 2) = 8 /\ value_from_str_calls ascii_ucd (nested 9) = 1278 /\
  value_from_str_calls ascii_ucd (lit "a = 1
b = [1, 2]
") = 5.
Proof. vm_compute. split; [|split]; reflexivity. Qed.

(** ** C118: the most work [value::from_str] can be made to do *)
(** Each opening brace of the text at most doubles the calls: a text with [b] of them costs at
    most [2^b] calls per character. Texts with few braces are cheap, accepted or not. *)
Theorem C118_braces : forall U s, value_from_str_calls U s <= (length s + 1) * 2 ^ count_occ N.eq_dec s 123%N.
Proof. exact calls_braces. Qed.
Print Assumptions C118_braces.
(** So a text without braces costs at most one call per character, plus one, as with [parse_str]. *)
Theorem C118_no_braces : forall U s, ~ In 123%N s -> value_from_str_calls U s <= length s + 1.
Proof.
  intros U s H. pose proof (C118_braces U s) as B. apply (count_occ_not_In N.eq_dec) in H. rewrite H in B. cbn in B. lia.
Qed.
Print Assumptions C118_no_braces.
(** A text of at most [2n] characters costs fewer than [2^(n+1)] calls, *)
Theorem C118_length : forall U s n, length s <= 2 * n -> value_from_str_calls U s < 2 ^ (n + 1).
Proof.
  intros U s n H. pose proof (calls_length U s) as B. pose proof (best_mono _ _ H) as M. rewrite best_even in M. pose proof (pow2_pos (n + 1)). lia.
Qed.
Print Assumptions C118_length.
(** and for every [n] the text [a{a{...a{] of [2n] characters costs all of them: there is no
    worse text of that length. *)
Theorem C118_worst : forall U n, let s := concat (repeat (lit "a{") n) in
  length s = 2 * n /\ value_from_str_calls U s = 2 ^ (n + 1) - 1 /\
  forall s', length s' <= length s -> value_from_str_calls U s' <= value_from_str_calls U s.
Proof.
  intros U n s. pose proof (blocks_of_length n) as L. pose proof (worst_exact U n) as W. fold (blocks_of n) in s. fold s in L, W. split; [exact L|]. split; [exact W|].
  intros s' H. rewrite L in H. rewrite W. pose proof (C118_length U s' n H). lia.
Qed.
Print Assumptions C118_worst.
Example C118_cases : value_from_str_calls ascii_ucd (lit "a{a{a{a{a{") = 63 /\ length (lit "a{a{a{a{a{") = 10 /\
  value_from_str_calls ascii_ucd (lit "a=[1,2,[3],") = 7 /\ count_occ N.eq_dec (lit "a={b{c=[}") 123%N = 2.
Proof. vm_compute. repeat split; reflexivity. Qed.
