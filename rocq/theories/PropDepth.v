(** * PropDepth: C105 - how deep the parsers recurse

    The depth is that of DepthCount.v: the largest number of calls of the recursive parsers
    under way at once ([expression] and [body]; for [value::from_str], [single_value] and
    [map_values]).  Rust puts a frame on the stack for each; the stack is finite. *)
From Coq Require Import SpecFloat ZArith Lia.
From Verif Require Import Base Nom NomFacts Ast Lex Grammar WsFacts NumFacts StrFacts HeredocFacts Parser ParserFacts ExprProofs BodyProofs DocProofs NumConv Utf8 Kvp Value OldParser OldFacts OldGrammar OldProofs DepthCount DepthProofs.
From Verif Require CallProofs.
Close Scope Z_scope.
Open Scope nat_scope.

(** The instrumented parsers are the parsers. *)
Theorem C105_counted : forall U s, fst (dconfig_file U s) = config_file U s /\ fst (dexpression U s) = expression U s /\
  fst (dold_body U s) = old_body U s.
Proof. intros U s. split; [|split]; [apply config_file_erase|apply expression_erase|apply old_body_erase]. Qed.
Print Assumptions C105_counted.

(** For every text the depth is bounded by the number of opening brackets [ [ ], [ { ], [ ( ]
    in it: no other construct, and no rejected text, makes the parsers recurse. *)
Theorem C105_bounds : forall U s,
  expression_parse_depth U s <= openers s + 1 /\
  parse_str_depth U s <= openers s + 2 /\
  value_from_str_depth U s <= 2 * openers s + 2.
Proof. intros U s. split; [|split]; [apply expression_depth_bound|apply parse_str_depth_bound|apply value_from_str_depth_bound]. Qed.
Print Assumptions C105_bounds.

(** ** There is no other bound *)
Lemma dbind_ge {A B} (x : res A * nat) (f : str -> A -> res B * nat) : snd x <= snd (dbind x f).
Proof. destruct x as [[r v| | | |] n]; cbn; lia. Qed.
Lemma dalt_ge1 {A} (p q : dparser A) s : snd (p s) <= snd (dalt p q s).
Proof. unfold dalt. destruct (p s) as [[r v| | | |] n]; cbn; lia. Qed.
Lemma dalt_flat {A} (p : parser A) (q : dparser A) s : p s = Err -> dalt (flat p) q s = q s.
Proof. intros E. unfold dalt, flat. rewrite E. unfold upto. cbn. destruct (q s); reflexivity. Qed.
Lemma dmany0_ge {A} (p : dparser A) s : snd (p s) <= snd (dmany0 p s).
Proof. unfold dmany0. cbn [dmany0_loop]. destruct (p s) as [[r v| | | |] n]; cbn; try lia. destruct (str_eqb r s); cbn; lia. Qed.
Lemma dseparated_ge {A B} (sep : parser B) (p : dparser A) s : snd (p s) <= snd (dseparated_list sep p s).
Proof. unfold dseparated_list. destruct (p s) as [[r v| | | |] n]; cbn [snd]; try lia. destruct (Nat.eqb _ _); cbn [snd]; lia. Qed.
Lemma dbind_flat {A B} (p : parser A) s r v (f : str -> A -> res B * nat) : p s = Ok r v -> snd (f r v) <= snd (dbind (flat p s) f).
Proof. intros E. unfold flat. rewrite E. cbn. lia. Qed.
Lemma dwrap_ws {A} (p : dparser A) s : dwrap whitespace p s = p (ws_rest s).
Proof. unfold dwrap, dpreceded, flat. destruct (whitespace_eq s) as [w ->]. cbn. unfold upto. cbn. destruct (p (ws_rest s)); reflexivity. Qed.
Lemma dwrap_iws {A} (p : dparser A) s : dwrap inline_whitespace p s = p (iws_rest s).
Proof. unfold dwrap, dpreceded, flat. destruct (inline_whitespace_eq s) as [w ->]. cbn. unfold upto. cbn. destruct (p (iws_rest s)); reflexivity. Qed.

Section U.
Variable U : ucd.
Lemma expr_level f t : ws_rest t = t -> S (snd (dexpression_f U f t)) <= snd (dexpression_f U (S f) (91%N :: t)).
Proof.
  intros Ht. cbn [dexpression_f]. unfold enter. cbn [snd]. apply le_n_S. unfold dexpression_step.
  rewrite dalt_flat by (unfold pmap; rewrite null_first by discriminate; reflexivity).
  rewrite dalt_flat by (unfold pmap; rewrite number_first_err by (try reflexivity; discriminate); reflexivity).
  rewrite dalt_flat by (unfold pmap; rewrite boolean_first by discriminate; reflexivity).
  rewrite dalt_flat by (unfold pmap; rewrite string_p_first by discriminate; reflexivity).
  etransitivity; [|apply dalt_ge1]. unfold dpmap. cbn [snd]. unfold dtuple, dpreceded. etransitivity; [|apply (dbind_flat _ _ t 91%N); apply char_p_eq].
  unfold dterminated at 1. etransitivity; [|apply dbind_ge]. unfold dwhitespace_m, dterminated. etransitivity; [|apply dbind_ge].
  etransitivity; [|apply dseparated_ge]. rewrite dwrap_ws, Ht. lia.
Qed.
Lemma expr_depth x : ws_rest x = x -> forall n f, n < f -> n + 1 <= snd (dexpression_f U f (repeat 91%N n ++ x)).
Proof.
  intros Hx. induction n as [|n IH]; intros f Hf; (destruct f as [|f]; [lia|]).
  - cbn [dexpression_f]. unfold enter. cbn [snd]. lia.
  - cbn [repeat app]. etransitivity; [|apply expr_level]; [|destruct n; [exact Hx|apply (ws_rest_stop 91); discriminate]]. specialize (IH f). lia.
Qed.
Lemma body_level s : parse_str_depth U (97%N :: 61%N :: 91%N :: s) >= S (snd (dexpression U (91%N :: s))).
Proof.
  unfold parse_str_depth, dconfig_file, dterminated. unfold ge. etransitivity; [|apply dbind_ge]. unfold dbody. cbn [dbody_f].
  unfold enter. cbn [snd]. apply le_n_S. set (pb := dbody_f U _). clearbody pb. unfold dbody_step, dwhitespace_m, dterminated at 1. etransitivity; [|apply dbind_ge].
  etransitivity; [|apply dmany0_ge]. rewrite dwrap_ws, ws_rest_stop by discriminate. unfold dterminated. etransitivity; [|apply dbind_ge].
  unfold dbody_element. etransitivity; [|apply dalt_ge1]. unfold dpmap. cbn [snd]. unfold dattribute, dinline_whitespace_m, dterminated. etransitivity; [|apply dbind_ge].
  etransitivity; [|eapply dbind_flat; rewrite wrap_iws, iws_rest_stop by discriminate; apply CallProofs.id_a].
  etransitivity; [|eapply dbind_flat; rewrite wrap_iws, iws_rest_stop by discriminate; apply char_p_eq].
  etransitivity; [|apply dbind_ge]. rewrite dwrap_iws, iws_rest_stop by discriminate. lia.
Qed.
Lemma value_level f t : ws_rest t = t -> S (snd (fst (dold_f U f) t)) <= snd (fst (dold_f U (S f)) (91%N :: t)).
Proof.
  intros Ht. cbn [dold_f]. destruct (dold_f U f) as [pv pm]. cbn [fst]. unfold enter. cbn [snd]. apply le_n_S. unfold dsingle_value_step.
  rewrite dalt_flat by (unfold pmap; rewrite null_first by discriminate; reflexivity).
  rewrite dalt_flat by (apply literal_number_err, number_first_err; [reflexivity|discriminate..]).
  rewrite dalt_flat by (unfold pmap; rewrite boolean_first by discriminate; reflexivity).
  rewrite dalt_flat by (unfold pmap; rewrite string_p_first by discriminate; reflexivity).
  etransitivity; [|apply dalt_ge1]. unfold dpmap. cbn [snd]. unfold dvlist, dpreceded. etransitivity; [|apply (dbind_flat _ _ t 91%N); apply char_p_eq].
  unfold dterminated at 1. etransitivity; [|apply dbind_ge]. unfold dwhitespace_m, dterminated. etransitivity; [|apply dbind_ge].
  etransitivity; [|apply dseparated_ge]. rewrite dwrap_ws, Ht. lia.
Qed.
Lemma value_depth x : ws_rest x = x -> forall n f, n < f -> n + 1 <= snd (fst (dold_f U f) (repeat 91%N n ++ x)).
Proof.
  intros Hx. induction n as [|n IH]; intros f Hf; (destruct f as [|f]; [lia|]).
  - cbn [dold_f]. destruct (dold_f U f). unfold enter. cbn [snd fst]. lia.
  - cbn [repeat app]. etransitivity; [|apply value_level]; [|destruct n; [exact Hx|apply (ws_rest_stop 91); discriminate]]. specialize (IH f). lia.
Qed.
Lemma entries_level s : value_from_str_depth U (97%N :: 61%N :: 91%N :: s) >= S (snd (fst (dold_f U (S (S (length s)) + 1)) (91%N :: s))).
Proof.
  unfold value_from_str_depth, dold_body, dterminated, ge. etransitivity; [|apply dbind_ge]. unfold dmap_values. cbn [length].
  replace (S (S (length s)) + 1) with (S (S (S (length s)))) by lia. set (g := S (S (S (length s)))). cbn [dold_f]. destruct (dold_f U g) as [pv pm]. cbn [fst snd].
  unfold enter. cbn [snd]. apply le_n_S. unfold dmap_values_step. etransitivity; [|apply dbind_ge]. unfold dwhitespace_m, dterminated at 1. etransitivity; [|apply dbind_ge].
  etransitivity; [|apply dmany0_ge]. rewrite dwrap_ws, ws_rest_stop by discriminate. unfold dterminated. etransitivity; [|apply dbind_ge].
  unfold dold_attribute, dinline_whitespace_m, dterminated. etransitivity; [|apply dbind_ge]. etransitivity; [|apply dalt_ge1].
  etransitivity; [|eapply dbind_flat; rewrite wrap_iws, iws_rest_stop by discriminate; apply CallProofs.key_a].
  etransitivity; [|eapply dbind_flat; rewrite wrap_iws, iws_rest_stop by discriminate; apply char_p_eq].
  etransitivity; [|apply dbind_ge]. rewrite dwrap_iws, iws_rest_stop by discriminate. lia.
Qed.
End U.

(** [n] pairs of square brackets, one inside the other: a tuple of one tuple of one tuple... *)
Definition tower (n : nat) : str := lit "a=" ++ repeat 91%N n ++ repeat 93%N n.
Fixpoint tuples (n : nat) : expr := match n with O => ETuple [] | S m => ETuple [tuples m] end.
Fixpoint lists (n : nat) : value := match n with O => VList [] | S m => VList [lists m] end.
Lemma repeat_snoc (c : N) n r : repeat c (S n) ++ r = repeat c n ++ c :: r.
Proof. change (c :: r) with ([c] ++ r). rewrite app_assoc. rewrite <- repeat_cons. reflexivity. Qed.
Lemma tower_expr U n : forall r, GExpr U (tuples n) (repeat 91%N (S n) ++ repeat 93%N (S n) ++ r) r.
Proof.
  induction n as [|n IH]; intros r; apply GE_term; cbn [tuples].
  - apply (GT_tuple U [] (93%N :: r) r). apply (GI_nil U [] r). constructor.
  - change (repeat 91%N (S (S n))) with ([91%N] ++ repeat 91%N (S n)). rewrite <- app_assoc. apply (GT_tuple U). rewrite (repeat_snoc 93%N (S n)).
    apply (GI_last U _ [] []); [constructor|constructor|apply IH].
Qed.
Lemma tower_value U n : forall r, VTerm U (lists n) (repeat 91%N (S n) ++ repeat 93%N (S n) ++ r) r.
Proof.
  induction n as [|n IH]; intros r; cbn [lists].
  - apply (VT_list U [] (93%N :: r) r). apply (VI_nil U [] r). constructor.
  - change (repeat 91%N (S (S n))) with ([91%N] ++ repeat 91%N (S n)). rewrite <- app_assoc. apply (VT_list U). rewrite (repeat_snoc 93%N (S n)).
    apply (VI_last U _ [] []); [constructor|constructor|apply IH].
Qed.
Lemma tower_openers n : openers (tower n) = n.
Proof.
  unfold tower. rewrite !openers_app. change (openers (lit "a=")) with 0. unfold openers.
  assert (H1 : filter is_open (repeat 91%N n) = repeat 91%N n) by (induction n as [|n IH]; [reflexivity|cbn; rewrite IH; reflexivity]).
  assert (H2 : filter is_open (repeat 93%N n) = []) by (clear H1; induction n as [|n IH]; [reflexivity|cbn; exact IH]).
  rewrite H1, H2, repeat_length. cbn. lia.
Qed.
(** Both parsers accept every tower, and need as many calls at once as it is high, and two. *)
Theorem C105_tower : forall U n,
  parse_str U (tower (S n)) = OkR [Attr (Borrowed (lit "a")) (tuples n)] /\
  parse_str_depth U (tower (S n)) = n + 3 /\
  (forall o, from_str U (tower (S n)) None o <-> o = VOk (Unmerged [(KeyIdent (lit "a"), lists n)])) /\
  value_from_str_depth U (tower (S n)) >= n + 3 /\
  length (tower (S n)) = 2 * n + 4.
Proof.
  intros U n.
  assert (Hs : ws_rest (repeat 93%N (S n)) = repeat 93%N (S n)) by (apply (ws_rest_stop 93); discriminate).
  assert (Ht : tower (S n) = 97%N :: 61%N :: 91%N :: repeat 91%N n ++ repeat 93%N (S n)) by reflexivity.
  split; [|split; [|split; [|split]]].
  - apply parse_str_spec. unfold GConfig. rewrite Ht. eapply (GB_cons U _ [] [] [] _ [] [] []); [constructor|constructor| |right; auto|apply (GB_nil U [] []); constructor].
    apply GE_attr. eapply (GA U _ _ [] []); [constructor|constructor| |].
    + apply identifier_ok, CallProofs.id_a.
    + pose proof (tower_expr U n []) as H. rewrite app_nil_r in H. exact H.
  - apply Nat.le_antisymm; [destruct (C105_bounds U (tower (S n))) as (_ & H & _); rewrite tower_openers in H; lia|]. rewrite Ht.
    etransitivity; [|apply body_level]. unfold dexpression. cbn [length]. pose proof (expr_depth U _ Hs (S n) (S (S (length (repeat 91%N n ++ repeat 93%N (S n)))))) as H.
    rewrite app_length, !repeat_length in *. change (repeat 91%N (S n) ++ repeat 93%N (S n)) with (91%N :: repeat 91%N n ++ repeat 93%N (S n)) in H. lia.
  - unfold from_str. assert (H : old_body U (tower (S n)) = Ok [] (Unmerged [(KeyIdent (lit "a"), lists n)])).
    { apply old_body_spec. eexists. split; [reflexivity|]. unfold VDoc. rewrite Ht. eapply (VE_cons U _ _ _ [] _ [] []); [constructor| | |apply (VE_nil U [] []); constructor].
      - eapply (VE_attr U _ _ [] []); [constructor|constructor|apply VK_ident, identifier_ok, CallProofs.id_a|].
        pose proof (tower_value U n []) as Hv. rewrite app_nil_r in Hv. exact Hv.
      - apply (VS_end []). constructor. }
    rewrite H. cbn. reflexivity.
  - rewrite Ht. unfold ge. etransitivity; [|apply entries_level]. pose proof (value_depth U _ Hs (S n) (S (S (length (repeat 91%N n ++ repeat 93%N (S n)))) + 1)) as H.
    rewrite app_length, !repeat_length in *. change (repeat 91%N (S n) ++ repeat 93%N (S n)) with (91%N :: repeat 91%N n ++ repeat 93%N (S n)) in H. lia.
  - rewrite Ht. cbn [length]. rewrite app_length, !repeat_length. lia.
Qed.
Print Assumptions C105_tower.
(** Two levels per brace in [value::from_str]: the bound is reached. *)
Example C105_cases :
  parse_str_depth ascii_ucd [] = 1 /\ value_from_str_depth ascii_ucd (lit "a={a={a={a=1") = 8 /\
  expression_parse_depth ascii_ucd (lit "[1,2,(3)]") = 3 /\ parse_str_depth ascii_ucd (lit "b ""[[["" {
 c {
  d = [1]
 }
}
") = 5 /\ openers (lit "[1,2,(3)]") = 2.
Proof. vm_compute. repeat split; reflexivity. Qed.
