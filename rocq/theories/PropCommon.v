(** * PropCommon: C122 the documents that both parsers accept *)
From Coq Require Import ZArith Reals SpecFloat.
From Verif Require Import Base Nom Ast Lex Grammar Parser BodyProofs DocProofs Printer Reprint IoSpec NumConv NumSpec Kvp Value OldParser OldGrammar OldProofs PropOld
  ReachSpec VReachSpec AgreeSpec PropAgree LayoutSpec LayoutProofs PropLayout CommonSpec CommonProofs CommonVSpec CommonReach.
Close Scope R_scope.
Close Scope Z_scope.
Open Scope N_scope.
Open Scope list_scope.

(** C122: [parse_str] gives the tree [b] and [value::from_str] the map [m] for a text exactly if the text fills a common
    layout of [b] and the entries of [m]. *)
Theorem C122_exact : forall U s b m,
  (parse_str U s = OkR b /\ from_str U s None (VOk m)) <-> exists l ps, m = Unmerged l /\ BDoc U b l ps /\ Filled ps s.
Proof.
  intros U s b m. rewrite parse_str_spec, C70_from_str_grammar. split.
  - intros (HG & l & -> & HV). destruct (bdoc_complete U b l s HG HV) as (ps & HB & Hs). eauto.
  - intros (l & ps & -> & HB & Hs). split; [eapply (doc_sound U b ps); [eapply bdoc_strict, HB|exact Hs]|]. exists l. split; [reflexivity|]. eapply bdoc_old; eassumption.
Qed.
Print Assumptions C122_exact.
(** So reformatting never takes a document away from one of them only: a text with the same tokens and other gaps is
    still read by both, with the same tree and the same map. *)
Theorem C122_refill : forall U s b m, parse_str U s = OkR b -> from_str U s None (VOk m) ->
  exists l ps, BDoc U b l ps /\ Filled ps s /\ forall s', Filled ps s' -> parse_str U s' = OkR b /\ from_str U s' None (VOk m).
Proof.
  intros U s b m Hb Hm. destruct (proj1 (C122_exact U s b m) (conj Hb Hm)) as (l & ps & -> & HB & Hs).
  exists l, ps. split; [exact HB|]. split; [exact Hs|]. intros s' Hs'. apply C122_exact. eauto.
Qed.
Print Assumptions C122_refill.
(** The trees that have such a text, with the map: those that have a text at all and a translation (heredocs are written as
    quoted strings). *)
Theorem C122_trees : forall U b l,
  (exists s b', parse_str U s = OkR b' /\ own_doc b' = b /\ from_str U s None (VOk (Unmerged l))) <-> ValidDoc U b /\ DocAs b l.
Proof.
  intros U b l. split.
  - intros (s & b' & Hb & <- & Hm). split; [apply (reprint U s b' Hb)|]. destruct (C71_agree U s b' _ Hb Hm) as (l' & [= <-] & H). apply own_doc_as, H.
  - intros [HV HA]. destruct (doc_of_tree U b l HV HA) as (ps & HB). exists (least ps), b.
    destruct (proj2 (C122_exact U (least ps) b (Unmerged l))) as [H1 H2]; [exists l, ps; split; [reflexivity|]; split; [exact HB|apply least_filled]|].
    split; [exact H1|]. split; [|exact H2]. clear - HV.
    assert (HE : forall e, ValidExpr U e -> own_expr e = e).
    { intros e. induction e as [|n|b0|c|l0 IH|l0 IH] using expr_ind'; intros H; cbn [own_expr]; try reflexivity; inversion H; subst; try reflexivity; f_equal.
      - clear H. induction l0 as [|x l0 IHl]; [reflexivity|]. cbn [map]. inversion IH; subst. match goal with [ H : Forall _ (x :: l0) |- _ ] => inversion H; subst end. f_equal; auto.
      - clear H. induction l0 as [|[k x] l0 IHl]; [reflexivity|]. cbn [map fst snd]. inversion IH; subst. match goal with [ H : Forall (fun kv => ValidKey _ _ /\ _) (_ :: l0) |- _ ] => inversion H as [|? ? [? ?] ?]; subst end.
        cbn [fst snd] in *. f_equal; [f_equal; auto|auto]. }
    assert (HEl : forall el, ValidElem U el -> own_elem el = el).
    { intros el. induction el as [n e|t ls b0 IH] using element_ind'; intros H; cbn [own_elem]; inversion H; subst; f_equal; auto.
      clear H. induction b0 as [|x b0 IHb]; [reflexivity|]. cbn [map]. inversion IH; subst. match goal with [ H : Forall (ValidElem U) (x :: b0) |- _ ] => inversion H; subst end. f_equal; auto. }
    induction HV as [|el b Hel _ IH]; [reflexivity|]. cbn [own_doc map]. f_equal; [apply HEl, Hel|exact IH].
Qed.
Print Assumptions C122_trees.
(** The maps that have such a text *)
Theorem C122_values : forall U m,
  (exists s b, IsStr s /\ parse_str U s = OkR b /\ from_str U s None (VOk m)) <-> exists l, m = Unmerged l /\ Forall (CEntry U) l.
Proof.
  intros U m. split.
  - intros (s & b & HS & Hb & Hm). destruct (proj1 (C122_exact U s b m) (conj Hb Hm)) as (l & ps & -> & HB & Hs). exists l. split; [reflexivity|].
    eapply bdoc_values; [exact HB|]. eapply Filled_TokStr; eassumption.
  - intros (l & -> & H). destruct (bdoc_of U l H) as (b & ps & HB & HT). exists (least ps), b. split; [apply least_str, HT|].
    apply C122_exact. exists l, ps. split; [reflexivity|]. split; [exact HB|apply least_filled].
Qed.
Print Assumptions C122_values.

(** A document of both, and its layout *)
Example C122_nonvacuous : exists b l ps, BDoc ascii_ucd b l ps /\ Filled ps both_doc /\ length l = 3%nat.
Proof.
  destruct C71_nonvacuous as (b & l & Hb & Hm & E). destruct (proj1 (C122_exact ascii_ucd both_doc b (Unmerged l)) (conj Hb Hm)) as (l' & ps & [= <-] & HB & Hs). exists b, l, ps. split; [exact HB|split; [exact Hs|]]. exact E.
Qed.
(** Each restriction of the common layouts is one: [parse_str] accepts these texts and [value::from_str] does not.  A
    parenthesis, a last member without a line end, a label without quotes, an attribute in a block on
    one line, a key that is a number. *)
Definition only_strict : list str :=
  [lit "x = (1)"; lit "x = { a = 1 }"; lit "b l {}"; lit "b { x = 1 }"; lit "x = {" ++ [10] ++ lit "1 = 2" ++ [10] ++ lit "}"].
Definition strict_takes (s : str) : bool := match parse_str ascii_ucd s with OkR _ => true | _ => false end.
Definition old_takes (s : str) : bool := match old_body ascii_ucd s with Ok [] _ => true | _ => false end.
Example C122_only_strict : Forall (fun s => (exists b, parse_str ascii_ucd s = OkR b) /\ forall m, ~ from_str ascii_ucd s None (VOk m)) only_strict.
Proof.
  assert (G : forall s, strict_takes s && negb (old_takes s) = true -> (exists b, parse_str ascii_ucd s = OkR b) /\ forall m, ~ from_str ascii_ucd s None (VOk m)).
  { intros s E. apply andb_prop in E. destruct E as [E1 E2]. unfold strict_takes, old_takes in *. split.
    - destruct (parse_str ascii_ucd s) as [b| | |]; [eauto|discriminate..].
    - intros m Hm. unfold from_str in Hm. destruct (old_body ascii_ucd s) as [[|c0 r] m1| |q| |]; try discriminate. }
  assert (A : forallb (fun s => strict_takes s && negb (old_takes s)) only_strict = true) by (vm_compute; reflexivity).
  apply Forall_forall. intros s H. apply G. apply (proj1 (forallb_forall _ _) A s H).
Qed.
