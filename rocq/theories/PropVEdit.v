(** * PropVEdit: C124 a part of a text that [value::from_str] reads can be replaced in place *)
From Coq Require Import ZArith.
From Verif Require Import Base Nom Ast Lex Grammar WsFacts Parser BodyProofs Locality IoSpec NumConv Kvp Value OldParser OldGrammar OldProofs OldLocality PropOld
  CommonSpec VEditSpec VEditProofs.
Close Scope Z_scope.
Open Scope N_scope.
Open Scope list_scope.

(** C124, values: whatever the value - in a list, an object or a block, at any depth - unless it is
    itself an object or a block, there is a stretch of the text that is its text, and the text of any other
    value can stand there instead: the result changes there and nowhere else. *)
Theorem C124_value : forall U l1 k c v l2 s, ~ BlockLike v ->
  from_str U s None (VOk (Unmerged (l1 ++ (k, vplug c v) :: l2))) ->
  exists s1 t s2, s = s1 ++ t ++ s2 /\ VTerm U v (t ++ s2) s2 /\
    (forall t' v', VTerm U v' (t' ++ s2) s2 -> from_str U (s1 ++ t' ++ s2) None (VOk (Unmerged (l1 ++ (k, vplug c v') :: l2)))) /\
    (forall t' v', VTerm U v' t' [] -> from_str U (s1 ++ t' ++ s2) None (VOk (Unmerged (l1 ++ (k, vplug c v') :: l2)))).
Proof.
  intros U l1 k c v l2 s Hb H. apply C70_from_str_grammar in H as (l & [= <-] & H).
  apply (value_edit U _ _ _ _ _ _ Hb) in H as (s1 & t & s2 & -> & Ht & HD & HG). exists s1, t, s2. split; [reflexivity|]. split; [exact Ht|].
  split; intros t' v' Hv'; apply C70_from_str_grammar; eexists; (split; [reflexivity|]); apply HG; [exact Hv'|].
  apply VTerm_replace in Hv' as (t0 & -> & _ & Hv'). rewrite app_nil_r. apply Hv'; [exact HD|]. intros (e0 & r' & [|] & E); discriminate.
Qed.
Print Assumptions C124_value.

Lemma VDoc_split U l1 l2 d : VDoc U (l1 ++ l2) d -> exists d1 d2, d = d1 ++ d2 /\ VDoc U l1 d1 /\ VDoc U l2 d2.
Proof.
  unfold VDoc. revert d; induction l1 as [|[k v] l1 IH]; intros d H.
  - exists [], d. split; [reflexivity|]. split; [apply (VE_nil U [] []); constructor|exact H].
  - cbn [app] in H. inversion H as [|k0 v0 l w s s1 s2 r Hw He Hsep Hl E1 E2 E3]; subst.
    apply IH in Hl as (d1 & d2 & E & H1 & H2). apply VEntry_replace in He as (te & -> & Hte & He).
    destruct Hsep as [w' s Hw'|i n s Hi Hn|i Hi]; subst.
    + exists (w ++ te ++ w' ++ [44] ++ d1), d2. split; [rewrite <- !app_assoc; reflexivity|]. split; [|exact H2].
      eapply VE_cons; [exact Hw| |apply VS_comma, Hw'|exact H1]. apply He; [apply Delim_ws; [exact Hw'|reflexivity]|apply EolAt_mid; lia].
    + exists (w ++ te ++ i ++ n ++ d1), d2. split; [rewrite <- !app_assoc; reflexivity|]. split; [|exact H2].
      eapply VE_cons; [exact Hw| |apply VS_line; [exact Hi|exact Hn]|exact H1]. apply He; [apply Delim_iws; [exact Hi|apply Delim_LineEnd, Hn]|apply EolAt_LineEnd, Hn].
    + symmetry in E. apply app_eq_nil in E as [-> ->]. exists (w ++ te ++ i), []. split; [rewrite app_nil_r; reflexivity|]. split; [|exact H2].
      eapply VE_cons; [exact Hw| |apply VS_end, Hi|exact H1]. apply He; [rewrite <- (app_nil_r i); apply Delim_iws; [exact Hi|exact I]|auto].
Qed.
Lemma VDoc_parts U : forall ls x, VDoc U (concat ls) x -> ls <> [] ->
  exists xs, x = concat xs /\ Forall2 (fun x l => from_str U x None (VOk (Unmerged l))) xs ls.
Proof.
  induction ls as [|l ls IH]; intros x H Hn; [congruence|]. destruct ls as [|l' ls].
  - cbn [concat] in H. rewrite app_nil_r in H. exists [x]. split; [cbn; rewrite app_nil_r; reflexivity|]. constructor; [apply C70_from_str_grammar; eauto|constructor].
  - cbn [concat] in H. apply VDoc_split in H as (x1 & x2 & -> & H1 & H2). destruct (IH x2 H2) as (xs & -> & HF); [discriminate|].
    exists (x1 :: xs). split; [reflexivity|]. constructor; [apply C70_from_str_grammar; eauto|exact HF].
Qed.
Lemma VEntries_app U l1 d1 : forall r n, VEntries U l1 d1 r -> r = [] -> LineEnd n -> forall l2 d2 r2, VEntries U l2 d2 r2 -> VEntries U (l1 ++ l2) (d1 ++ n ++ d2) r2.
Proof.
  intros r n H ER Hn0 l2 d2 r2 H2. induction H as [w r Hw|k v l w s s1 s2 r Hw He Hsep Hl IH].
  - subst. rewrite app_nil_r. cbn [app]. apply VEntries_ws; [exact Hw|]. apply VEntries_ws; [apply Ws_LineEnd, Hn0|exact H2].
  - specialize (IH ER). apply VEntry_replace in He as (te & -> & Hte & He). rewrite <- !app_assoc.
    destruct Hsep as [w' s2 Hw'|i n' s2 Hi Hn'|i Hi]; rewrite <- ?app_assoc.
    + econstructor; [exact Hw| |apply VS_comma, Hw'|exact IH].
      apply He; [apply Delim_ws; [exact Hw'|reflexivity]|apply EolAt_mid; lia].
    + econstructor; [exact Hw| |apply VS_line; [exact Hi|exact Hn']|exact IH].
      apply He; [apply Delim_iws; [exact Hi|apply Delim_LineEnd, Hn']|apply EolAt_LineEnd, Hn'].
    + apply VEntries_nil_inv in Hl as [-> _]; [|reflexivity]. cbn [app] in *.
      econstructor; [exact Hw| |apply VS_line; [exact Hi|exact Hn0]|exact H2].
      apply He; [apply Delim_iws; [exact Hi|apply Delim_LineEnd, Hn0]|]. intros HE. apply EolAt_iws in HE; [contradiction|exact Hi].
Qed.
Lemma lines_entries U ts ls : Forall2 (fun t l => from_str U t None (VOk (Unmerged l))) ts ls ->
  forall r, VEntries U (concat ls) (concat (map (fun t => t ++ [10]) ts) ++ r) r.
Proof.
  intros HT r. induction HT as [|t l ts ls Ht _ IH]; cbn [map concat].
  - apply (VE_nil U [] r). constructor.
  - rewrite <- !app_assoc. apply C70_from_str_grammar in Ht as (l0 & [= <-] & Ht). eapply VEntries_app; [exact Ht|reflexivity|repeat constructor|exact IH].
Qed.

(** C124, entries: however the entries of an object or a block, at any depth, are cut into parts, there is a stretch
    of the text that consists of the texts of the parts, each of which [value::from_str] reads by itself; and any texts it reads can
    stand there instead, each on lines of its own.  ([block_value []] is an object, [block_value ls] a block with
    labels.) *)
Theorem C124_entries : forall U l1 k c ls es l2 s, es <> [] ->
  from_str U s None (VOk (Unmerged (l1 ++ (k, vplug c (block_value ls (concat es))) :: l2))) ->
  exists s1 xs s2, s = s1 ++ concat xs ++ s2 /\ Forall2 (fun x l => from_str U x None (VOk (Unmerged l))) xs es /\
    forall ts es', Forall2 (fun t l => from_str U t None (VOk (Unmerged l))) ts es' ->
      from_str U (s1 ++ concat (map (fun t => t ++ [10]) ts) ++ s2) None (VOk (Unmerged (l1 ++ (k, vplug c (block_value ls (concat es'))) :: l2))).
Proof.
  intros U l1 k c ls es l2 s Hn H. apply C70_from_str_grammar in H as (l & [= <-] & H).
  apply entries_edit in H as (s1 & x & s2 & -> & Hx & HG). destruct (VDoc_parts U es x Hx Hn) as (xs & -> & HF).
  exists s1, xs, s2. split; [reflexivity|]. split; [exact HF|]. intros ts es' HT. apply C70_from_str_grammar. eexists. split; [reflexivity|].
  apply HG. apply lines_entries, HT.
Qed.
Print Assumptions C124_entries.
(** The same for the entries of the whole text *)
Theorem C124_document : forall U es s, es <> [] -> from_str U s None (VOk (Unmerged (concat es))) ->
  exists xs, s = concat xs /\ Forall2 (fun x l => from_str U x None (VOk (Unmerged l))) xs es.
Proof. intros U es s Hn H. apply C70_from_str_grammar in H as (l & [= <-] & H). apply VDoc_parts; assumption. Qed.
Theorem C124_document_lines : forall U ts es, Forall2 (fun t l => from_str U t None (VOk (Unmerged l))) ts es ->
  from_str U (concat (map (fun t => t ++ [10]) ts)) None (VOk (Unmerged (concat es))).
Proof.
  intros U ts es HT. apply C70_from_str_grammar. eexists. split; [reflexivity|]. pose proof (lines_entries U ts es HT []) as H.
  rewrite app_nil_r in H. exact H.
Qed.
Print Assumptions C124_document.
Print Assumptions C124_document_lines.

Definition vedit_doc : str := lit "a = true
b ""l"" {
  c = null, d { e = [null, {
    k = true
  }],
  },
}".
Example C124_nonvacuous :
  from_str ascii_ucd vedit_doc None (VOk (Unmerged ([(KeyIdent (lit "a"), VBoolean true)] ++
    (KeyIdent (lit "b"), vplug (VInBlock [lit "l"] [(KeyIdent (lit "c"), VNull)] (KeyIdent (lit "d"))
      (VInObject [] (KeyIdent (lit "e")) (VInList [VNull] (VInObject [] (KeyIdent (lit "k")) VHole []) []) []) []) (VBoolean true)) :: []))) /\
  from_str ascii_ucd vedit_doc None (VOk (Unmerged ([(KeyIdent (lit "a"), VBoolean true)] ++
    (KeyIdent (lit "b"), vplug VHole (block_value [lit "l"] (concat [[(KeyIdent (lit "c"), VNull)];
      [(KeyIdent (lit "d"), VObject [Unmerged [(KeyIdent (lit "e"), VList [VNull; VObject [Unmerged [(KeyIdent (lit "k"), VBoolean true)]]])]])]]))) :: []))).
Proof. split; vm_compute; reflexivity. Qed.
