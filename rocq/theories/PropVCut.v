(** * PropVCut: C128 documents of [value::from_str] that were cut short *)
From Coq Require Import ZArith.
From Verif Require Import Base Nom NomFacts WsFacts NumFacts Ast Grammar Lex Parser ParserFacts Utf8 IoSpec PropIo PropSyntax NumConv Kvp Value ValueSpec ValueProofs PropValue
  OldParser OldGrammar OldFacts OldProofs OldPanic PropOld OldMeetsSpec OldMeets PropOldMeets OldLocality PropOldAppend CutProofs PropCut VCutSpec VCutProofs MergeExec.
Close Scope Z_scope. Open Scope N_scope. Open Scope list_scope.

(** C128: a beginning of a text that [value::from_str] accepts (without merging) is accepted with the first entries of the
    whole (the last of which may have lost the end of its number), or is an error.  It never panics. *)
Theorem C128_cut : forall U p q l, from_str U (p ++ q) None (VOk (Unmerged l)) ->
  (exists l', from_str U p None (VOk (Unmerged l')) /\ VCutShort l' l) \/ (exists e, from_str U p None (VErr e)).
Proof.
  intros U p q l H. destruct (old_body_cases U p) as [[m E]|[E|[(x & E)|E]]].
  - left. assert (Hp : from_str U p None (VOk m)) by (unfold from_str; rewrite E; reflexivity).
    apply C70_from_str_grammar in Hp as (l' & -> & Hp). apply C70_from_str_grammar in H as (? & [= <-] & H). exists l'.
    split; [apply C70_from_str_grammar; eauto|].
    destruct (vcut_doc U _ _ _ Hp eq_refl _ _ H) as [(l2 & ->)|(l1 & k & v & v' & l2 & -> & -> & Hc & _)]; [apply VC_entries|apply VC_number, Hc].
  - right. eexists. unfold from_str. rewrite E. reflexivity.
  - right. eexists. unfold from_str. rewrite E. reflexivity.
  - exfalso. assert (Hp : from_str U p None VPanic) by (unfold from_str; rewrite E; reflexivity).
    apply (C99_panic_final U p q Hp) in H. discriminate.
Qed.
Print Assumptions C128_cut.

(** Unless the text is cut right after a digit or a point, nothing that was accepted is changed: in particular when whole lines are lost. *)
Theorem C128_whole_entries : forall U p q l l', from_str U (p ++ q) None (VOk (Unmerged l)) -> from_str U p None (VOk (Unmerged l')) ->
  ~ LastIs (fun c => 48 <= c <= 57 \/ c = 46) p -> exists l2, l = l' ++ l2.
Proof.
  intros U p q l l' H E Hl. apply C70_from_str_grammar in H as (? & [= <-] & H). apply C70_from_str_grammar in E as (? & [= <-] & E).
  destruct (vcut_doc U _ _ _ E eq_refl _ _ H) as [(l2 & ->)|(l1 & k & v & v' & l2 & -> & -> & Hc & x & n & t & -> & Hn)]; [eauto|].
  exfalso. apply Hl. apply NumLit_last in Hn as (t' & c & -> & HL). exists (x ++ t'), c. rewrite <- app_assoc. auto.
Qed.
Theorem C128_lines : forall U p q l l', from_str U (p ++ [10] ++ q) None (VOk (Unmerged l)) -> from_str U (p ++ [10]) None (VOk (Unmerged l')) -> exists l2, l = l' ++ l2.
Proof.
  intros U p q l l' H E. rewrite app_assoc in H. apply (C128_whole_entries U _ _ _ _ H E). intros (x & c & E2 & Hc).
  apply app_inj_tail in E2 as [_ <-]. lia.
Qed.
Print Assumptions C128_whole_entries.
Print Assumptions C128_lines.

(** Every number of first entries is what some beginning of the text gives. *)
Lemma VDoc_first U l s r : VEntries U l s r -> r = [] -> forall k, exists p q, s = p ++ q /\ VDoc U (firstn k l) p.
Proof.
  induction 1 as [w r Hw|x v l w s s1 s2 r Hw He Hs Hl IH]; intros -> k.
  - exists [], (w ++ []). split; [reflexivity|]. destruct k; apply (VE_nil U []); constructor.
  - destruct k as [|k].
    + exists [], (w ++ s). split; [reflexivity|]. apply (VE_nil U []); constructor.
    + destruct (IH eq_refl k) as (p & q & -> & Hp). destruct (VEntry_replace U _ _ _ _ He) as (te & -> & Hte & HR). cbn [firstn].
      remember (p ++ q) as s2 eqn:E2. destruct Hs as [w0 s0 Hw0|i n s0 Hi Hn|i Hi].
      * subst s0. exists (w ++ te ++ w0 ++ [44] ++ p), q. split; [rewrite <- !app_assoc; reflexivity|].
        eapply VE_cons; [exact Hw| |apply (VS_comma w0 p Hw0)|exact Hp]. apply HR; [apply Locality.Delim_ws; [exact Hw0|reflexivity]|apply Locality.EolAt_mid; lia].
      * subst s0. exists (w ++ te ++ i ++ n ++ p), q. split; [rewrite <- !app_assoc; reflexivity|].
        eapply VE_cons; [exact Hw| |apply (VS_line i n p Hi Hn)|exact Hp]. apply HR; [apply Locality.Delim_iws; [exact Hi|apply Locality.Delim_LineEnd, Hn]|apply Locality.EolAt_LineEnd, Hn].
      * symmetry in E2. apply app_eq_nil in E2 as [-> ->]. exists (w ++ te ++ i), []. split; [rewrite !app_nil_r; reflexivity|].
        eapply VE_cons; [exact Hw|exact He|apply VS_end, Hi|exact Hp].
Qed.
Theorem C128_each : forall U s l k, from_str U s None (VOk (Unmerged l)) -> exists p q, s = p ++ q /\ from_str U p None (VOk (Unmerged (firstn k l))).
Proof.
  intros U s l k H. apply C70_from_str_grammar in H as (? & [= <-] & H). destruct (VDoc_first U _ _ _ H eq_refl k) as (p & q & -> & Hp).
  exists p, q. split; [reflexivity|]. apply C70_from_str_grammar. eauto.
Qed.
Print Assumptions C128_each.

(** With merging: a beginning of a text that is accepted and merged is merged, too, or is not a document at all: there is no
    conflict in it. *)
Lemma app_map {A B} (f : A -> B) l : forall x y, x ++ y = map f l -> exists l1, x = map f l1.
Proof.
  intros x. revert l. induction x as [|a x IH]; intros [|b l] y E; try discriminate; [exists []; reflexivity|exists []; reflexivity|].
  injection E as -> E. apply IH in E as [l1 ->]. exists (b :: l1). reflexivity.
Qed.
Lemma SameKind_first a b : SameKind (a ++ b) -> SameKind a.
Proof.
  intros [H|[[l H]|[l H]]].
  - left. rewrite app_length in H. lia.
  - right. left. eapply app_map, H.
  - right. right. eapply app_map, H.
Qed.
Lemma CanMerge_cut l' l : VCutShort l' l -> CanMergeMap (Unmerged l) -> CanMergeMap (Unmerged l').
Proof.
  intros H HC. inversion HC as [|l0 HF HK E]; subst l0. destruct H as [l1 l2|l1 k v v' l2 (t & u & _ & _ & HV & _ & HV')].
  - constructor; [apply Forall_app in HF; tauto|]. intros k. specialize (HK k). rewrite values_of_app in HK. exact (SameKind_first _ _ HK).
  - apply Forall_app in HF as [HF1 HF2]. constructor.
    + apply Forall_app. split; [exact HF1|]. constructor; [|constructor]. apply CM_scalar. destruct HV; reflexivity.
    + intros k0. specialize (HK k0). rewrite values_of_app in *. change ((k, v') :: l2) with ([(k, v')] ++ l2) in HK. rewrite values_of_app, app_assoc in HK.
      apply SameKind_first in HK. change (values_of k0 [(k, v')]) with (map snd (if key_eqb k k0 then [(k, v')] else [])) in HK.
      change (values_of k0 [(k, v)]) with (map snd (if key_eqb k k0 then [(k, v)] else [])).
      destruct (key_eqb k k0); cbn [map snd] in *; [|exact HK].
      assert (Hlen : forall vs, SameKind (vs ++ [v']) -> (length vs <= 0)%nat).
      { intros vs [HL|[[l HL]|[l HL]]]; [rewrite app_length in HL; cbn in HL; lia|exfalso..].
        all: assert (Hin : In v' (vs ++ [v'])) by (apply in_or_app; right; left; reflexivity); rewrite HL in Hin; apply in_map_iff in Hin as (x & Ex & _); destruct HV'; discriminate. }
      apply Hlen in HK. left. rewrite app_length. cbn. lia.
Qed.
Theorem C128_merged : forall U p q m, from_str U (p ++ q) (Some MBError) (VOk m) -> forall o, from_str U p (Some MBError) o ->
  (exists m', o = VOk m') \/ (exists e, o = VErr e).
Proof.
  intros U p q m H o Ho. destruct (old_body_cases U (p ++ q)) as [[m0 E]|[E|[(x & E)|E]]].
  2-4: exfalso; unfold from_str in H; rewrite E in H; discriminate.
  assert (H0 : from_str U (p ++ q) None (VOk m0)) by (unfold from_str; rewrite E; reflexivity).
  apply C70_from_str_grammar in H0 as (l & -> & H0).
  destruct (C128_cut U p q l) as [(l' & Hp & Hcut)|(e & Hp)]; [apply C70_from_str_grammar; eauto| |].
  - left. apply C70_from_str_grammar in Hp as (? & [= <-] & Hp). apply (C90_document U _ _ H0 (VOk m)) in H.
    assert (HC : CanMergeMap (Unmerged l)).
    { apply C48_map. destruct H as [(m1 & Hm & _)|(e & _ & [=])]. eauto. }
    apply (CanMerge_cut _ _ Hcut) in HC. apply (C90_document U _ _ Hp o) in Ho. destruct Ho as [(m1 & Hm & ->)|(e & Hm & ->)]; [eauto|].
    exfalso. apply C48_map in Hm. exact (proj2 can_no_conflict _ e HC Hm).
  - right. unfold from_str in Hp, Ho. destruct (old_body_cases U p) as [[m1 E1]|[E1|[(x & E1)|E1]]]; rewrite E1 in *; [discriminate|eauto|eauto|discriminate].
Qed.
Print Assumptions C128_merged.

(** Bytes that were cut short, be it in the middle of a character *)
Theorem C128_slice : forall U bs bs' l, from_slice U (bs ++ bs') None (VOk (Unmerged l)) ->
  (exists l', from_slice U bs None (VOk (Unmerged l')) /\ VCutShort l' l) \/ (exists e, from_slice U bs None (VErr e)).
Proof.
  intros U bs bs' l H. unfold from_slice in *. destruct (from_utf8 bs) as [p|] eqn:E; [|right; eauto].
  destruct (from_utf8_sound (length bs) bs p (le_n _) E) as [Hp ->]. rewrite from_utf8_app in H by exact Hp.
  destruct (from_utf8 bs') as [q|]; [|discriminate]. cbn [option_map] in H. apply (C128_cut U p q l H).
Qed.
Print Assumptions C128_slice.

Definition vcut_doc_text : str := lit "a = 12
b ""x"" { c = 1
}
b ""x"" { d = 2.5
}
e = [1,
 2]
".
Definition vcut_list : list (key * value) :=
  Eval vm_compute in match old_body ascii_ucd vcut_doc_text with Ok [] (Unmerged l) => l | _ => [] end.
Lemma vcut_reads : old_body ascii_ucd vcut_doc_text = Ok [] (Unmerged vcut_list).
Proof. vm_compute. reflexivity. Qed.
Example C128_nonvacuous : from_str ascii_ucd vcut_doc_text None (VOk (Unmerged vcut_list)) /\ length vcut_list = 4%nat /\
  (* cut in the number, after the first entry, in the block, in the list *)
  (exists l', from_str ascii_ucd (firstn 5 vcut_doc_text) None (VOk (Unmerged l')) /\ length l' = 1%nat /\ l' <> firstn 1 vcut_list) /\
  from_str ascii_ucd (firstn 7 vcut_doc_text) None (VOk (Unmerged (firstn 1 vcut_list))) /\
  (exists e, from_str ascii_ucd (firstn 14 vcut_doc_text) None (VErr e)) /\
  from_str ascii_ucd (firstn 41 vcut_doc_text) None (VOk (Unmerged (firstn 3 vcut_list))) /\
  (exists e, from_str ascii_ucd (firstn 49 vcut_doc_text) None (VErr e)).
Proof.
  split; [unfold from_str; rewrite vcut_reads; reflexivity|]. split; [reflexivity|].
  split; [exists [(KeyIdent (lit "a"), VInteger 1)]; split; [vm_compute; reflexivity|split; [reflexivity|discriminate]]|].
  split; [vm_compute; reflexivity|]. split; [eexists; vm_compute; reflexivity|].
  split; [vm_compute; reflexivity|]. eexists; vm_compute; reflexivity.
Qed.
Example C128_merged_nonvacuous : exists m, from_str ascii_ucd vcut_doc_text (Some MBError) (VOk m).
Proof.
  assert (HM : exists m, xmap_merge (Unmerged vcut_list) = MOk m) by (eexists; vm_compute; reflexivity).
  destruct HM as [m Hm]. exists m. unfold from_str. rewrite vcut_reads. exists (MOk m). split; [|reflexivity]. rewrite <- Hm. apply xmerge_ok.
Qed.
