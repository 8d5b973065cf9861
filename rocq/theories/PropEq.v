(** * Property theorems: equality of documents, block indexes and values (C75-C77) *)
From Coq Require Import SpecFloat Permutation.
From Verif Require Import Base Nom Ast Lex Grammar Parser Printer DocProofs Reprint NumConv NumSpec NumProofs PropNum Blocks BlockSpec BlockProofs
  PropBlocks Kvp Value ValueSpec ValueProofs PropValue OldParser OldGrammar OldProofs PropOld IoSpec Utf8 PropIo
  Equality EqSpec EqProofs EqBlocks.

(** ** C75: comparing syntax trees *)
(** Two bodies are equal exactly when they have the same shape, names, labels, strings and
    booleans (in the same order; borrowed or owned makes no difference) and their numbers,
    in order, are equal as [Number]s. *)
Theorem C75_body_equality : forall a b, body_eqb a b = true <->
  skeleton a = skeleton b /\ Forall2 (fun n m => number_eq n m = true) (numbers a) (numbers b).
Proof. exact body_eqb_spec. Qed.
Theorem C75_expression_equality : forall a b, expr_eqb a b = true <->
  skel_expr a = skel_expr b /\ Forall2 (fun n m => number_eq n m = true) (numbers_expr a) (numbers_expr b).
Proof. exact expr_eqb_spec. Qed.
Theorem C75_symmetric : forall a b, body_eqb a b = body_eqb b a.
Proof. exact body_eqb_sym. Qed.

(** REFUTED: a parsed document need not equal itself, ... *)
Definition big_doc : str := lit "x = 340282366920938463463374607431768211456".
Theorem C75_big_literal_differs_from_itself : exists b, parse_str ascii_ucd big_doc = OkR b /\ body_eqb b b = false.
Proof. eexists. split; [vm_compute; reflexivity|]. vm_compute. reflexivity. Qed.
(** ... and equality is not transitive. *)
Theorem C75_not_transitive : exists a b c,
  parse_str ascii_ucd (lit "x = 1") = OkR a /\ parse_str ascii_ucd (lit "x = 1.0") = OkR b /\ parse_str ascii_ucd (lit "x = -1") = OkR c /\
  body_eqb a b = true /\ body_eqb b c = true /\ body_eqb a c = false.
Proof. do 3 eexists. do 3 (split; [vm_compute; reflexivity|]). split; [vm_compute; reflexivity|]. split; vm_compute; reflexivity. Qed.

(** What holds.  The numbers of a parsed document are literals. *)
Lemma own_numbers_expr e : numbers_expr (own_expr e) = numbers_expr e.
Proof.
  induction e as [|n|b|s|l IH|l IH] using expr_ind'; cbn [own_expr numbers_expr]; try reflexivity.
  - induction IH as [|x l Hx _ IHl]; cbn; [reflexivity|]. rewrite Hx, IHl. reflexivity.
  - induction IH as [|x l Hx _ IHl]; cbn; [reflexivity|]. rewrite Hx, IHl. reflexivity.
Qed.
Lemma own_numbers_elem el : numbers_elem (own_elem el) = numbers_elem el.
Proof.
  induction el as [n v|t ls b IH] using element_ind'; cbn [own_elem numbers_elem]; [apply own_numbers_expr|].
  induction IH as [|x l Hx _ IHl]; cbn; [reflexivity|]. rewrite Hx, IHl. reflexivity.
Qed.
Lemma valid_expr_numbers U e : ValidExpr U e -> forall n, In n (numbers_expr e) -> NumLit n (cow_str (num_input n)).
Proof.
  induction e as [|n|b|s|l IH|l IH] using expr_ind'; cbn [numbers_expr]; intros HV x Hx; try (now destruct Hx).
  - destruct Hx as [<-|[]]. inversion HV as [| |? t Ht| | |]; subst. rewrite (NumLit_input _ _ Ht). exact Ht.
  - apply in_flat_map in Hx as (e & He & Hx). rewrite Forall_forall in IH. inversion HV as [| | | |? HF|]; subst. rewrite Forall_forall in HF.
    eapply IH; eauto.
  - apply in_flat_map in Hx as (e & He & Hx). rewrite Forall_forall in IH. inversion HV as [| | | | |? HF]; subst. rewrite Forall_forall in HF.
    eapply IH; [exact He|apply (HF _ He)|exact Hx].
Qed.
Lemma valid_elem_numbers U el : ValidElem U el -> forall n, In n (numbers_elem el) -> NumLit n (cow_str (num_input n)).
Proof.
  induction el as [n v|t ls b IH] using element_ind'; cbn [numbers_elem]; intros HV x Hx; inversion HV as [? ? _ He|? ? ? _ _ HF]; subst.
  - eapply valid_expr_numbers; eassumption.
  - apply in_flat_map in Hx as (e & He & Hx). rewrite Forall_forall in IH, HF. eapply IH; eauto.
Qed.
Theorem parsed_numbers : forall U s b, parse_str U s = OkR b -> forall n, In n (numbers b) -> NumLit n (cow_str (num_input n)).
Proof.
  intros U s b H n Hn. apply reprint in H as [HV _]. unfold numbers in Hn. apply in_flat_map in Hn as (el & Hel & Hn).
  unfold ValidDoc in HV. rewrite Forall_forall in HV. rewrite <- own_numbers_elem in Hn. eapply valid_elem_numbers; [|exact Hn].
  apply HV. unfold own_doc. apply in_map, Hel.
Qed.
Lemma readable_eq n t : NumLit n t -> (number_eq n n = true <-> Readable t).
Proof.
  intros H. rewrite (C17_reflexive_partial n t H). unfold Readable. split.
  - intros [Hf|(z & Hz & HR)] z' Hz'.
    + exfalso. unfold is_float in Hf. rewrite (proj2 (C15_signed_is_integer n t H)) in Hf by eauto. discriminate.
    + rewrite (IntegerText_unique _ _ _ Hz' Hz). exact HR.
  - intros HR. destruct (is_float n) eqn:Ef; [auto|right].
    assert (Es : is_signed n = true) by (unfold is_float in Ef; destruct (is_signed n); [reflexivity|discriminate]).
    apply (C15_signed_is_integer n t H) in Es as [z Hz]. exists z. auto.
Qed.
(** A parsed document equals itself exactly when every integer literal in it fits: up to
    [u128::MAX] without, down to [i128::MIN] with a minus sign. *)
Theorem C75_reflexive_exactly : forall U s b, parse_str U s = OkR b ->
  (body_eqb b b = true <-> forall n, In n (numbers b) -> Readable (cow_str (num_input n))).
Proof.
  intros U s b H. rewrite body_eqb_refl, Forall_forall. split; intros HH n Hn; pose proof (parsed_numbers U s b H n Hn) as HL.
  - apply (proj1 (readable_eq n _ HL)), HH, Hn.
  - apply (proj2 (readable_eq n _ HL)), HH, Hn.
Qed.
(** On documents whose numbers are all integers that fit an [i128], equality is exactly
    "same skeleton, same integers", hence an equivalence. *)
Definition SmallInteger (n : number_t) : Prop := exists z, IntegerText (cow_str (num_input n)) z /\ InRange I128 z.
Definition SameInteger (n m : number_t) : Prop := exists z, IntegerText (cow_str (num_input n)) z /\ IntegerText (cow_str (num_input m)) z.
Theorem C75_integers : forall U s s' a b, parse_str U s = OkR a -> parse_str U s' = OkR b ->
  (forall n, In n (numbers a) -> SmallInteger n) -> (forall n, In n (numbers b) -> SmallInteger n) ->
  (body_eqb a b = true <-> skeleton a = skeleton b /\ Forall2 SameInteger (numbers a) (numbers b)).
Proof.
  intros U s s' a b Ha Hb Sa Sb. rewrite body_eqb_spec. apply and_iff_compat_l. apply Forall2_iff_in. intros n m Hn Hm.
  pose proof (parsed_numbers _ _ _ Ha n Hn) as Ln. pose proof (parsed_numbers _ _ _ Hb m Hm) as Lm.
  destruct (Sa n Hn) as (z & Hz & Rz). destruct (Sb m Hm) as (z' & Hz' & Rz').
  destruct (C17_integer_equality_partial n _ z m _ z' Ln Lm Hz Hz') as [H1 H2]. split.
  - intros E. apply H1 in E. subst. exists z'. auto.
  - intros (y & Hy & Hy'). rewrite (IntegerText_unique _ _ _ Hy Hz) in *. apply H2; [|auto]. apply (IntegerText_unique _ _ _ Hy' Hz').
Qed.
(** Owned copies compare like the originals. *)
Lemma SameNumber_eq n m : SameNumber n m -> forall x, number_eq n x = number_eq m x.
Proof.
  intros [i i' p w w' f f' e e' Hi Hw Hf He] x.
  unfold number_eq, is_float, is_unsigned, is_signed, as_int, as_f64. cbn [num_input num_positive num_whole num_fraction num_exponent].
  unfold SameCow in Hi. rewrite Hi. destruct Hw, Hf, He; reflexivity.
Qed.
Lemma own_skel_expr e : skel_expr (as_owned_expr e) = skel_expr e.
Proof.
  induction e as [|n|b|s|l IH|l IH] using expr_ind'; cbn [as_owned_expr skel_expr]; try reflexivity.
  - f_equal. rewrite map_map. apply map_ext_Forall, IH.
  - f_equal. rewrite map_map. apply map_ext_Forall. eapply Forall_impl; [|exact IH]. cbn [fst snd]. intros [k e] E. cbn [fst snd] in *. rewrite E.
    destruct k; reflexivity.
Qed.
Lemma own_skel_elem el : skel_elem (as_owned_elem el) = skel_elem el.
Proof.
  induction el as [n v|t ls b IH] using element_ind'; cbn [as_owned_elem skel_elem]; [rewrite own_skel_expr; reflexivity|].
  f_equal; rewrite map_map; [apply map_ext; intros []; reflexivity|]. apply map_ext_Forall, IH.
Qed.
Lemma flat_map_map {A B C D} (f : A -> B) (g : B -> list C) (h : A -> list D) (k : D -> C) l :
  Forall (fun x => g (f x) = map k (h x)) l -> flat_map g (map f l) = map k (flat_map h l).
Proof. induction 1 as [|x l Hx _ IH]; cbn; [reflexivity|]. rewrite Hx, IH, map_app. reflexivity. Qed.
Lemma own_nums_expr e : numbers_expr (as_owned_expr e) = map as_owned_number (numbers_expr e).
Proof.
  induction e as [|n|b|s|l IH|l IH] using expr_ind'; cbn [as_owned_expr numbers_expr]; try reflexivity; apply flat_map_map; exact IH.
Qed.
Lemma own_nums_elem el : numbers_elem (as_owned_elem el) = map as_owned_number (numbers_elem el).
Proof.
  induction el as [n v|t ls b IH] using element_ind'; cbn [as_owned_elem numbers_elem]; [apply own_nums_expr|]. apply flat_map_map, IH.
Qed.
Theorem C75_as_owned : forall b x, body_eqb (as_owned_body b) x = body_eqb b x.
Proof.
  intros b x. apply bool_iff. rewrite !body_eqb_spec.
  assert (E : skeleton (as_owned_body b) = skeleton b).
  { unfold skeleton, as_owned_body. rewrite map_map. apply map_ext. apply own_skel_elem. }
  assert (F : numbers (as_owned_body b) = map as_owned_number (numbers b)).
  { unfold numbers, as_owned_body. apply flat_map_map. apply Forall_forall. intros el _. apply own_nums_elem. }
  rewrite E, F. clear E F. apply and_iff_compat_l. generalize (numbers x). induction (numbers b) as [|n l IH]; intros [|m l']; cbn [map].
  - reflexivity.
  - split; intros H; inversion H.
  - split; intros H; inversion H.
  - pose proof (SameNumber_eq _ _ (same_number_own n) m) as X. specialize (IH l').
    split; intros H; inversion H as [|? ? ? ? H1 H2]; subst; constructor; first [congruence|tauto].
Qed.
(** So a parsed document equals its owned copy exactly when it equals itself (see above). *)
Theorem C75_own_copy : forall b, body_eqb b (as_owned_body b) = body_eqb b b.
Proof. intros b. rewrite C75_symmetric. apply C75_as_owned. Qed.
Print Assumptions C75_body_equality.
Print Assumptions C75_expression_equality.
Print Assumptions C75_symmetric.
Print Assumptions C75_big_literal_differs_from_itself.
Print Assumptions C75_not_transitive.
Print Assumptions C75_reflexive_exactly.
Print Assumptions C75_integers.
Print Assumptions C75_as_owned.
Print Assumptions C75_own_copy.
Definition eq_docs : list string := ["x = 1"; "x = +1"; "x = 2"; "y = 1"; "x = ""1"""; "x { }"; "x = 1.0"]%string.
Definition eq_of (s s' : string) : option bool :=
  match parse_str ascii_ucd (lit s), parse_str ascii_ucd (lit s') with OkR a, OkR b => Some (body_eqb a b) | _, _ => None end.
Example C75_nonvacuous : map (eq_of "x = 1") eq_docs = [Some true; Some true; Some false; Some false; Some false; Some false; Some true] /\
  Readable (lit "-5") /\ SmallInteger (mk_number (Borrowed (lit "-5")) false (Some (Borrowed (lit "5"))) None None).
Proof.
  split; [vm_compute; reflexivity|]. assert (HI : IntegerText (lit "-5") (-5)).
  { apply (int_from_str_spec I128 (lit "-5") (-5)). vm_compute. reflexivity. }
  split.
  - intros z Hz. rewrite (IntegerText_unique _ _ _ Hz HI). right. split; [|cbn; lia]. intros Hn. exact (Hn _ eq_refl).
  - exists (-5)%Z. split; [exact HI|cbn; lia].
Qed.

(** ** C76: comparing block indexes *)
(** [Blocks] values made by appending (in any order of their tables) have distinct keys;
    such values are equal exactly when they hold equal lists of bodies, in order, under the
    same types and labels. *)
Theorem C76_blocks_equality : forall h h' m m', BlocksBuilt h m -> BlocksBuilt h' m' -> (blocks_eqb m m' = true <-> blocks_same m m').
Proof. intros h h' m m' H H'. apply blocks_eqb_spec; eapply Built_distinct; eassumption. Qed.
Theorem C76_symmetric : forall h h' m m', BlocksBuilt h m -> BlocksBuilt h' m' -> blocks_eqb m m' = blocks_eqb m' m.
Proof.
  intros h h' m m' H H'. apply bool_iff. rewrite (C76_blocks_equality h h'), (C76_blocks_equality h' h) by assumption.
  split; apply blocks_same_sym.
Qed.
(** The order of the tables plays no role: two indexes with the same history cannot be told
    apart by comparisons, and they are reorderings of each other. *)
Theorem C76_history : forall h m m', BlocksBuilt h m -> BlocksBuilt h m' -> ReorderBlocks m m'.
Proof. intros h m m' H H'. eapply BlocksBuilt_det; eassumption. Qed.
Theorem C76_order_irrelevant : forall h m m' h' n, BlocksBuilt h m -> BlocksBuilt h m' -> BlocksBuilt h' n -> blocks_eqb m n = blocks_eqb m' n.
Proof.
  intros h m m' h' n H H' Hn. apply bool_iff. rewrite (C76_blocks_equality h h' m n), (C76_blocks_equality h h' m' n) by assumption.
  split; apply blocks_same_reorder; [eapply C76_history|eapply C76_history]; eassumption.
Qed.
(** An index equals itself - and any other with the same history - exactly when every body
    in it equals itself (see C75). *)
Theorem C76_same_history : forall h m m', BlocksBuilt h m -> BlocksBuilt h m' ->
  (blocks_eqb m m' = true <-> forall b, In b h -> body_eqb (b_body b) (b_body b) = true).
Proof.
  intros h m m' H H'. rewrite (C76_order_irrelevant h m m' h m') by assumption. rewrite blocks_refl by (eapply Built_distinct; eassumption).
  destruct (C29_history h m' H') as [_ HP]. rewrite Forall_forall. split.
  - intros HH b Hb. assert (Hin : In (cow_str (b_type b), b_body b) (map (fun b => (cow_str (b_type b), b_body b)) h)) by (apply in_map_iff; eauto).
    apply (Permutation_in _ (Permutation_sym HP)) in Hin. apply in_map_iff in Hin as (x & E & Hx). injection E as _ E. rewrite <- E. apply HH, Hx.
  - intros HH x Hx. assert (Hin : In (fst (fst x), snd x) (map (fun e => (fst (fst e), snd e)) (blocks_flat_iter m'))) by (apply in_map_iff; eauto).
    apply (Permutation_in _ HP) in Hin. apply in_map_iff in Hin as (b & E & Hb). injection E as _ E. rewrite <- E. apply HH, Hb.
Qed.
(** REFUTED: an index of a parsed document need not equal itself. *)
Theorem C76_big_literal_differs_from_itself : exists s b h m, parse_str ascii_ucd s = OkR b /\ b = map (fun x => Blk (b_type x) (b_labels x) (b_body x)) h /\
  BlocksBuilt h m /\ blocks_eqb m m = false.
Proof.
  set (n := mk_number (Borrowed (lit "340282366920938463463374607431768211456")) true (Some (Borrowed (lit "340282366920938463463374607431768211456"))) None None).
  exists (lit "b { x = 340282366920938463463374607431768211456 }
"), [Blk (Borrowed (lit "b")) [] [Attr (Borrowed (lit "x")) (ENumber n)]], [mk_block (Borrowed (lit "b")) [] [Attr (Borrowed (lit "x")) (ENumber n)]],
    (blocks_append [] (mk_block (Borrowed (lit "b")) [] [Attr (Borrowed (lit "x")) (ENumber n)])).
  split; [vm_compute; reflexivity|]. split; [reflexivity|]. split; [|vm_compute; reflexivity].
  apply (BB_append [] []); [constructor|apply ReorderBlocks_refl].
Qed.
Print Assumptions C76_blocks_equality.
Print Assumptions C76_symmetric.
Print Assumptions C76_history.
Print Assumptions C76_order_irrelevant.
Print Assumptions C76_same_history.
Print Assumptions C76_big_literal_differs_from_itself.
Definition eq_blk (t l : string) (b : body_t) : block_t := mk_block (Borrowed (lit t)) [LString (lit l)] b.
Definition eq_idx1 : blocks_t := blocks_extend [] [eq_blk "t" "a" []; eq_blk "t" "b" []; eq_blk "u" "a" []].
Definition eq_idx2 : blocks_t := blocks_extend [] [eq_blk "u" "a" []; eq_blk "t" "b" []; eq_blk "t" "a" []].
Example C76_nonvacuous : BlocksBuilt [eq_blk "t" "a" []; eq_blk "t" "b" []; eq_blk "u" "a" []] eq_idx1 /\ eq_idx1 <> eq_idx2 /\
  blocks_eqb eq_idx1 eq_idx2 = true /\ blocks_eqb eq_idx1 (blocks_append eq_idx1 (eq_blk "u" "a" [])) = false.
Proof.
  split; [|split; [discriminate|split; vm_compute; reflexivity]].
  apply (C35_extend_built [] [] [eq_blk "t" "a" []; eq_blk "t" "b" []; eq_blk "u" "a" []]). constructor.
Qed.

(** ** C77: comparing values *)
(** For values whose tables have distinct keys, as [HashMap]s have. *)
Theorem C77_value_equality : forall v w, WfTables v -> WfTables w -> (value_eqb v w = true <-> vsame v w).
Proof. exact (proj1 value_eqb_spec). Qed.
Theorem C77_map_equality : forall p q, WfTablesMap p -> WfTablesMap q -> (mapvalues_eqb p q = true <-> msame p q).
Proof. exact (proj2 value_eqb_spec). Qed.
(** A value equals itself exactly when it holds no NaN. *)
Theorem C77_reflexive : forall v, WfTables v -> (value_eqb v v = true <-> NoNaN v).
Proof. exact (proj1 value_eqb_refl). Qed.
Theorem C77_reflexive_map : forall p, WfTablesMap p -> (mapvalues_eqb p p = true <-> NoNaNMap p).
Proof. exact (proj2 value_eqb_refl). Qed.
(** [as_owned] of a value without NaN is an equal value. *)
Theorem C77_as_owned : forall p q, WfTablesMap p -> NoNaNMap p -> m_as_owned p q -> mapvalues_eqb p q = true.
Proof.
  intros p q HW HN HO. pose proof (proj2 as_owned_eq p q HO HW) as HE. apply C77_map_equality; [exact HW|apply (proj2 veq_wf p q HE HW)|].
  apply (proj2 veq_vsame p q HE HN).
Qed.
(** No document holds a NaN, merged or not: what [from_str] returns equals itself and
    its owned copies. *)
Lemma nonan_mut U :
  (forall v s r, VTerm U v s r -> NoNaN v) /\
  (forall l s r, VItems U l s r -> Forall NoNaN l) /\
  (forall l s r, VEntries U l s r -> Forall (fun kv => NoNaN (snd kv)) l) /\
  (forall k v s r, VEntry U k v s r -> NoNaN v).
Proof.
  apply old_mut; intros; try (constructor; fail); try (constructor; assumption); try assumption; auto.
  - match goal with H : NumberValue _ _, HL : NumLit ?n ?t |- _ => destruct H; [constructor|]; apply NN_float end.
    destruct (as_f64_some n _ n0) as (f' & E & Hf). unfold as_f64 in E. rewrite (NumLit_input _ _ n0) in E. congruence.
  - apply NN_object. constructor; [|constructor]. constructor. assumption.
  - apply NN_object. constructor; [|constructor]. constructor. assumption.
  - apply NN_block. constructor; [|constructor]. constructor. assumption.
Qed.
Theorem C77_documents : forall U s mb m, mb = None \/ mb = Some MBError -> from_str U s mb (VOk m) ->
  WfTablesMap m /\ NoNaNMap m /\ mapvalues_eqb m m = true /\ (forall q, m_as_owned m q -> mapvalues_eqb m q = true).
Proof.
  intros U s mb m Hmb H.
  assert (HX : WfTablesMap m /\ NoNaNMap m).
  { destruct Hmb as [->| ->].
    - pose proof (C46_unmerged U s m H) as HU. split; [apply (proj2 unmerged_tidy m HU)|].
      apply C70_from_str_grammar in H as (l & -> & H). constructor. eapply nonan_mut, H.
    - assert (Hd : exists l, VDoc U l s).
      { unfold from_str in H. destruct (old_body_cases U s) as [[m0 E]|[E|[(? & E)|E]]]; rewrite E in H; try discriminate.
        apply old_body_spec in E as (l & _ & Hl). eauto. }
      destruct Hd as (l & Hl). destruct (C53_error_partial U s l Hl) as (_ & _ & H3 & _). destruct (H3 m H) as [HM _]. split.
      + apply (proj2 merged_WfTables _ _ HM). apply (proj2 unmerged_tidy). constructor. eapply unmerged_mut, Hl.
      + apply (proj2 merges_nonan _ _ HM). constructor. eapply nonan_mut, Hl. }
  destruct HX as [HW HN]. split; [exact HW|]. split; [exact HN|]. split; [apply C77_reflexive_map; assumption|].
  intros q Hq. apply C77_as_owned; assumption.
Qed.
(** Two documents read without merging are equal exactly when their entries agree in order;
    merged, the order of keys and labels plays no role. *)
Theorem C77_unmerged_order : forall U s s' l l', from_str U s None (VOk (Unmerged l)) -> from_str U s' None (VOk (Unmerged l')) ->
  (mapvalues_eqb (Unmerged l) (Unmerged l') = true <->
   Forall2 (fun a b => fst a = fst b /\ vsame (snd a) (snd b)) l l').
Proof.
  intros U s s' l l' H H'. destruct (C77_documents U s None _ (or_introl eq_refl) H) as (HW & _).
  destruct (C77_documents U s' None _ (or_introl eq_refl) H') as (HW' & _). rewrite C77_map_equality by assumption. split.
  - intros HS. inversion HS; assumption.
  - intros HF. constructor. exact HF.
Qed.
Theorem C77_merged_order : forall m m', WfTablesMap (Merged m) -> WfTablesMap (Merged m') ->
  (mapvalues_eqb (Merged m) (Merged m') = true <->
   exists m1, Permutation m' m1 /\ Forall2 (fun a b => fst a = fst b /\ vsame (snd a) (snd b)) m m1).
Proof.
  intros m m' HW HW'. rewrite C77_map_equality by assumption. split.
  - intros HS. inversion HS; subst; eauto.
  - intros (m1 & HP & HF). econstructor; eassumption.
Qed.
(** A merged map never equals an unmerged one, whatever they hold. *)
Theorem C77_merged_unmerged : forall l m, mapvalues_eqb (Unmerged l) (Merged m) = false /\ mapvalues_eqb (Merged m) (Unmerged l) = false.
Proof. intros. split; reflexivity. Qed.
Print Assumptions C77_value_equality.
Print Assumptions C77_map_equality.
Print Assumptions C77_reflexive.
Print Assumptions C77_reflexive_map.
Print Assumptions C77_as_owned.
Print Assumptions C77_documents.
Print Assumptions C77_unmerged_order.
Print Assumptions C77_merged_order.
Print Assumptions C77_merged_unmerged.
Example C77_nonvacuous :
  value_eqb (VFloat S754_nan) (VFloat S754_nan) = false /\ value_eqb (VFloat (S754_zero true)) (VFloat (S754_zero false)) = true /\
  mapvalues_eqb (Merged [(KeyIdent (lit "a"), VNull); (KeyIdent (lit "b"), VNull)]) (Merged [(KeyIdent (lit "b"), VNull); (KeyIdent (lit "a"), VNull)]) = true /\
  mapvalues_eqb (Unmerged [(KeyIdent (lit "a"), VNull); (KeyIdent (lit "b"), VNull)]) (Unmerged [(KeyIdent (lit "b"), VNull); (KeyIdent (lit "a"), VNull)]) = false /\
  from_str ascii_ucd (lit "a = 1.5
") None (VOk (Unmerged [(KeyIdent (lit "a"), VFloat (round_decimal false 15 (-1)))])).
Proof. split; [reflexivity|]. do 3 (split; [vm_compute; reflexivity|]). vm_compute. reflexivity. Qed.
