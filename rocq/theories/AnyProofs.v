(** * AnyProofs: proofs about targets of any type *)
From Coq Require Import Permutation ZArith Lia SpecFloat.
From Verif Require Import Base Ast NomFacts Blocks BlockSpec NumConv NumSpec IoSpec
  Serde SerdeSpec SerdeProofs PropSerde SerdeErrSpec SerdeErrProofs PropSerdeErr SerdeExactSpec
  Grammar Parser DocProofs PropSyntax Printer Reprint DenSpec DenProofs PropDen FailSpec FailProofs MapAccess AnyTarget AnySpec.
Local Open Scope nat_scope.

(** ** Maps over what they have to offer *)
Section Loop.
Context {D : Type}.
Variable rec : target D -> src -> ran D.
Fixpoint g_loop (fuel : nat) (mc : mclient D) (rest : list raw) (held : option src) (seen : list str) : ran D :=
  match fuel with
  | O => Running
  | S f =>
      match mc with
      | MRet o => Done o
      | MKey k =>
          match rest with
          | [] => g_loop f (k NoKey) [] held seen
          | (None, _, _) :: _ => Panicked
          | (Some c, s, d) :: rest' =>
              if seen_mem (cow_str c) seen then
                match d with Error e => g_loop f (k (DupKey e)) rest' held seen | Panic => Panicked end
              else g_loop f (k (GotKey (cow_str c))) rest' (Some s) (cow_str c :: seen)
          end
      | MVal c k =>
          match held with
          | None => Panicked
          | Some s => match rec c s with Done o => g_loop f (k o) rest None seen | r => r end
          end
      | MSize k => g_loop f (k (length rest)) rest held seen
      end
  end.
Lemma object_loop f : forall mc a, map_loop rec object_next_key object_next_value f mc a =
  g_loop f mc (map oraw (ma_rest a)) (option_map SExpr (ma_value a)) (ma_seen a).
Proof.
  induction f as [|f IH]; intros mc [rest held seen]; [reflexivity|]. cbn [map_loop g_loop ma_rest ma_value ma_seen]. destruct mc as [o|k|c k|k].
  - reflexivity.
  - unfold object_next_key. cbn [ma_rest ma_value ma_seen]. destruct rest as [|[[c|c] v] rest]; cbn [map oraw fst snd].
    + apply (IH _ (mk_access [] held seen)).
    + destruct (seen_mem (cow_str c) seen); [apply (IH _ (mk_access rest held seen))|apply (IH _ (mk_access rest (Some v) (cow_str c :: seen)))].
    + reflexivity.
  - unfold object_next_value. cbn [ma_rest ma_value ma_seen]. destruct held as [v|]; cbn [option_map]; [|reflexivity].
    destruct (rec c (SExpr v)); try reflexivity. apply (IH _ (mk_access rest None seen)).
  - unfold size_hint. cbn [ma_rest]. rewrite map_length. apply (IH _ (mk_access rest held seen)).
Qed.
Lemma body_loop f : forall mc a, map_loop rec body_next_key body_next_value f mc a =
  g_loop f mc (map braw (ma_rest a)) (option_map val_src (ma_value a)) (ma_seen a).
Proof.
  induction f as [|f IH]; intros mc [rest held seen]; [reflexivity|]. cbn [map_loop g_loop ma_rest ma_value ma_seen]. destruct mc as [o|k|c k|k].
  - reflexivity.
  - unfold body_next_key. cbn [ma_rest ma_value ma_seen]. destruct rest as [|[c [v|v]] rest]; cbn [map braw fst snd].
    + apply (IH _ (mk_access [] held seen)).
    + destruct (seen_mem (cow_str c) seen); [apply (IH _ (mk_access rest held seen))|apply (IH _ (mk_access rest (Some (BVExpr v)) (cow_str c :: seen)))].
    + destruct (seen_mem (cow_str c) seen); [reflexivity|apply (IH _ (mk_access rest (Some (BVBlock v)) (cow_str c :: seen)))].
  - unfold body_next_value. cbn [ma_rest ma_value ma_seen]. destruct held as [[v|v]|]; cbn [option_map val_src]; [| |reflexivity];
    (match goal with |- context [rec c ?s] => destruct (rec c s) end; try reflexivity; apply (IH _ (mk_access rest None seen))).
  - unfold size_hint. cbn [ma_rest]. rewrite map_length. apply (IH _ (mk_access rest held seen)).
Qed.
End Loop.

(** ** Running on a part of a document *)
Section Run.
Context {D : Type}.
Variable ord : blocks_t -> blocks_t.
Notation run := (@run D ord).

Definition head (m : method) (sc : scalar -> outcome D) (so nt : inner D) (sq : sclient D) (mp : mclient D) (f : nat) (s : src) (rs : list raw) (ev : event) : ran D :=
  match ev with
  | VUnit => Done (sc ZUnit) | VBool b => Done (sc (ZBool b)) | VI64 z => Done (sc (ZI64 z)) | VF64 x => Done (sc (ZF64 x))
  | VBorrowedStr t => Done (sc (ZBorrowed t)) | VString t => Done (sc (ZString t)) | VNone => Done (sc ZNone)
  | VSome s' => run_inner (run f) so s' | VNewtype s' => run_inner (run f) nt s'
  | VSeq l => seq_loop (run f) f sq l | VMap _ => g_loop (run f) f mp rs None []
  | VErr e => Done (Bad e) | VPanic => Panicked
  end.
Lemma run_S f m sc so nt sq mp x : proper x -> run (S f) (Target m sc so nt sq mp) (src_of x) = head m sc so nt sq mp f (src_of x) (raws ord x) (call ord (src_of x) m).
Proof.
  intros Hp. cbn [AnyTarget.run]. unfold head.
  assert (HB : forall b, run_map ord (run f) f mp (SBody b) = g_loop (run f) f mp (map braw (build_map_access_iter ord b)) None []).
  { intros b. cbn [run_map]. rewrite body_loop. reflexivity. }
  destruct (call ord (src_of x) m) as [| | | | | | | | | |l| |] eqn:EC; try reflexivity.
  destruct x as [e|b|bs]; cbn [src_of] in *.
  - destruct e as [|n|b|s|l0|l0]; cbn [run_map]; [exfalso| exfalso|exfalso|exfalso|exfalso|].
    + destruct m; discriminate.
    + cbn in EC. unfold expr_call, expr_any, number_event in EC. destruct m; try discriminate; destruct (is_float n); try destruct (is_signed n); try destruct (as_f64 n); try destruct (as_int _ n); discriminate.
    + destruct m; discriminate.
    + destruct m, s; discriminate.
    + destruct m; cbn in EC; try destruct (Nat.eqb _ _); discriminate.
    + rewrite object_loop. reflexivity.
  - apply HB.
  - destruct bs as [|b [|b' bs]]; [destruct Hp|apply HB|]. exfalso. cbn in EC. destruct m; try discriminate.
Qed.

(** *** More fuel does not change a result *)
Definition mono (r r' : target D -> src -> ran D) : Prop := forall c s, r c s <> Running -> r' c s = r c s.
Lemma seq_loop_mono r r' (Hr : mono r r') f : forall f' sc l, f <= f' -> seq_loop r f sc l <> Running -> seq_loop r' f' sc l = seq_loop r f sc l.
Proof.
  induction f as [|f IH]; intros f' sc l Hf H; [cbn in H; congruence|]. destruct f' as [|f']; [lia|]. apply le_S_n in Hf. cbn [seq_loop] in *. destruct sc as [o|c k|k].
  - reflexivity.
  - destruct l as [|s l]; [apply IH; assumption|].
    assert (H0 : r c s <> Running) by (intros E; rewrite E in H; congruence). rewrite (Hr c s H0). destruct (r c s); try reflexivity. apply IH; assumption.
  - apply IH; assumption.
Qed.
Lemma map_loop_mono {K V} (nk nv : access K V -> obs * access K V) r r' (Hr : mono r r') f : forall f' mc a, f <= f' -> map_loop r nk nv f mc a <> Running -> map_loop r' nk nv f' mc a = map_loop r nk nv f mc a.
Proof.
  induction f as [|f IH]; intros f' mc a Hf H; [cbn in H; congruence|]. destruct f' as [|f']; [lia|]. apply le_S_n in Hf. cbn [map_loop] in *. destruct mc as [o|k|c k|k].
  - reflexivity.
  - destruct (nk a) as [[] a']; try reflexivity; apply IH; assumption.
  - destruct (nv a) as [[| | |s| |] a']; try reflexivity.
    assert (H0 : r c s <> Running) by (intros E; rewrite E in H; congruence). rewrite (Hr c s H0). destruct (r c s); try reflexivity. apply IH; assumption.
  - destruct (size_hint a) as [[] a']; try reflexivity; apply IH; assumption.
Qed.
Lemma run_mono f : forall f', f <= f' -> mono (run f) (run f').
Proof.
  induction f as [|f IH]; intros f' Hf c s H; [cbn in H; congruence|]. destruct f' as [|f']; [lia|]. apply le_S_n in Hf. specialize (IH f' Hf).
  destruct c as [m sc so nt sq mp]. cbn [AnyTarget.run] in *.
  assert (HI : forall i s', run_inner (run f) i s' <> Running -> run_inner (run f') i s' = run_inner (run f) i s').
  { intros [o|c k] s' Hs; [reflexivity|]. cbn in *. assert (H0 : run f c s' <> Running) by (intros E; rewrite E in Hs; congruence). rewrite (IH _ _ H0). reflexivity. }
  destruct (call ord s m); try reflexivity; try (apply HI; exact H).
  - apply seq_loop_mono; assumption.
  - unfold run_map in *. destruct s as [e|b|[bs|bs ls]]; try reflexivity.
    + destruct e; try reflexivity. apply map_loop_mono; assumption.
    + apply map_loop_mono; assumption.
    + destruct bs as [|b [|? ?]]; try reflexivity. apply map_loop_mono; assumption.
    + destruct bs as [|b [|? ?]]; try reflexivity. destruct ls; try reflexivity. apply map_loop_mono; assumption.
Qed.
End Run.

(** ** Without a hazard there is no panic *)
Inductive SafeRaws (P : src -> Prop) : list str -> list raw -> Prop :=
| SR_nil seen : SafeRaws P seen []
| SR_new seen c s d l : ~ In (cow_str c) seen -> P s -> SafeRaws P (cow_str c :: seen) l -> SafeRaws P seen ((Some c, s, d) :: l)
| SR_again seen c s e l : In (cow_str c) seen -> SafeRaws P seen l -> SafeRaws P seen ((Some c, s, Error e) :: l).
Lemma SafeRaws_app (P : src -> Prop) l2 : forall l1 seen, SafeRaws P seen l1 ->
  (forall seen', (forall n, In n seen' <-> In n seen \/ exists r c, In r l1 /\ rname r = Some c /\ cow_str c = n) -> SafeRaws P seen' l2) ->
  SafeRaws P seen (l1 ++ l2).
Proof.
  intros l1 seen H. induction H as [seen|seen c s d l Hn HP _ IH|seen c s e l Hi _ IH]; intros H2; cbn.
  - apply H2. intros n. split; [auto|]. intros [?|(? & ? & [] & _)]; assumption.
  - constructor; try assumption. apply IH. intros seen' Hs. apply H2. intros n. rewrite Hs. cbn. split.
    + intros [[<-|?]|(r & c' & ? & ? & ?)]; [right; exists (Some c, s, d), c; auto|auto|right; exists r, c'; auto].
    + intros [?|(r & c' & [<-|Hr] & E & <-)]; [auto| |right; eauto]. cbn in E. injection E as <-. auto.
  - constructor; [assumption|]. apply IH. intros seen' Hs. apply H2. intros n. rewrite Hs. split.
    + intros [?|(r & c' & ? & ? & ?)]; [auto|right; exists r, c'; cbn; auto].
    + intros [?|(r & c' & [<-|Hr] & E & <-)]; [auto| |right; eauto]. cbn in E. injection E as <-. auto.
Qed.

Section Safe.
Variable ord : blocks_t -> blocks_t.
Hypothesis Ho : Order ord.
Definition safe (s : src) : Prop := exists y, s = src_of y /\ proper y /\ ~ Hazard y.
Lemma safe_object l : ~ Hazard (Expr (EObject l)) -> SafeRaws safe [] (map oraw l).
Proof.
  intros H. assert (G : forall l2 l1 seen, l = l1 ++ l2 -> (forall n, In n seen <-> exists k e, In (KIdent k, e) l1 /\ cow_str k = n) -> SafeRaws safe seen (map oraw l2)).
  { induction l2 as [|[[c|c] e] l2 IH]; intros l1 seen E Hs; cbn [map oraw fst snd]; [constructor| |].
    - destruct (in_dec (list_eq_dec N.eq_dec) (cow_str c) seen) as [Hi|Hn].
      + apply SR_again; [exact Hi|]. apply (IH (l1 ++ [(KIdent c, e)])); [rewrite <- app_assoc; exact E|]. intros n. rewrite Hs. split.
        * intros (k & e' & Hk & <-). exists k, e'. rewrite in_app_iff. auto.
        * intros (k & e' & Hk & <-). apply in_app_iff in Hk as [Hk|[[= <- <-]|[]]]; [eauto|]. apply Hs, Hi.
      + apply SR_new; [exact Hn| |].
        * exists (Expr e). split; [reflexivity|]. split; [exact I|]. intros HH. apply H. rewrite E. apply H_member; [|exact HH].
          intros k' e' Hk Heq. apply Hn, Hs. eauto.
        * apply (IH (l1 ++ [(KIdent c, e)])); [rewrite <- app_assoc; exact E|]. intros n. cbn. rewrite Hs. split.
          -- intros [<-|(k & e' & Hk & <-)]; [exists c, e|exists k, e']; rewrite in_app_iff; cbn; auto.
          -- intros (k & e' & Hk & <-). apply in_app_iff in Hk as [Hk|[[= <- <-]|[]]]; [right; eauto|auto].
    - exfalso. apply H. apply (H_key l c e). rewrite E. apply in_app_iff. right. left. reflexivity. }
  apply (G l [] []); [reflexivity|]. intros n. split; [intros []|intros (? & ? & [] & _)].
Qed.
Lemma safe_attrs b : ~ Hazard (Body b) -> SafeRaws safe [] (map (fun ne => braw (fst ne, BVExpr (snd ne))) (attributes_of b)).
Proof.
  intros H. assert (G : forall l2 l1 seen, attributes_of b = l1 ++ l2 -> (forall n, In n seen <-> exists k e, In (k, e) l1 /\ cow_str k = n) ->
    SafeRaws safe seen (map (fun ne => braw (fst ne, BVExpr (snd ne))) l2)).
  { induction l2 as [|[c e] l2 IH]; intros l1 seen E Hs; cbn [map braw fst snd]; [constructor|].
    destruct (in_dec (list_eq_dec N.eq_dec) (cow_str c) seen) as [Hi|Hn].
    - apply SR_again; [exact Hi|]. apply (IH (l1 ++ [(c, e)])); [rewrite <- app_assoc; exact E|]. intros n. rewrite Hs. split.
      + intros (k & e' & Hk & <-). exists k, e'. rewrite in_app_iff. auto.
      + intros (k & e' & Hk & <-). apply in_app_iff in Hk as [Hk|[[= <- <-]|[]]]; [eauto|]. apply Hs, Hi.
    - apply SR_new; [exact Hn| |].
      + exists (Expr e). split; [reflexivity|]. split; [exact I|]. intros HH. apply H.
        apply (H_attr b (map (fun ne => (cow_str (fst ne), snd ne)) l1) (cow_str c) e (map (fun ne => (cow_str (fst ne), snd ne)) l2)); [| |exact HH].
        * rewrite <- attributes_list, E, map_app. reflexivity.
        * intros Hi. rewrite map_map in Hi. apply in_map_iff in Hi as ([k e'] & Ek & Hk). apply Hn, Hs. cbn in Ek. eauto.
      + apply (IH (l1 ++ [(c, e)])); [rewrite <- app_assoc; exact E|]. intros n. cbn. rewrite Hs. split.
        * intros [<-|(k & e' & Hk & <-)]; [exists c, e|exists k, e']; rewrite in_app_iff; cbn; auto.
        * intros (k & e' & Hk & <-). apply in_app_iff in Hk as [Hk|[[= <- <-]|[]]]; [right; eauto|auto]. }
  apply (G _ [] []); [reflexivity|]. intros n. split; [intros []|intros (? & ? & [] & _)].
Qed.
Lemma safe_body b : ~ Hazard (Body b) -> SafeRaws safe [] (map braw (build_map_access_iter ord b)).
Proof.
  intros H. unfold build_map_access_iter. rewrite map_app, !map_map. apply SafeRaws_app; [apply safe_attrs, H|]. intros seen Hs.
  assert (Hno : forall n, In n seen -> In n (map fst (attr_list b))).
  { intros n Hn. apply Hs in Hn as [[]|(r & c & Hr & Ec & <-)]. apply in_map_iff in Hr as ([k e] & <- & Hk). cbn in Ec. injection Ec as <-.
    rewrite <- attributes_list, map_map. apply in_map_iff. exists (k, e). auto. }
  clear Hs.
  assert (HN : forall k x, In (k, x) (ord (blocks_new (blocks_of b))) -> ~ In (cow_str k) (map fst (attr_list b)) /\ safe (SBlock x)).
  { intros k x Hx. assert (Hk : In (cow_str k) (map (fun kv => cow_str (fst kv)) (ord (blocks_new (blocks_of b))))) by (apply in_map_iff; exists (k, x); auto).
    apply (ord_keys ord _ _ Ho) in Hk as (c & Hc & Ec). rewrite blocks_list in Hc. split.
    - intros Hi. rewrite <- Ec in Hi. exact (H (H_clash b c Hc Hi)).
    - apply (Permutation_in _ (Permutation_sym (Ho _))) in Hx. destruct (blocks_new_in _ _ _ Hx) as (r & HL & ->). rewrite blocks_list in HL.
      assert (Hu : forall c0, In c0 r -> b_labels c0 = []).
      { intros c0 Hc0. destruct (b_labels c0) eqn:EL; [reflexivity|]. exfalso. apply H. apply (H_labels b _ r c0 HL Hc0). congruence. }
      exists (Group (map b_body r)). unfold bdefault. rewrite extend_unlabelled by exact Hu. split; [reflexivity|]. split.
      + inversion HL as [l1 l2 _ Hne _ _ _]. destruct r; [congruence|exact I].
      + intros HH. inversion HH as [| | | | | | |bs b0 Hb0 HH0]; subst. apply in_map_iff in Hb0 as (c0 & <- & Hc0). exact (H (H_block b _ r c0 HL Hc0 HH0)). }
  pose proof (ord_nodup ord (blocks_of b) Ho) as HD. clear H.
  assert (Hsep : forall k x, In (k, x) (ord (blocks_new (blocks_of b))) -> ~ In (cow_str k) seen) by (intros k x Hx Hi; apply (HN k x Hx), Hno, Hi).
  clear Hno. revert seen Hsep HN HD. generalize (ord (blocks_new (blocks_of b))). intros L. induction L as [|[k x] L IH]; intros seen Hsep HN HD; cbn [map braw fst snd]; [constructor|].
  inversion HD as [|? ? Hnk HD']; subst. constructor.
  - apply (Hsep k x). left. reflexivity.
  - apply (HN k x). left. reflexivity.
  - apply IH; [|intros k' x' Hx'; apply (HN k' x'); right; exact Hx'|exact HD'].
    intros k' x' Hx' [E|Hi]; [|apply (Hsep k' x'); [right; exact Hx'|exact Hi]]. apply Hnk. rewrite E. apply in_map_iff. exists (k', x'). auto.
Qed.
Lemma safe_raws x : ~ Hazard x -> SafeRaws safe [] (raws ord x).
Proof.
  intros H. destruct x as [e|b|[|b [|b' bs]]]; cbn [raws]; try constructor.
  - destruct e; try constructor. apply safe_object, H.
  - apply safe_body, H.
  - apply safe_body. intros HH. apply H. apply (H_group [b] b); [left; reflexivity|exact HH].
Qed.

Context {D : Type}.
Section Step.
Variable rec : target D -> src -> ran D.
Hypothesis Hrec : forall c s, Polite c -> safe s -> rec c s <> Panicked.
Lemma seq_safe f : forall sc l, PoliteS sc -> Forall safe l -> seq_loop rec f sc l <> Panicked.
Proof.
  induction f as [|f IH]; intros sc l HP HS; [discriminate|]. cbn [seq_loop]. destruct HP as [o|c k HC HK|k HK].
  - discriminate.
  - destruct HS as [|s l Hs HS]; [apply IH; [apply HK|constructor]|]. pose proof (Hrec c s HC Hs) as HR. destruct (rec c s); [|congruence|discriminate]. apply IH; [apply HK|exact HS].
  - apply IH; [apply HK|exact HS].
Qed.
Lemma map_safe f : forall w mc rest held seen, PoliteM w mc -> SafeRaws safe seen rest -> (w = true -> exists s, held = Some s /\ safe s) ->
  (forall s, held = Some s -> safe s) -> g_loop rec f mc rest held seen <> Panicked.
Proof.
  induction f as [|f IH]; intros w mc rest held seen HP HS HW HH; [discriminate|]. cbn [g_loop]. destruct HP as [w o|w k HK1 HK2 HK3|c k HC HK|w k HK].
  - discriminate.
  - destruct HS as [seen|seen c s d l Hn Hs HS|seen c s e l Hi HS].
    + apply (IH false); [exact HK2|constructor|discriminate|exact HH].
    + rewrite (proj2 (seen_mem_out _ _) Hn). apply (IH true); [apply HK1|exact HS|eauto|]. intros s' [= <-]. exact Hs.
    + rewrite (proj2 (seen_mem_in _ _) Hi). apply (IH false); [apply HK3|exact HS|discriminate|exact HH].
  - destruct (HW eq_refl) as (s & -> & Hs). pose proof (Hrec c s HC Hs) as HR. destruct (rec c s); [|congruence|discriminate].
    apply (IH false); [apply HK|exact HS|discriminate|discriminate].
  - apply (IH w); [apply HK|exact HS|exact HW|exact HH].
Qed.
End Step.
Theorem run_safe f : forall (c : target D) x, Polite c -> proper x -> ~ Hazard x -> run ord f c (src_of x) <> Panicked.
Proof.
  induction f as [|f IH]; intros c x HP Hx HH; [discriminate|]. destruct HP as [m sc so nt sq mp Hso Hnt Hsq Hmp].
  assert (Hrec : forall c s, Polite c -> safe s -> run ord f c s <> @Panicked D) by (intros c s Hc (y & -> & Hy & Hh); apply IH; assumption).
  rewrite run_S by exact Hx. unfold head.
  assert (Hself : safe (src_of x)) by (exists x; auto).
  assert (HI : forall i s', PoliteI i -> safe s' -> run_inner (run ord f) i s' <> @Panicked D).
  { intros i s' [o|c k Hc] Hs; cbn; [discriminate|]. pose proof (Hrec c s' Hc Hs) as HR. destruct (run ord f c s'); [discriminate|congruence|discriminate]. }
  destruct (call ord (src_of x) m) as [| | | | | | |s'|s'|l|l| |] eqn:EC; try discriminate.
  - apply HI; [exact Hso|]. enough (s' = src_of x) as -> by exact Hself. clear - EC.
    destruct x as [e|b|bs]; cbn in EC; [|discriminate|].
    + destruct e, m; cbn in EC; unfold string_event, number_event in EC; try discriminate; try (injection EC as <-; reflexivity);
        repeat match type of EC with context [if ?b then _ else _] => destruct b | context [match ?b with _ => _ end] => destruct b end; try discriminate; try (injection EC as <-; reflexivity).
    + unfold block_call, one_or_seq, body_any in EC. destruct m; repeat match type of EC with context [if ?b then _ else _] => destruct b | context [match ?b with _ => _ end] => destruct b end; try discriminate; try (injection EC as <-; reflexivity).
  - apply HI; [exact Hnt|]. enough (s' = src_of x) as -> by exact Hself. clear - EC.
    destruct x as [e|b|bs]; cbn in EC; [|discriminate|].
    + destruct e, m; cbn in EC; unfold string_event, number_event in EC; try discriminate; try (injection EC as <-; reflexivity);
        repeat match type of EC with context [if ?b then _ else _] => destruct b | context [match ?b with _ => _ end] => destruct b end; try discriminate; try (injection EC as <-; reflexivity).
    + unfold block_call, one_or_seq, body_any in EC. destruct m; repeat match type of EC with context [if ?b then _ else _] => destruct b | context [match ?b with _ => _ end] => destruct b end; try discriminate; try (injection EC as <-; reflexivity).
  - apply seq_safe; [exact Hrec|exact Hsq|].
    assert (HT : forall l0, ~ Hazard (Expr (ETuple l0)) -> Forall safe (map SExpr l0)).
    { intros l0 H0. apply Forall_forall. intros s Hs. apply in_map_iff in Hs as (e & <- & He). exists (Expr e). split; [reflexivity|]. split; [exact I|]. intros H1. exact (H0 (H_item _ _ He H1)). }
    assert (HG : forall bs, ~ Hazard (Group bs) -> Forall safe (map SBody bs)).
    { intros l0 H0. apply Forall_forall. intros s Hs. apply in_map_iff in Hs as (e & <- & He). exists (Body e). split; [reflexivity|]. split; [exact I|]. intros H1. exact (H0 (H_group _ _ He H1)). }
    destruct x as [e|b|bs]; cbn in EC; [|discriminate|].
    + destruct e as [|n|b|s|l0|l0], m; cbn in EC; unfold string_event, number_event in EC; try discriminate;
        try (repeat match type of EC with context [if ?b then _ else _] => destruct b | context [match ?b with _ => _ end] => destruct b end; discriminate);
        try (injection EC as <-; apply HT, HH).
      destruct (Nat.eqb _ _); [injection EC as <-; apply HT, HH|discriminate].
    + unfold block_call, one_or_seq, body_any in EC. destruct m; try (injection EC as <-; apply HG, HH); try discriminate;
        try (destruct (Nat.eqb _ _); discriminate); (destruct bs as [|b [|b' bs]]; try discriminate; injection EC as <-; first [exact (HG [] HH)|exact (HG (b :: b' :: bs) HH)]).
  - apply (map_safe (run ord f) Hrec f false); [exact Hmp|apply safe_raws, HH|discriminate|discriminate].
  - exfalso. clear - EC. destruct x as [e|b|bs]; cbn in EC; [|discriminate|].
    + destruct e, m; cbn in EC; unfold string_event, number_event in EC; try discriminate;
        repeat match type of EC with context [if ?b then _ else _] => destruct b | context [match ?b with _ => _ end] => destruct b end; discriminate.
    + unfold block_call, one_or_seq, body_any in EC. destruct m; repeat match type of EC with context [if ?b then _ else _] => destruct b | context [match ?b with _ => _ end] => destruct b end; discriminate.
Qed.
End Safe.

(** ** A target that walks through everything, whatever goes wrong *)
CoFixpoint walker : target unit := Target MAny (fun _ => Good tt) (IRet (Good tt)) (IRet (Good tt)) walk_seq walk_map
with walk_seq : sclient unit := SItem walker (fun a => match a with None => SRet (Good tt) | Some _ => walk_seq end)
with walk_map : mclient unit := MKey (fun a => match a with GotKey _ => MVal walker (fun _ => walk_map) | NoKey => MRet (Good tt) | DupKey _ => walk_map end).
Definition target_frob {D} (c : target D) : target D := match c with Target m sc so nt sq mp => Target m sc so nt sq mp end.
Definition sclient_frob {D} (c : sclient D) : sclient D := match c with SRet o => SRet o | SItem c k => SItem c k | SSize k => SSize k end.
Definition mclient_frob {D} (c : mclient D) : mclient D := match c with MRet o => MRet o | MKey k => MKey k | MVal c k => MVal c k | MSize k => MSize k end.
Lemma target_frob_eq {D} (c : target D) : c = target_frob c. Proof. destruct c; reflexivity. Qed.
Lemma sclient_frob_eq {D} (c : sclient D) : c = sclient_frob c. Proof. destruct c; reflexivity. Qed.
Lemma mclient_frob_eq {D} (c : mclient D) : c = mclient_frob c. Proof. destruct c; reflexivity. Qed.
Lemma walker_eq : walker = Target MAny (fun _ => Good tt) (IRet (Good tt)) (IRet (Good tt)) walk_seq walk_map.
Proof. rewrite (target_frob_eq walker) at 1. reflexivity. Qed.
Lemma walk_seq_eq : walk_seq = SItem walker (fun a => match a with None => SRet (Good tt) | Some _ => walk_seq end).
Proof. rewrite (sclient_frob_eq walk_seq) at 1. reflexivity. Qed.
Lemma walk_map_eq : walk_map = MKey (fun a => match a with GotKey _ => MVal walker (fun _ => walk_map) | NoKey => MRet (Good tt) | DupKey _ => walk_map end).
Proof. rewrite (mclient_frob_eq walk_map) at 1. reflexivity. Qed.
Lemma walker_polite : Polite walker.
Proof.
  cofix CH. rewrite walker_eq. constructor.
  - constructor.
  - constructor.
  - cofix CS. rewrite walk_seq_eq. constructor; [exact CH|]. intros [a|]; [exact CS|constructor].
  - cofix CM. rewrite walk_map_eq. constructor; [|constructor|intros e; exact CM]. intros x. constructor; [exact CH|]. intros o. exact CM.
Qed.

Lemma SafeRaws_split (P : src -> Prop) : forall l seen, SafeRaws P seen l -> forall l1 r l2, l = l1 ++ r :: l2 ->
  exists c, rname r = Some c /\
    ((In (cow_str c) seen \/ exists r' c', In r' l1 /\ rname r' = Some c' /\ cow_str c' = cow_str c) -> exists e, snd r = Error e) /\
    (~ In (cow_str c) seen -> (forall r' c', In r' l1 -> rname r' = Some c' -> cow_str c' <> cow_str c) -> P (rsrc r)).
Proof.
  intros l seen H. induction H as [seen|seen c s d l Hn HP _ IH|seen c s e l Hi _ IH]; intros [|r1 l1] r l2 E; try discriminate.
  - injection E as <- ->. exists c. split; [reflexivity|]. split; [intros [?|(? & ? & [] & _)]; contradiction|]. intros _ _. exact HP.
  - injection E as <- ->. destruct (IH l1 r l2 eq_refl) as (c' & Ec & H1 & H2). exists c'. split; [exact Ec|]. split.
    + intros H. apply H1. destruct H as [?|(r' & c'' & [<-|Hr] & Er & Es)]; [left; right; assumption| |right; eauto].
      cbn in Er. injection Er as <-. left. left. exact Es.
    + intros Hns Hno. apply H2.
      * intros [Ee|?]; [|contradiction]. apply (Hno (Some c, s, d) c); [left; reflexivity|reflexivity|exact Ee].
      * intros r' c'' Hr. apply Hno. right. exact Hr.
  - injection E as <- ->. exists c. split; [reflexivity|]. split; [intros _; exists e; reflexivity|]. intros Hns. contradiction.
  - injection E as <- ->. destruct (IH l1 r l2 eq_refl) as (c' & Ec & H1 & H2). exists c'. split; [exact Ec|]. split.
    + intros H. apply H1. destruct H as [?|(r' & c'' & [<-|Hr] & Er & Es)]; [left; assumption| |right; eauto].
      cbn in Er. injection Er as <-. left. rewrite <- Es. exact Hi.
    + intros Hns Hno. apply H2; [exact Hns|]. intros r' c'' Hr. apply Hno. right. exact Hr.
Qed.

Section Walk.
Variable ord : blocks_t -> blocks_t.
Hypothesis Ho : Order ord.
Notation run := (run ord).
Definition Ends (s : src) (r : ran unit) : Prop := r <> Running /\ exists F, forall f, F <= f -> run f walker s = r.
Lemma Ends_fun s r r' : Ends s r -> Ends s r' -> r = r'.
Proof. intros (_ & F & H) (_ & F' & H'). rewrite <- (H (F + F')), <- (H' (F + F')) by lia. reflexivity. Qed.
Lemma good_tt (o : outcome unit) : (exists e, o = Bad e) \/ o = Good tt.
Proof. destruct o as [[]|e]; eauto. Qed.

Lemma seq_walk l : (forall s, In s l -> exists r, Ends s r) -> exists r, r <> Running /\
  (exists F, forall f g, F <= f -> F <= g -> seq_loop (run g) f walk_seq l = r) /\ (r = Panicked \/ forall s, In s l -> ~ Ends s Panicked).
Proof.
  induction l as [|s l IH]; intros H.
  - exists (Done (Good tt)). split; [discriminate|]. split; [|right; intros s []]. exists 2. intros [|[|f]] g Hf _; try lia. rewrite walk_seq_eq. reflexivity.
  - destruct IH as (r & Hr & (F & HF) & HP); [intros s' Hs'; apply H; right; exact Hs'|].
    destruct (H s (or_introl eq_refl)) as (r1 & HE). pose proof HE as (Hr1 & F1 & HF1).
    destruct r1 as [o| |]; [|exists Panicked; split; [discriminate|]; split; [|left; reflexivity]|congruence].
    + exists r. split; [exact Hr|]. split.
      * exists (S (F + F1)). intros [|f] g Hf Hg; [lia|]. rewrite walk_seq_eq. cbn [seq_loop]. rewrite HF1 by lia. apply HF; lia.
      * destruct HP as [->|HP]; [left; reflexivity|right]. intros s' [<-|Hs'] HE'; [|exact (HP s' Hs' HE')]. discriminate (Ends_fun _ _ _ HE HE').
    + exists (S F1). intros [|f] g Hf Hg; [lia|]. rewrite walk_seq_eq. cbn [seq_loop]. rewrite HF1 by lia. reflexivity.
Qed.
Lemma map_walk rest : (forall r, In r rest -> exists x, Ends (rsrc r) x) -> forall seen held, exists x, x <> Running /\
  (exists F, forall f g, F <= f -> F <= g -> g_loop (run g) f walk_map rest held seen = x) /\
  (x = Panicked \/ SafeRaws (fun s => ~ Ends s Panicked) seen rest).
Proof.
  induction rest as [|[[[c|] s] d] rest IH]; intros H seen held.
  - exists (Done (Good tt)). split; [discriminate|]. split; [|right; constructor]. exists 2. intros [|[|f]] g Hf _; try lia. rewrite walk_map_eq. reflexivity.
  - assert (H' : forall r, In r rest -> exists x, Ends (rsrc r) x) by (intros r Hr; apply H; right; exact Hr).
    destruct (seen_mem (cow_str c) seen) eqn:EM.
    + destruct d as [e|].
      * destruct (IH H' seen held) as (x & Hx & (F & HF) & HP). exists x. split; [exact Hx|]. split.
        -- exists (S F). intros [|f] g Hf Hg; [lia|]. rewrite walk_map_eq. cbn [g_loop]. rewrite EM. apply HF; lia.
        -- destruct HP as [->|HP]; [auto|]. right. apply SR_again; [apply seen_mem_in, EM|exact HP].
      * exists Panicked. split; [discriminate|]. split; [|auto]. exists 1. intros [|f] g Hf Hg; [lia|]. rewrite walk_map_eq. cbn [g_loop]. rewrite EM. reflexivity.
    + destruct (H _ (or_introl eq_refl)) as (x1 & HE). cbn [rsrc fst snd] in HE. pose proof HE as (Hx1 & F1 & HF1). destruct x1 as [o| |]; [| |congruence].
      * destruct (IH H' (cow_str c :: seen) None) as (x & Hx & (F & HF) & HP). exists x. split; [exact Hx|]. split.
        -- exists (S (S (F + F1))). intros [|[|f]] g Hf Hg; try lia. rewrite walk_map_eq. cbn [g_loop]. rewrite EM. rewrite HF1 by lia. apply HF; lia.
        -- destruct HP as [->|HP]; [auto|]. right. apply SR_new; [apply seen_mem_out, EM| |exact HP]. intros HE'. discriminate (Ends_fun _ _ _ HE HE').
      * exists Panicked. split; [discriminate|]. split; [|auto]. exists (S (S F1)). intros [|[|f]] g Hf Hg; try lia. rewrite walk_map_eq. cbn [g_loop]. rewrite EM. rewrite HF1 by lia. reflexivity.
  - exists Panicked. split; [discriminate|]. split; [|auto]. exists 1. intros [|f] g Hf Hg; [lia|]. rewrite walk_map_eq. reflexivity.
Qed.

Lemma labelled_call r : (exists c, In c r /\ b_labels c <> []) -> call ord (SBlock (extend bdefault (run_of r))) MAny = VPanic.
Proof.
  intros H. pose proof (labelled_panics ord Ho r H TUnit) as E. rewrite deserialize_eq in E by exact Ho. cbn [method_of] in E.
  destruct (call ord (SBlock (extend bdefault (run_of r))) MAny); cbn in E; try discriminate. reflexivity.
Qed.
Lemma panic_ends s : call ord s MAny = VPanic -> Ends s Panicked.
Proof. intros E. split; [discriminate|]. exists 1. intros [|f] Hf; [lia|]. rewrite walker_eq. cbn [AnyTarget.run]. rewrite E. reflexivity. Qed.
Lemma raws_src x r : In r (raws ord x) -> (exists y, rsrc r = src_of y /\ proper y) \/ call ord (rsrc r) MAny = VPanic.
Proof.
  assert (HB : forall b, In r (map braw (build_map_access_iter ord b)) -> (exists y, rsrc r = src_of y /\ proper y) \/ call ord (rsrc r) MAny = VPanic).
  { intros b H. apply in_map_iff in H as ([k v] & <- & H). unfold build_map_access_iter in H. apply in_app_iff in H as [H|H]; apply in_map_iff in H as ([n e] & [= <- <-] & H).
    - left. exists (Expr e). split; [reflexivity|exact I].
    - cbn [braw fst snd rsrc]. apply (Permutation_in _ (Permutation_sym (Ho _))) in H. destruct (blocks_new_in _ _ _ H) as (r & HL & ->).
      destruct (last_run_dec r) as [Hu|Hl]; [left|right; apply labelled_call, Hl]. exists (Group (map b_body r)). unfold bdefault. rewrite extend_unlabelled by exact Hu. split; [reflexivity|].
      inversion HL as [l1 l2 _ Hne _ _ _]. destruct r; [congruence|exact I]. }
  destruct x as [e|b|[|b [|b' bs]]]; cbn [raws]; try (intros []); try apply HB.
  destruct e; try (intros []). intros H. apply in_map_iff in H as ([k e] & <- & H). left. exists (Expr e). split; [destruct k; reflexivity|exact I].
Qed.
Lemma LastRun_exists t l : (exists c, In c l /\ cow_str (b_type c) = t) -> exists r, LastRun t l r.
Proof.
  intros H. apply blocks_new_keys in H. apply in_map_iff in H as ([k x] & <- & Hx). destruct (blocks_new_in _ _ _ Hx) as (r & HL & _). exists r. exact HL.
Qed.
(* a hazard is met in an object or body *)
Lemma hazard_object (P : src -> Prop) l : SafeRaws P [] (map oraw l) -> (forall k e, In (k, e) l -> Hazard (Expr e) -> ~ P (SExpr e)) -> ~ Hazard (Expr (EObject l)).
Proof.
  intros HS HP HH. inversion HH as [l0 k e Hi|l1 k e l2 Hno HE| | | | | |]; subst.
  - apply in_split in Hi as (l1 & l2 & ->). destruct (SafeRaws_split P _ _ HS (map oraw l1) (oraw (KExpr k, e)) (map oraw l2)) as (c & E & _); [rewrite map_app; reflexivity|discriminate].
  - destruct (SafeRaws_split P _ _ HS (map oraw l1) (oraw (KIdent k, e)) (map oraw l2)) as (c & E & _ & H2); [rewrite map_app; reflexivity|]. cbn in E. injection E as <-.
    apply (HP (KIdent k) e); [apply in_app_iff; right; left; reflexivity|exact HE|]. apply H2; [intros []|]. intros r' c' Hr Ec Es.
    apply in_map_iff in Hr as ([[k'|k'] e'] & <- & Hr); cbn in Ec; [|discriminate]. injection Ec as ->. exact (Hno _ _ Hr Es).
Qed.
Lemma hazard_body (P : src -> Prop) b : SafeRaws P [] (map braw (build_map_access_iter ord b)) ->
  (forall r y, In r (map braw (build_map_access_iter ord b)) -> rsrc r = src_of y -> Hazard y -> ~ P (rsrc r)) ->
  (forall s, call ord s MAny = VPanic -> ~ P s) -> ~ Hazard (Body b).
Proof.
  intros HS HP HV HH.
  assert (HG : forall t r, LastRun t (block_list b) r -> ~ In t (map fst (attr_list b)) /\ P (SBlock (extend bdefault (run_of r))) /\ In (SBlock (extend bdefault (run_of r))) (map rsrc (map braw (build_map_access_iter ord b)))).
  { intros t r HL. assert (Hk : In t (map (fun kv => cow_str (fst kv)) (ord (blocks_new (blocks_of b))))).
    { apply (ord_keys ord _ _ Ho). rewrite blocks_list. inversion HL as [l1 l2 E Hne Ht _ _]. destruct r as [|c r]; [congruence|]. exists c. split; [rewrite E; apply in_app_iff; right; left; reflexivity|apply Ht; left; reflexivity]. }
    apply in_map_iff in Hk as ([k x] & <- & Hx). cbn [fst] in *.
    assert (Ex : x = extend bdefault (run_of r)).
    { apply (Permutation_in _ (Permutation_sym (Ho _))) in Hx. destruct (blocks_new_in _ _ _ Hx) as (r' & HL' & ->). rewrite blocks_list in HL'. rewrite (LastRun_unique _ _ _ _ HL HL'). reflexivity. }
    subst x. assert (Hin : In (k, BVBlock (extend bdefault (run_of r))) (build_map_access_iter ord b)) by (apply in_app_iff; right; apply in_map_iff; exists (k, extend bdefault (run_of r)); split; [reflexivity|exact Hx]).
    assert (Hin3 : In (SBlock (extend bdefault (run_of r))) (map rsrc (map braw (build_map_access_iter ord b)))) by (rewrite map_map; apply in_map_iff; exists (k, BVBlock (extend bdefault (run_of r))); auto).
    pose proof Hin as Hin'. unfold build_map_access_iter in Hin'. apply in_split in Hx as (g1 & g2 & Eg).
    assert (EA : map braw (build_map_access_iter ord b) = (map (fun ne => braw (fst ne, BVExpr (snd ne))) (attributes_of b) ++ map (fun tb => braw (fst tb, BVBlock (snd tb))) g1) ++ braw (k, BVBlock (extend bdefault (run_of r))) :: map (fun tb => braw (fst tb, BVBlock (snd tb))) g2).
    { unfold build_map_access_iter. rewrite Eg, !map_app, !map_map. cbn [map fst snd]. rewrite ?map_map, <- app_assoc. reflexivity. }
    destruct (SafeRaws_split P _ _ HS _ _ _ EA) as (c & E & H1 & H2). cbn in E. injection E as <-. cbn [rsrc braw fst snd] in H2.
    assert (Hnot : ~ exists r' c', In r' (map (fun ne => braw (fst ne, BVExpr (snd ne))) (attributes_of b) ++ map (fun tb => braw (fst tb, BVBlock (snd tb))) g1) /\ rname r' = Some c' /\ cow_str c' = cow_str k).
    { intros Hex. destruct (H1 (or_intror Hex)) as (e & He). discriminate. }
    split; [|split; [|exact Hin3]].
    - intros Hi. rewrite <- attributes_list, map_map in Hi. apply in_map_iff in Hi as ([n e] & En & Hi). apply Hnot. exists (braw (n, BVExpr e)), n. split; [|split; [reflexivity|exact En]].
      apply in_app_iff. left. apply in_map_iff. exists (n, e). auto.
    - apply H2; [intros []|]. intros r' c' Hr Ec Es. apply Hnot. eauto. }
  inversion HH as [| | |b0 l1 n e l2 El Hno HE|b0 c Hc Hi|b0 t r c HL Hc Hl|b0 t r c HL Hc HE|]; subst.
  - rewrite <- attributes_list in El. destruct (app_map_split _ _ _ _ El) as (a1 & a2 & Ea & -> & Ea2). destruct a2 as [|[n' e'] a2]; [discriminate|]. cbn in Ea2. injection Ea2 as -> -> ->.
    assert (EA : map braw (build_map_access_iter ord b) = map (fun ne => braw (fst ne, BVExpr (snd ne))) a1 ++ braw (n', BVExpr e') :: (map (fun ne => braw (fst ne, BVExpr (snd ne))) a2 ++ map (fun tb => braw (fst tb, BVBlock (snd tb))) (ord (blocks_new (blocks_of b))))).
    { unfold build_map_access_iter. rewrite Ea, !map_app, !map_map. cbn [map fst snd]. rewrite ?map_map, <- app_assoc. reflexivity. }
    destruct (SafeRaws_split P _ _ HS _ _ _ EA) as (c & E & _ & H2). cbn in E. injection E as <-.
    apply (HP (braw (n', BVExpr e')) (Expr e')); [rewrite EA; apply in_app_iff; right; left; reflexivity|reflexivity|exact HE|].
    apply H2; [intros []|]. intros r' c' Hr Ec Es. apply in_map_iff in Hr as ([k0 e0] & <- & Hr). cbn in Ec. injection Ec as <-. apply Hno. rewrite map_map. apply in_map_iff. exists (k0, e0). auto.
  - destruct (LastRun_exists (cow_str (b_type c)) (block_list b)) as (r & HL); [exists c; auto|]. exact (proj1 (HG _ _ HL) Hi).
  - destruct (HG _ _ HL) as (_ & Hp & _). apply (HV (SBlock (extend bdefault (run_of r)))); [|exact Hp]. apply labelled_call. eauto.
  - destruct (HG _ _ HL) as (_ & Hp & Hin). destruct (last_run_dec r) as [Hu|Hl].
    + apply in_map_iff in Hin as (r0 & E0 & Hin). apply (HP r0 (Group (map b_body r)) Hin); [|apply (H_group _ (b_body c)); [apply in_map, Hc|exact HE]|rewrite E0; exact Hp].
      rewrite E0. unfold bdefault. rewrite extend_unlabelled by exact Hu. reflexivity.
    + apply (HV (SBlock (extend bdefault (run_of r)))); [|exact Hp]. apply labelled_call, Hl.
Qed.
Theorem walk n : forall x, src_depth (src_of x) < n -> proper x -> exists r, Ends (src_of x) r /\ (Hazard x -> r = Panicked).
Proof.
  induction n as [|n IH]; intros x Hn Hx; [lia|].
  assert (HE : forall r, r <> Running -> (exists F, forall f, F <= f -> head ord MAny (fun _ => Good tt) (IRet (Good tt)) (IRet (Good tt)) walk_seq walk_map f (src_of x) (raws ord x) (call ord (src_of x) MAny) = r) -> Ends (src_of x) r).
  { intros r Hr (F & HF). split; [exact Hr|]. exists (S F). intros [|f] Hf; [lia|]. rewrite walker_eq, run_S by exact Hx. apply HF. lia. }
  assert (HSeq : forall l (ys : list node), call ord (src_of x) MAny = VSeq l -> l = map src_of ys -> (forall y, In y ys -> proper y) -> (Hazard x -> exists y, In y ys /\ Hazard y) ->
    exists r, Ends (src_of x) r /\ (Hazard x -> r = Panicked)).
  { intros l ys EC El Hp Hh.
    assert (Hd : forall y, In y ys -> exists r, Ends (src_of y) r /\ (Hazard y -> r = Panicked)).
    { intros y Hy. apply IH; [|apply Hp, Hy]. assert (Hs : In (src_of y) l) by (rewrite El; apply in_map, Hy). destruct (seq_part ord Ho _ _ _ _ EC Hs) as [Hd _]. lia. }
    destruct (seq_walk l) as (r & Hr & (F & HF) & HP).
    { intros s Hs. rewrite El in Hs. apply in_map_iff in Hs as (y & <- & Hy). destruct (Hd y Hy) as (r & H & _). eauto. }
    exists r. split.
    - apply HE; [exact Hr|]. exists F. intros f Hf. rewrite EC. unfold head. apply HF; lia.
    - intros HH. destruct HP as [HP|HP]; [exact HP|]. exfalso. destruct (Hh HH) as (y & Hy & Hyh). destruct (Hd y Hy) as (r' & HE' & Hr'). rewrite (Hr' Hyh) in HE'.
      apply (HP (src_of y)); [rewrite El; apply in_map, Hy|exact HE']. }
  assert (HMap : Kind x KMembers -> exists r, Ends (src_of x) r /\ (Hazard x -> r = Panicked)).
  { clear HSeq. intros HK. pose proof (raws_steps ord x HK) as EC.
    assert (Hd : forall r, In r (raws ord x) -> exists res, Ends (rsrc r) res /\ forall y, rsrc r = src_of y -> Hazard y -> res = Panicked).
    { intros r Hr. destruct (raws_src x r Hr) as [(y & Ey & Hy)|EV].
      - destruct (raws_part ord Ho x r Hr) as [Hd _]. rewrite Ey in Hd |- *. destruct (IH y) as (res & HE' & HH); [lia|exact Hy|]. exists res. split; [exact HE'|]. intros y' Ey' Hz. apply src_of_inj in Ey' as <-. apply HH, Hz.
      - exists Panicked. split; [apply panic_ends, EV|auto]. }
    destruct (map_walk (raws ord x)) with (seen := @nil str) (held := @None src) as (r & Hr & (F & HF) & HP).
    { intros r Hr. destruct (Hd r Hr) as (res & H & _). eauto. }
    exists r. split.
    - apply HE; [exact Hr|]. exists F. intros f Hf. rewrite EC. unfold head. apply HF; lia.
    - intros HH. destruct HP as [HP|HP]; [exact HP|]. exfalso. revert HH.
      assert (HB : forall b, raws ord x = map braw (build_map_access_iter ord b) -> ~ Hazard (Body b)).
      { intros b Eb. rewrite Eb in *. apply (hazard_body _ b HP); [|intros s EV HN; exact (HN (panic_ends s EV))].
        intros r0 y Hr0 Ey Hy HN. destruct (Hd r0 Hr0) as (res & HE' & Hres). rewrite (Hres y Ey Hy) in HE'. exact (HN HE'). }
      inversion HK; subst; cbn [raws] in *.
      + apply (hazard_object _ l HP). intros k e Hi Hz HN. destruct (Hd (oraw (k, e)) (in_map oraw l _ Hi)) as (res & HE' & Hres).
        assert (Es : rsrc (oraw (k, e)) = SExpr e) by (destruct k; reflexivity). rewrite (Hres (Expr e) Es Hz), Es in HE'. exact (HN HE').
      + apply HB. reflexivity.
      + intros HH. inversion HH as [| | | | | | |bs b0 Hb0 Hb1]; subst. destruct Hb0 as [<-|[]]. exact (HB b eq_refl Hb1). }
  destruct x as [e|b|bs].
  - destruct e as [|n0|b|s|l|l].
    + exists (Done (Good tt)). split; [|intros HH; inversion HH]. apply HE; [discriminate|]. exists 0. reflexivity.
    + exists (match number_event n0 with VErr e => Done (Bad e) | _ => Done (Good tt) end). split; [|intros HH; inversion HH].
      assert (HN : forall f, head ord MAny (fun _ => Good tt) (IRet (Good tt)) (IRet (Good tt)) walk_seq walk_map f (src_of (Expr (ENumber n0))) (raws ord (Expr (ENumber n0))) (number_event n0) = match number_event n0 with VErr e => Done (Bad e) | _ => Done (Good tt) end).
      { intros f. unfold head, number_event. destruct (is_float n0); [destruct (as_f64 n0); reflexivity|]. destruct (is_signed n0); destruct (as_int _ n0); reflexivity. }
      apply HE; [destruct (number_event n0); discriminate|]. exists 0. intros f _. apply HN.
    + exists (Done (Good tt)). split; [|intros HH; inversion HH]. apply HE; [discriminate|]. exists 0. reflexivity.
    + exists (Done (Good tt)). split; [|intros HH; inversion HH]. apply HE; [discriminate|]. exists 0. destruct s; reflexivity.
    + apply (HSeq (map SExpr l) (map Expr l)); [reflexivity|rewrite map_map; reflexivity| |].
      * intros y Hy. apply in_map_iff in Hy as (e & <- & _). exact I.
      * intros HH. inversion HH as [| |l0 e He Hz| | | | |]; subst. exists (Expr e). split; [apply in_map, He|exact Hz].
    + apply HMap. constructor.
  - apply HMap. constructor.
  - destruct bs as [|b [|b' bs]]; [destruct Hx|apply HMap; constructor|].
    apply (HSeq (map SBody (b :: b' :: bs)) (map Body (b :: b' :: bs))); [reflexivity|rewrite map_map; reflexivity| |].
    + intros y Hy. apply in_map_iff in Hy as (e & <- & _). exact I.
    + intros HH. inversion HH as [| | | | | | |l0 e He Hz]; subst. exists (Body e). split; [apply in_map, He|exact Hz].
Qed.
End Walk.
