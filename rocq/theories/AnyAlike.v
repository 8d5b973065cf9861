(** * AnyAlike: proofs about what targets can tell apart *)
From Coq Require Import Permutation ZArith Reals SpecFloat Lia ListDec.
From Verif Require Import Base Ast NomFacts Blocks BlockSpec BlockProofs PropBlocks BlockExactSpec BlockExact PropBlockExact NumConv NumSpec NumProofs PropNum FloatConv IoSpec
  Serde SerdeSpec SerdeProofs PropSerde SerdeErrSpec SerdeErrProofs PropSerdeErr SerdeExactSpec PropSerdeExact PropWrap
  Grammar Parser DocProofs PropSyntax Printer Reprint FloatSpec FloatProofs PropFloat PropFloatRead PropSerdeScalar
  DenSpec DenProofs FailSpec FailProofs MapAccess AnyTarget AnySpec AnyProofs.
Local Open Scope nat_scope.

Lemma F2_length {A B} {R : A -> B -> Prop} {l l'} : Forall2 R l l' -> length l = length l'.
Proof. induction 1; cbn; congruence. Qed.
Lemma number_large n t z : NumLit n t -> IntegerText t z -> ~ InRange I64 z -> number_event n = VErr EParseInt.
Proof.
  intros Hn Hz Hr. unfold number_event, is_float. destruct (is_signed n) eqn:Es; cbn [negb].
  - destruct (as_int I64 n) as [y|] eqn:E; [|reflexivity]. apply (i64_text n t y Hn) in E as [Hy Hry]. rewrite (C14_value_unique t z y Hz Hy) in Hr. contradiction.
  - destruct (NumLit_float_not_integer n t z Hn Es Hz).
Qed.
Lemma number_kinds n t : NumLit n t -> (exists z, IntLit n z) \/ (exists f, FloatLit n f) \/ (exists z, IntegerText t z /\ ~ InRange I64 z).
Proof.
  intros Hn. destruct (is_signed n) eqn:Es.
  - destruct (NumLit_integer n t Hn Es) as (z & Hz & _). destruct (as_int I64 n) as [y|] eqn:E.
    + left. exists y, t. split; [exact Hn|]. apply (i64_text n t y Hn). exact E.
    + right. right. exists z. split; [exact Hz|]. intros Hr. assert (E' : as_int I64 n = Some z) by (apply (i64_text n t z Hn); auto). congruence.
  - destruct (number_cases n t Hn) as [?|[?|(e & He)]]; [auto|auto|]. exfalso. unfold number_event, is_float in He. rewrite Es in He. cbn in He.
    destruct (literal_text n t Hn) as (v & HT & Hr). destruct (Hr 53%Z 1024%Z) as (f & Hf & _); [right; split; reflexivity|]. assert (E : as_f64 n = Some f) by exact Hf. rewrite E in He. discriminate.
Qed.

Section Alike.
Variable ord : blocks_t -> blocks_t.
Hypothesis Ho : Order ord.
Notation vo := (vo_of ord).

(** ** What looks alike is read alike *)
Section Sound.
Context {D : Type}.
Section Step.
Variable rec : target D -> src -> ran D.
Definition same (s s' : src) : Prop := forall c, rec c s = rec c s'.
Lemma seq_same f : forall sc l l', Forall2 same l l' -> seq_loop rec f sc l = seq_loop rec f sc l'.
Proof.
  induction f as [|f IH]; intros sc l l' H; [reflexivity|]. cbn [seq_loop]. destruct sc as [o|c k|k].
  - reflexivity.
  - destruct H as [|s s' l l' Hs H]; [reflexivity|]. rewrite (Hs c). destruct (rec c s'); try reflexivity. apply IH, H.
  - rewrite (F2_length H). apply IH, H.
Qed.
Lemma map_same (HA : forall y y', Alike vo y y' -> proper y -> proper y' -> same (src_of y) (src_of y')) f : forall mc os os' rest rest' held held' seen,
  AlikeM vo seen os os' -> Forall2 (matches ord) rest os -> Forall2 (matches ord) rest' os' ->
  match held, held' with None, None => True | Some s, Some s' => same s s' | _, _ => False end ->
  g_loop rec f mc rest held seen = g_loop rec f mc rest' held' seen.
Proof.
  induction f as [|f IH]; intros mc os os' rest rest' held held' seen HM HF HF' HH; [reflexivity|]. cbn [g_loop]. destruct mc as [o|k|c k|k].
  - reflexivity.
  - destruct HM as [seen|seen n y y' p p' os os' Hn Hy HM|seen n y y' p os os' Hn HM].
    + inversion HF; subst. inversion HF'; subst. apply (IH _ [] []); [constructor|constructor|constructor|exact HH].
    + inversion HF as [|[[rc rs] rd] ? r1 ? (E1 & E2 & E3) HF1]; subst. inversion HF' as [|[[rc' rs'] rd'] ? r1' ? (E1' & E2' & E3') HF1']; subst.
      cbn in E1, E3, E1', E3'. destruct rc as [c|]; [|discriminate]. destruct rc' as [c'|]; [|discriminate]. cbn in E1, E1'. injection E1 as Ec. injection E1' as Ec'. rewrite Ec, Ec'.
      rewrite (proj2 (seen_mem_out _ _) Hn). destruct E3 as [-> Hp]. destruct E3' as [-> Hp'].
      eapply IH; [exact HM|exact HF1|exact HF1'|]. apply HA; assumption.
    + inversion HF as [|[[rc rs] rd] ? r1 ? (E1 & E2 & E3) HF1]; subst. inversion HF' as [|[[rc' rs'] rd'] ? r1' ? (E1' & E2' & E3') HF1']; subst.
      cbn in E1, E1', E2, E2'. subst rd rd'. destruct rc as [c|]; [|discriminate]. destruct rc' as [c'|]; [|discriminate]. cbn in E1, E1'. injection E1 as Ec. injection E1' as Ec'. rewrite Ec, Ec'.
      rewrite (proj2 (seen_mem_in _ _) Hn). destruct p as [e|]; [|reflexivity]. eapply IH; eassumption.
  - destruct held as [s|], held' as [s'|]; try destruct HH; try reflexivity. rewrite (HH c). destruct (rec c s'); try reflexivity. eapply IH; [exact HM|exact HF|exact HF'|exact I].
  - assert (EL : length rest = length rest').
    { rewrite (F2_length HF), (F2_length HF'). clear - HM. induction HM; cbn; congruence. }
    rewrite EL. eapply IH; eassumption.
Qed.
End Step.
Lemma alike_proper x x' : Alike vo x x' -> proper x -> proper x'.
Proof. intros H. destruct H as [| | | | | | | | |bs bs' H]; try (intros _; exact I). destruct H; auto. Qed.
Theorem alike_run f : forall (c : target D) x x', Alike vo x x' -> proper x -> run ord f c (src_of x) = run ord f c (src_of x').
Proof.
  induction f as [|f IH]; intros c x x' HA Hx; [reflexivity|]. pose proof (alike_proper _ _ HA Hx) as Hx'. destruct c as [m sc so nt sq mp]. rewrite !run_S by assumption.
  assert (HI : forall i : inner D, run_inner (run ord f) i (src_of x) = run_inner (run ord f) i (src_of x')).
  { intros [o|c k]; cbn; [reflexivity|]. rewrite (IH c x x' HA Hx). reflexivity. }
  assert (HM : forall os os', Offers vo x os -> Offers vo x' os' -> AlikeM vo [] os os' -> g_loop (run ord f) f mp (raws ord x) None [] = g_loop (run ord f) f mp (raws ord x') None []).
  { intros os os' HO HO' H. eapply map_same; [|exact H|apply offers_match; [exact Ho|exact HO]|apply offers_match; [exact Ho|exact HO']|exact I]. intros y y' Hy Hp _ c. apply IH; assumption. }
  assert (HN : forall n n', x = Expr (ENumber n) -> x' = Expr (ENumber n') -> number_event n = number_event n' ->
    head ord m sc so nt sq mp f (src_of x) (raws ord x) (call ord (src_of x) m) = head ord m sc so nt sq mp f (src_of x') (raws ord x') (call ord (src_of x') m)).
  { intros n n' -> -> E. destruct m; cbn [src_of call expr_call expr_any raws]; try rewrite E; try reflexivity; unfold head; apply HI. }
  destruct HA as [|b|s|n n' z Hz Hz'|n n' g Hg Hg'|n n' t t' z z' Hn Ht Hr Hn' Ht' Hr'|l l' HF|l l' os os' HO HO' HAM|b b' os os' HO HO' HAM|bs bs' HF].
  - reflexivity.
  - reflexivity.
  - reflexivity.
  - apply (HN n n'); try reflexivity. rewrite (number_int n z Hz), (number_int n' z Hz'). reflexivity.
  - apply (HN n n'); try reflexivity. rewrite (number_float n g Hg), (number_float n' g Hg'). reflexivity.
  - apply (HN n n'); try reflexivity. rewrite (number_large n t z Hn Ht Hr), (number_large n' t' z' Hn' Ht' Hr'). reflexivity.
  - assert (HS : seq_loop (run ord f) f sq (map SExpr l) = seq_loop (run ord f) f sq (map SExpr l')).
    { apply seq_same. clear - HF IH. induction HF as [|e e' l l' He _ IHl]; cbn; constructor; [|exact IHl]. intros c. apply (IH c _ _ He I). }
    destruct m; cbn [src_of call expr_call expr_any]; unfold head; try exact HS; try apply HI. rewrite (F2_length HF). destruct (Nat.eqb _ _); [exact HS|reflexivity].
  - specialize (HM _ _ HO HO' HAM). destruct m; cbn [src_of call expr_call expr_any]; unfold head; try exact HM; apply HI.
  - specialize (HM _ _ HO HO' HAM). exact HM.
  - assert (HS : seq_loop (run ord f) f sq (map SBody bs) = seq_loop (run ord f) f sq (map SBody bs')).
    { apply seq_same. clear - HF IH. induction HF as [|e e' l l' He _ IHl]; cbn; constructor; [|exact IHl]. intros c. apply (IH c _ _ He I). }
    assert (HX : head ord m sc so nt sq mp f (src_of (Group bs)) (raws ord (Group bs)) (one_or_seq ord bs) = head ord m sc so nt sq mp f (src_of (Group bs')) (raws ord (Group bs')) (one_or_seq ord bs')).
    { destruct HF as [|b b' l l' Hb HF]; [reflexivity|]. destruct HF as [|b1 b1' l l' Hb1 HF]; [|exact HS]. inversion Hb as [| | | | | | | |? ? os os' HO HO' HAM|]; subst.
      cbn [one_or_seq body_any]. unfold head, body_any. apply (HM os os'); [apply Of_block, HO|apply Of_block, HO'|exact HAM]. }
    destruct m; cbn [src_of call block_call]; try exact HX; [|exact HS].
    destruct bs as [|b bs]; [destruct Hx|]. destruct bs' as [|b' bs']; [destruct Hx'|]. change (Nat.eqb (len_blocks (BBody (b :: bs))) 0) with false. change (Nat.eqb (len_blocks (BBody (b' :: bs'))) 0) with false. unfold head. apply HI.
Qed.
End Sound.
(** ** What is read alike looks alike *)
Definition Eval {D} (c : target D) (s : src) (r : ran D) : Prop := r <> Running /\ exists f, run ord f c s = r.
Definition Indist (s s' : src) : Prop := forall (D : Type) (c : target D), Polite c -> forall r, Eval c s r <-> Eval c s' r.
Lemma Eval_fun {D} (c : target D) s r r' : Eval c s r -> Eval c s r' -> r = r'.
Proof.
  intros [H (f & E)] [H' (f' & E')]. rewrite <- E in H. rewrite <- E' in H'.
  rewrite <- E, <- E', <- (run_mono ord f (f + f') ltac:(lia) c s H), <- (run_mono ord f' (f + f') ltac:(lia) c s H'). reflexivity.
Qed.
Lemma Indist_sym s s' : Indist s s' -> Indist s' s.
Proof. intros H D c Hc r. symmetry. apply H, Hc. Qed.
(* sequences *)
Definition SE {D} (sc : sclient D) (l : list src) (r : ran D) : Prop := r <> Running /\ exists f, seq_loop (run ord f) f sc l = r.
Definition IndistS (l l' : list src) : Prop := forall (D : Type) (sc : sclient D), PoliteS sc -> forall r, SE sc l r <-> SE sc l' r.
(* maps *)
Definition ME {D} (mc : mclient D) (rest : list raw) (held : option src) (seen : list str) (r : ran D) : Prop := r <> Running /\ exists f, g_loop (run ord f) f mc rest held seen = r.
Definition IndistM rest held rest' held' seen : Prop := forall (D : Type) (mc : mclient D), PoliteM false mc -> forall r, ME mc rest held seen r <-> ME mc rest' held' seen r.

Lemma g_loop_mono {D} r r' (Hr : @mono D r r') f : forall f' mc rest held seen, f <= f' -> g_loop r f mc rest held seen <> Running -> g_loop r' f' mc rest held seen = g_loop r f mc rest held seen.
Proof.
  induction f as [|f IH]; intros f' mc rest held seen Hf H; [cbn in H; congruence|]. destruct f' as [|f']; [lia|]. apply le_S_n in Hf. cbn [g_loop] in *. destruct mc as [o|k|c k|k].
  - reflexivity.
  - destruct rest as [|[[[c|] s] d] rest]; [apply IH; assumption| |reflexivity]. destruct (seen_mem (cow_str c) seen); [destruct d; [apply IH; assumption|reflexivity]|apply IH; assumption].
  - destruct held as [s|]; [|reflexivity]. assert (H0 : r c s <> Running) by (intros E; rewrite E in H; congruence). rewrite (Hr c s H0). destruct (r c s); try reflexivity. apply IH; assumption.
  - apply IH; assumption.
Qed.
Lemma loop_more_s {D} (sc : sclient D) l r f f' : f <= f' -> r <> Running -> seq_loop (run ord f) f sc l = r -> seq_loop (run ord f') f' sc l = r.
Proof. intros Hf Hr E. rewrite (seq_loop_mono (run ord f) (run ord f') (run_mono ord f f' Hf) f f' sc l Hf); [exact E|congruence]. Qed.
Lemma loop_more_m {D} (mc : mclient D) rest held seen r f f' : f <= f' -> r <> Running -> g_loop (run ord f) f mc rest held seen = r -> g_loop (run ord f') f' mc rest held seen = r.
Proof. intros Hf Hr E. rewrite (g_loop_mono (run ord f) (run ord f') (run_mono ord f f' Hf) f f' mc rest held seen Hf); [exact E|congruence]. Qed.
Lemma run_more {D} (c : target D) s r f f' : f <= f' -> r <> Running -> run ord f c s = r -> run ord f' c s = r.
Proof. intros Hf Hr E. rewrite (run_mono ord f f' Hf c s); [exact E|congruence]. Qed.

Definition bad {D} : outcome D := Bad (ECustom CInvalidType).
(** *** One call *)
Lemma eval_seq {D} m sc so nt (sq : sclient D) mp x l r : proper x -> call ord (src_of x) m = VSeq l -> (Eval (Target m sc so nt sq mp) (src_of x) r <-> SE sq l r).
Proof.
  intros Hx E. split; intros [Hr (f & H)]; (split; [exact Hr|]).
  - destruct f as [|f]; [cbn in H; congruence|]. rewrite run_S, E in H by exact Hx. exists f. exact H.
  - exists (S f). rewrite run_S, E by exact Hx. exact H.
Qed.
Lemma eval_map {D} m sc so nt sq (mp : mclient D) x l r : proper x -> call ord (src_of x) m = VMap l -> (Eval (Target m sc so nt sq mp) (src_of x) r <-> ME mp (raws ord x) None [] r).
Proof.
  intros Hx E. split; intros [Hr (f & H)]; (split; [exact Hr|]).
  - destruct f as [|f]; [cbn in H; congruence|]. rewrite run_S, E in H by exact Hx. exists f. exact H.
  - exists (S f). rewrite run_S, E by exact Hx. exact H.
Qed.
(* the visitor call itself *)
Inductive seen_call := CScalar (z : scalar) | CSome | CNewtype | CSeq (n : nat) | CMap (n : nat).
Definition probe (m : method) : target seen_call :=
  Target m (fun z => Good (CScalar z)) (IRet (Good CSome)) (IRet (Good CNewtype)) (SSize (fun n => SRet (Good (CSeq n)))) (MSize (fun n => MRet (Good (CMap n)))).
Lemma probe_polite m : Polite (probe m).
Proof. constructor; repeat constructor. Qed.
Definition call_result (x : node) (ev : event) : ran seen_call :=
  match ev with
  | VUnit => Done (Good (CScalar ZUnit)) | VBool b => Done (Good (CScalar (ZBool b))) | VI64 z => Done (Good (CScalar (ZI64 z))) | VF64 f => Done (Good (CScalar (ZF64 f)))
  | VBorrowedStr s => Done (Good (CScalar (ZBorrowed s))) | VString s => Done (Good (CScalar (ZString s))) | VNone => Done (Good (CScalar ZNone))
  | VSome _ => Done (Good CSome) | VNewtype _ => Done (Good CNewtype) | VSeq l => Done (Good (CSeq (length l))) | VMap _ => Done (Good (CMap (length (raws ord x))))
  | VErr e => Done (Bad e) | VPanic => Panicked
  end.
Lemma probe_eval m x : proper x -> Eval (probe m) (src_of x) (call_result x (call ord (src_of x) m)).
Proof.
  intros Hx. split; [destruct (call ord (src_of x) m); discriminate|]. exists 3. unfold probe. rewrite run_S by exact Hx. destruct (call ord (src_of x) m); reflexivity.
Qed.
Lemma indist_call m x x' : Indist (src_of x) (src_of x') -> proper x -> proper x' -> call_result x (call ord (src_of x) m) = call_result x' (call ord (src_of x') m).
Proof.
  intros H Hx Hx'. eapply Eval_fun; [|apply probe_eval, Hx']. apply H; [apply probe_polite|]. apply probe_eval, Hx.
Qed.
Lemma indist_seq m x x' l l' : Indist (src_of x) (src_of x') -> proper x -> proper x' -> call ord (src_of x) m = VSeq l -> call ord (src_of x') m = VSeq l' -> IndistS l l'.
Proof.
  intros H Hx Hx' E E' D sc HP r. set (c := Target m (fun _ => bad) (IRet bad) (IRet bad) sc (MRet bad)).
  assert (HC : Polite c) by (constructor; [constructor|constructor|exact HP|constructor]).
  rewrite <- (eval_seq m (fun _ => bad) (IRet bad) (IRet bad) sc (MRet bad) x l r Hx E), <- (eval_seq m (fun _ => bad) (IRet bad) (IRet bad) sc (MRet bad) x' l' r Hx' E'). apply (H D c HC r).
Qed.
Lemma indist_map m x x' l l' : Indist (src_of x) (src_of x') -> proper x -> proper x' -> call ord (src_of x) m = VMap l -> call ord (src_of x') m = VMap l' -> IndistM (raws ord x) None (raws ord x') None [].
Proof.
  intros H Hx Hx' E E' D mc HP r. set (c := Target m (fun _ => bad) (IRet bad) (IRet bad) (SRet bad) mc).
  assert (HC : Polite c) by (constructor; [constructor|constructor|constructor|exact HP]).
  rewrite <- (eval_map m (fun _ => bad) (IRet bad) (IRet bad) (SRet bad) mc x l r Hx E), <- (eval_map m (fun _ => bad) (IRet bad) (IRet bad) (SRet bad) mc x' l' r Hx' E'). apply (H D c HC r).
Qed.
(** *** Item by item *)
Definition skip {D} : target D := Target MAny (fun _ => bad) (IRet bad) (IRet bad) (SRet bad) (MRet bad).
Lemma skip_polite {D} : Polite (@skip D).
Proof. constructor; constructor. Qed.
Lemma skip_eval {D} x : proper x -> ~ Hazard x -> exists o, Eval (@skip D) (src_of x) (Done o).
Proof.
  intros Hx HH. pose proof (run_safe ord Ho 2 (@skip D) x skip_polite Hx HH) as HP. unfold skip in *. rewrite run_S in HP by exact Hx.
  destruct (run ord 2 (@skip D) (src_of x)) as [o| |] eqn:E; unfold skip in E; rewrite run_S in E by exact Hx.
  - exists o. split; [discriminate|]. exists 2. rewrite run_S by exact Hx. exact E.
  - congruence.
  - exfalso. unfold head in E. destruct (call ord (src_of x) MAny) eqn:EC; discriminate.
Qed.
Lemma indistS_split s l s' l' : IndistS (s :: l) (s' :: l') -> (forall D, exists o, Eval (@skip D) s (Done o)) -> (forall D, exists o, Eval (@skip D) s' (Done o)) -> Indist s s' /\ IndistS l l'.
Proof.
  intros H HS HS'. split.
  - intros D c Hc r. set (sc := SItem c (fun a => match a with Some o => SRet o | None => SRet bad end)).
    assert (HP : PoliteS sc) by (constructor; [exact Hc|]; intros [o|]; constructor).
    assert (HE : forall s0 l0, Eval c s0 r <-> SE sc (s0 :: l0) r).
    { intros s0 l0. split; intros [Hr (f & E)]; (split; [exact Hr|]).
      - exists (S (S f)). cbn [seq_loop sc]. rewrite (run_more c s0 r f (S (S f)) ltac:(lia) Hr E). destruct r; [reflexivity|reflexivity|congruence].
      - destruct f as [|[|f]]; [cbn in E; congruence|cbn [seq_loop sc] in E; exists 1; destruct (run ord 1 c s0); cbn in E; congruence|]. cbn [seq_loop sc] in E. exists (S (S f)). destruct (run ord (S (S f)) c s0); exact E. }
    rewrite (HE s l), (HE s' l'). apply H, HP.
  - intros D sc Hsc r. assert (HP : PoliteS (SItem skip (fun _ => sc))) by (constructor; [apply skip_polite|intros _; exact Hsc]).
    assert (HE : forall s0 l0, (exists o, Eval (@skip D) s0 (Done o)) -> (SE sc l0 r <-> SE (SItem skip (fun _ => sc)) (s0 :: l0) r)).
    { intros s0 l0 (o & HSk). split.
      - intros [Hr (f & E)]. destruct HSk as [HSr (g & Eg)]. split; [exact Hr|]. exists (S (f + g)). cbn [seq_loop]. rewrite (run_more skip s0 (Done o) g (S (f + g)) ltac:(lia) HSr Eg).
        rewrite (seq_loop_mono (run ord f) (run ord (S (f + g))) (run_mono ord f (S (f + g)) ltac:(lia)) f (f + g) sc l0 ltac:(lia)); [exact E|congruence].
      - intros [Hr (f & E)]. split; [exact Hr|]. destruct f as [|f]; [cbn in E; congruence|]. cbn [seq_loop] in E.
        destruct (run ord (S f) skip s0) as [o'| |] eqn:ES; [| |congruence].
        + exists (S f). rewrite (seq_loop_mono (run ord (S f)) (run ord (S f)) (run_mono ord _ _ (le_n _)) f (S f) sc l0 ltac:(lia)); [exact E|congruence].
        + exfalso. assert (HX : Eval (@skip D) s0 Panicked) by (split; [discriminate|eauto]). discriminate (Eval_fun _ _ _ _ HSk HX). }
    rewrite (HE s l (HS D)), (HE s' l' (HS' D)). apply H, HP.
Qed.
(** *** Member by member *)
Definition key_probe : mclient keyans := MKey (fun a => MRet (Good a)).
Definition rans (seen : list str) (rest : list raw) : ran keyans :=
  match rest with
  | [] => Done (Good NoKey)
  | (None, _, _) :: _ => Panicked
  | (Some c, _, d) :: _ => if seen_mem (cow_str c) seen then match d with Error e => Done (Good (DupKey e)) | Panic => Panicked end else Done (Good (GotKey (cow_str c)))
  end.
Lemma indistM_key rest held rest' held' seen : IndistM rest held rest' held' seen -> rans seen rest = rans seen rest'.
Proof.
  intros H. assert (HP : PoliteM false key_probe) by (constructor; [intros x; constructor|constructor|intros e; constructor]).
  assert (HE : forall rest held, ME key_probe rest held seen (rans seen rest)).
  { intros r0 h0. split; [unfold rans; destruct r0 as [|[[[c|] s] d] r0]; try discriminate; destruct (seen_mem _ _); [destruct d|]; discriminate|].
    exists 2. unfold rans, key_probe. cbn [g_loop]. destruct r0 as [|[[[c|] s] d] r0]; reflexivity. }
  pose proof (proj1 (H _ _ HP _) (HE rest held)) as H1. destruct H1 as [Hr (f & E)]. destruct (HE rest' held') as [Hr' (f' & E')].
  assert (L1 : f <= f + f') by lia. assert (L2 : f' <= f + f') by lia.
  pose proof (loop_more_m _ _ _ _ _ _ _ L1 Hr E) as X. pose proof (loop_more_m _ _ _ _ _ _ _ L2 Hr' E') as X'. congruence.
Qed.
Lemma indistM_first c s d rest held c' s' d' rest' held' seen : IndistM ((Some c, s, d) :: rest) held ((Some c', s', d') :: rest') held' seen ->
  cow_str c' = cow_str c -> ~ In (cow_str c) seen -> Indist s s' /\ IndistM rest (Some s) rest' (Some s') (cow_str c :: seen).
Proof.
  intros H Ec Hn. pose proof (proj2 (seen_mem_out _ _) Hn) as EM. assert (EM' : seen_mem (cow_str c') seen = false) by (rewrite Ec; exact EM). split.
  - intros D t Ht r. set (mc := MKey (fun a => match a with GotKey _ => MVal t (fun o => MRet o) | _ => MRet (@bad D) end)).
    assert (HP : PoliteM false mc) by (constructor; [intros x; constructor; [exact Ht|intros o; constructor]|constructor|intros e; constructor]).
    assert (HE : forall c0 s0 d0 rest0 held0, seen_mem (cow_str c0) seen = false -> (Eval t s0 r <-> ME mc ((Some c0, s0, d0) :: rest0) held0 seen r)).
    { intros c0 s0 d0 r0 h0 E0. split; intros [Hr (f & E)]; (split; [exact Hr|]).
      - exists (S (S (S f))). cbn [g_loop mc]. rewrite E0. rewrite (run_more t s0 r f (S (S (S f))) ltac:(lia) Hr E). destruct r; [reflexivity|reflexivity|congruence].
      - destruct f as [|[|[|f]]]; cbn [g_loop mc] in E; try rewrite E0 in E; [congruence|congruence| |].
        + exists 2. destruct (run ord 2 t s0); cbn [g_loop] in E; congruence.
        + exists (S (S (S f))). destruct (run ord (S (S (S f))) t s0); exact E. }
    rewrite (HE c s d rest held EM), (HE c' s' d' rest' held' EM'). apply H, HP.
  - intros D mc Hmc r. assert (HP : PoliteM false (MKey (fun a => match a with GotKey _ => mc | _ => MRet (@bad D) end))).
    { constructor; [|constructor|intros e; constructor]. intros _. clear - Hmc.
      assert (G : forall mc : mclient D, PoliteM false mc -> PoliteM true mc).
      { cofix CH. intros mc0 H0. inversion H0 as [w o|w k H1 H2 H3|?|w k H1]; subst; constructor; try assumption. intros n. apply CH, H1. }
      apply G, Hmc. }
    assert (HE : forall c0 s0 d0 rest0 held0, seen_mem (cow_str c0) seen = false -> (ME mc rest0 (Some s0) (cow_str c0 :: seen) r <-> ME (MKey (fun a => match a with GotKey _ => mc | _ => MRet (@bad D) end)) ((Some c0, s0, d0) :: rest0) held0 seen r)).
    { intros c0 s0 d0 r0 h0 E0. split; intros [Hr (f & E)]; (split; [exact Hr|]).
      - exists (S f). cbn [g_loop]. rewrite E0. rewrite (g_loop_mono (run ord f) (run ord (S f)) (run_mono ord f (S f) ltac:(lia)) f f mc r0 _ _ (le_n _)); [exact E|congruence].
      - destruct f as [|f]; [cbn in E; congruence|]. cbn [g_loop] in E. rewrite E0 in E. exists (S f).
        rewrite (g_loop_mono (run ord (S f)) (run ord (S f)) (run_mono ord _ _ (le_n _)) f (S f) mc r0 _ _ ltac:(lia)); [exact E|congruence]. }
    rewrite (HE c s d rest held EM). rewrite <- Ec. rewrite (HE c' s' d' rest' held' EM'). apply H, HP.
Qed.
Lemma indistM_again c s e rest held c' s' e' rest' held' seen : IndistM ((Some c, s, Error e) :: rest) held ((Some c', s', Error e') :: rest') held' seen ->
  cow_str c' = cow_str c -> In (cow_str c) seen -> IndistM rest held rest' held' seen.
Proof.
  intros H Ec Hn. pose proof (proj2 (seen_mem_in _ _) Hn) as EM. assert (EM' : seen_mem (cow_str c') seen = true) by (rewrite Ec; exact EM).
  intros D mc Hmc r. assert (HP : PoliteM false (MKey (fun a => match a with DupKey _ => mc | _ => MRet (@bad D) end))) by (constructor; [intros x; constructor|constructor|intros e0; exact Hmc]).
  assert (HE : forall c0 s0 e0 rest0 held0, seen_mem (cow_str c0) seen = true -> (ME mc rest0 held0 seen r <-> ME (MKey (fun a => match a with DupKey _ => mc | _ => MRet (@bad D) end)) ((Some c0, s0, Error e0) :: rest0) held0 seen r)).
  { intros c0 s0 d0 r0 h0 E0. split; intros [Hr (f & E)]; (split; [exact Hr|]).
    - exists (S f). cbn [g_loop]. rewrite E0. rewrite (g_loop_mono (run ord f) (run ord (S f)) (run_mono ord f (S f) ltac:(lia)) f f mc r0 _ _ (le_n _)); [exact E|congruence].
    - destruct f as [|f]; [cbn in E; congruence|]. cbn [g_loop] in E. rewrite E0 in E. exists (S f).
      rewrite (g_loop_mono (run ord (S f)) (run ord (S f)) (run_mono ord _ _ (le_n _)) f (S f) mc r0 _ _ ltac:(lia)); [exact E|congruence]. }
  rewrite (HE c s e rest held EM), (HE c' s' e' rest' held' EM'). apply H, HP.
Qed.
Lemma safe_part r o : matches ord r o -> safe (rsrc r) -> exists y, opart o = Some y /\ rsrc r = src_of y /\ proper y /\ ~ Hazard y.
Proof.
  intros (_ & _ & HM) (y & Ey & Hy & HH). destruct (opart o) as [z|].
  - destruct HM as [E Hz]. rewrite Ey in E. apply src_of_inj in E as <-. eauto.
  - exfalso. specialize (HM TUnit). rewrite Ey, deserialize_eq in HM by exact Ho. cbn [method_of] in HM.
    assert (EC : call ord (src_of y) MAny = VPanic) by (destruct (call ord (src_of y) MAny); cbn in HM; try discriminate; reflexivity).
    destruct (@skip_eval unit y Hy HH) as (o0 & HE). assert (HX : Eval (@skip unit) (src_of y) Panicked).
    { split; [discriminate|]. exists 1. unfold skip. rewrite run_S, EC by exact Hy. reflexivity. }
    discriminate (Eval_fun _ _ _ _ HE HX).
Qed.
Definition naming (r : raw) : Prop := forall c e, rname r = Some c -> snd r = Error e -> e = EObjectDuplicateKey (cow_str c) \/ e = EBodyDuplicateKey (cow_str c).
Lemma raws_naming x r : In r (raws ord x) -> naming r.
Proof.
  assert (HB : forall b, In r (map braw (build_map_access_iter ord b)) -> naming r).
  { intros b H c e En Ee. apply in_map_iff in H as ([k [v|v]] & <- & H); cbn in En, Ee; [|discriminate]. injection En as <-. injection Ee as <-. auto. }
  destruct x as [e|b|[|b [|b' bs]]]; cbn [raws]; try (intros []); try apply HB.
  destruct e; try (intros []). intros H c e0 En Ee. apply in_map_iff in H as ([[k|k] v] & <- & H); cbn in En, Ee; [|discriminate]. injection En as <-. injection Ee as <-. auto.
Qed.
Lemma members_alike N (IH : forall y y', src_depth (src_of y) < N -> proper y -> proper y' -> ~ Hazard y -> ~ Hazard y' -> Lits (src_of y) -> Lits (src_of y') -> Indist (src_of y) (src_of y') -> Alike vo y y') :
  forall rest os, Forall2 (matches ord) rest os -> forall rest' os' seen held held', Forall2 (matches ord) rest' os' -> SafeRaws safe seen rest -> SafeRaws safe seen rest' ->
  (forall r, In r rest -> src_depth (rsrc r) < N /\ Lits (rsrc r)) -> (forall r, In r rest' -> Lits (rsrc r)) ->
  (forall r, In r rest \/ In r rest' -> naming r) ->
  IndistM rest held rest' held' seen -> AlikeM vo seen os os'.
Proof.
  induction 1 as [|r o rest os Hr HF IHr]; intros rest' os' seen held held' HF' HS HS' HD HD' HNm HI; pose proof (indistM_key _ _ _ _ _ HI) as HK.
  - destruct HF' as [|r' o' rest' os' Hr' HF']; [constructor|]. exfalso. inversion HS' as [|? c s d l Hn _ _|? c s e l Hi _]; subst; cbn in HK.
    + rewrite (proj2 (seen_mem_out _ _) Hn) in HK. discriminate.
    + rewrite (proj2 (seen_mem_in _ _) Hi) in HK. discriminate.
  - destruct HF' as [|r' o' rest' os' Hr' HF'].
    { exfalso. inversion HS as [|? c s d l Hn _ _|? c s e l Hi _]; subst; cbn in HK.
      + rewrite (proj2 (seen_mem_out _ _) Hn) in HK. discriminate.
      + rewrite (proj2 (seen_mem_in _ _) Hi) in HK. discriminate. }
    assert (HDr : forall r0, In r0 rest -> src_depth (rsrc r0) < N /\ Lits (rsrc r0)) by (intros r0 H0; apply HD; right; exact H0).
    assert (HNr : forall r0, In r0 rest \/ In r0 rest' -> naming r0) by (intros r0 [H0|H0]; apply HNm; [left|right]; right; exact H0).
    assert (HDr' : forall r0, In r0 rest' -> Lits (rsrc r0)) by (intros r0 H0; apply HD'; right; exact H0).
    inversion HS as [|? c s d l Hn Hs HS1|? c s e l Hi HS1]; subst; inversion HS' as [|? c' s' d' l' Hn' Hs' HS1'|? c' s' e' l' Hi' HS1']; subst; cbn in HK.
    + rewrite (proj2 (seen_mem_out _ _) Hn), (proj2 (seen_mem_out _ _) Hn') in HK. injection HK as Ec.
      destruct (safe_part _ _ Hr Hs) as (y & Ep & Ey & Hy & Hh). destruct (safe_part _ _ Hr' Hs') as (y' & Ep' & Ey' & Hy' & Hh'). cbn in Ey, Ey'. subst s s'.
      destruct (indistM_first _ _ _ _ _ _ _ _ _ _ _ HI (eq_sym Ec) Hn) as [HIv HIr].
      destruct o as [[on op] oq]. destruct o' as [[on' op'] oq']. cbn in Ep, Ep'. subst op op'. destruct Hr as (E1 & _ & _). destruct Hr' as (E1' & _ & _). cbn in E1, E1'. subst on on'. rewrite <- Ec.
      destruct (HD _ (or_introl eq_refl)) as [Hd HL]. cbn in Hd, HL. pose proof (HD' _ (or_introl eq_refl)) as HL'. cbn in HL'.
      apply AM_first; [exact Hn|apply IH; assumption|]. rewrite <- Ec in HS1'. eapply IHr; [exact HF'|exact HS1|exact HS1'|exact HDr|exact HDr'|exact HNr|exact HIr].
    + rewrite (proj2 (seen_mem_out _ _) Hn), (proj2 (seen_mem_in _ _) Hi') in HK. discriminate.
    + rewrite (proj2 (seen_mem_in _ _) Hi), (proj2 (seen_mem_out _ _) Hn') in HK. discriminate.
    + rewrite (proj2 (seen_mem_in _ _) Hi), (proj2 (seen_mem_in _ _) Hi') in HK. injection HK as ->.
      destruct o as [[on op] oq]. destruct o' as [[on' op'] oq']. destruct Hr as (E1 & E2 & _). destruct Hr' as (E1' & E2' & _). cbn in E1, E1', E2, E2'. subst on on' oq oq'.
      assert (Ec : cow_str c' = cow_str c).
      { destruct (HNm _ (or_introl (or_introl eq_refl)) c e' eq_refl eq_refl) as [E|E], (HNm _ (or_intror (or_introl eq_refl)) c' e' eq_refl eq_refl) as [E'|E']; rewrite E in E'; try discriminate; injection E' as E'; auto. }
      rewrite Ec. apply AM_again; [exact Hi|]. eapply IHr; [exact HF'|exact HS1|exact HS1'|exact HDr|exact HDr'|exact HNr|eapply indistM_again; [exact HI|exact Ec|exact Hi]].
Qed.
Lemma items_alike N (IH : forall y y', src_depth (src_of y) < N -> proper y -> proper y' -> ~ Hazard y -> ~ Hazard y' -> Lits (src_of y) -> Lits (src_of y') -> Indist (src_of y) (src_of y') -> Alike vo y y') :
  forall ys ys', length ys = length ys' -> (forall y, In y ys -> src_depth (src_of y) < N) -> (forall y, In y ys \/ In y ys' -> proper y /\ ~ Hazard y /\ Lits (src_of y)) ->
  IndistS (map src_of ys) (map src_of ys') -> Forall2 (Alike vo) ys ys'.
Proof.
  induction ys as [|y ys IHy]; intros [|y' ys'] HL HD HP HI; try discriminate; [constructor|]. injection HL as HL.
  destruct (HP y (or_introl (or_introl eq_refl))) as (Hy & Hh & Hl). destruct (HP y' (or_intror (or_introl eq_refl))) as (Hy' & Hh' & Hl').
  destruct (indistS_split _ _ _ _ HI) as [H1 H2]; [intros D; apply skip_eval; assumption|intros D; apply skip_eval; assumption|].
  constructor; [apply IH; try assumption; apply HD; left; reflexivity|]. apply IHy; [exact HL|intros z Hz; apply HD; right; exact Hz| |exact H2].
  intros z [Hz|Hz]; apply HP; [left|right]; right; exact Hz.
Qed.
Theorem alike_complete N : forall x x', src_depth (src_of x) < N -> proper x -> proper x' -> ~ Hazard x -> ~ Hazard x' -> Lits (src_of x) -> Lits (src_of x') ->
  Indist (src_of x) (src_of x') -> Alike vo x x'.
Proof.
  induction N as [|N IHN]; intros x x' HN Hx Hx' HH HH' HL HL' HI; [lia|].
  pose proof (fun m => indist_call m x x' HI Hx Hx') as HC.
  assert (HMap : forall l l', call ord (src_of x) MAny = VMap l -> call ord (src_of x') MAny = VMap l' -> Kind x KMembers -> Kind x' KMembers ->
    exists os os', Offers vo x os /\ Offers vo x' os' /\ AlikeM vo [] os os').
  { intros l l' E E' K K'. destruct (offers_exist ord Ho x K) as (os & HO). destruct (offers_exist ord Ho x' K') as (os' & HO'). exists os, os'. split; [exact HO|]. split; [exact HO'|].
    eapply (members_alike N IHN); [apply offers_match; [exact Ho|exact HO]|apply offers_match; [exact Ho|exact HO']|apply safe_raws; assumption|apply safe_raws; assumption| | | |eapply indist_map; eassumption].
    - intros r Hr. destruct (raws_part ord Ho x r Hr) as [H1 H2]. split; [lia|]. exact (Lits_part _ _ H2 HL).
    - intros r Hr. destruct (raws_part ord Ho x' r Hr) as [H1 H2]. exact (Lits_part _ _ H2 HL').
    - intros r [Hr|Hr]; eapply raws_naming; exact Hr. }
  assert (HSeq : forall m ys ys', call ord (src_of x) m = VSeq (map src_of ys) -> call ord (src_of x') m = VSeq (map src_of ys') ->
    (forall y, In y ys \/ In y ys' -> proper y) -> (forall y, In y ys -> Hazard y -> Hazard x) -> (forall y, In y ys' -> Hazard y -> Hazard x') -> Forall2 (Alike vo) ys ys').
  { intros m ys ys' E E' Hp Hz Hz'. assert (EL : length ys = length ys').
    { specialize (HC m). rewrite E, E' in HC. cbn in HC. rewrite !map_length in HC. injection HC as HC. exact HC. }
    assert (HD : forall y, In y ys -> src_depth (src_of y) < src_depth (src_of x) /\ PartS (src_of y) (src_of x)) by (intros y Hy; eapply (seq_part ord Ho); [exact E|apply in_map, Hy]).
    assert (HD' : forall y, In y ys' -> src_depth (src_of y) < src_depth (src_of x') /\ PartS (src_of y) (src_of x')) by (intros y Hy; eapply (seq_part ord Ho); [exact E'|apply in_map, Hy]).
    apply (items_alike N IHN); [exact EL|intros y Hy; destruct (HD y Hy); lia| |eapply indist_seq; eassumption].
    intros y [Hy|Hy]; (split; [apply Hp; auto|]; split).
    - intros H. exact (HH (Hz y Hy H)).
    - exact (Lits_part _ _ (proj2 (HD y Hy)) HL).
    - intros H. exact (HH' (Hz' y Hy H)).
    - exact (Lits_part _ _ (proj2 (HD' y Hy)) HL'). }
  destruct x as [e|b|bs]; destruct x' as [e'|b'|bs'].
  - specialize (HC MAny) as HA. cbn [src_of call expr_call] in HA.
    assert (HNum : forall n, Lits (SExpr (ENumber n)) -> (exists z, IntLit n z /\ number_event n = VI64 z) \/ (exists f, FloatLit n f /\ number_event n = VF64 f) \/ (exists t z, NumLit n t /\ IntegerText t z /\ ~ InRange I64 z /\ number_event n = VErr EParseInt)).
    { intros n Hl. destruct (Hl n) as (t & Ht); [constructor; constructor|]. destruct (number_kinds n t Ht) as [(z & Hz)|[(f & Hf)|(z & Hz & Hr)]].
      - left. exists z. split; [exact Hz|apply number_int, Hz].
      - right. left. exists f. split; [exact Hf|apply number_float, Hf].
      - right. right. exists t, z. repeat split; try assumption. eapply number_large; eassumption. }
    destruct e as [|n|b|s|l|l], e' as [|n'|b'|s'|l'|l']; cbn [expr_any] in HA;
      repeat match goal with H : Lits (src_of (Expr (ENumber ?n))) |- _ => let E := fresh "E" in destruct (HNum n H) as [(? & ? & E)|[(? & ? & E)|(? & ? & ? & ? & ? & E)]]; clear H; rewrite E in HA end;
      try (destruct s as [s|s]); try (destruct s' as [s'|s']); cbn [string_event call_result] in HA; try discriminate HA.
    + constructor.
    + injection HA as ->. eapply A_int; eassumption.
    + injection HA as ->. eapply A_float; eassumption.
    + eapply A_large; eassumption.
    + injection HA as ->. constructor.
    + injection HA as ->. constructor.
    + injection HA as ->. constructor.
    + apply A_tuple.
      assert (HF : Forall2 (Alike vo) (map Expr l) (map Expr l')).
      { apply (HSeq MAny); cbn [src_of call expr_call expr_any]; try (rewrite map_map; reflexivity).
        - intros y [Hy|Hy]; apply in_map_iff in Hy as (e & <- & _); exact I.
        - intros y Hy Hz. apply in_map_iff in Hy as (e & <- & He). eapply H_item; eassumption.
        - intros y Hy Hz. apply in_map_iff in Hy as (e & <- & He). eapply H_item; eassumption. }
      clear - HF. revert l' HF. induction l as [|e l IH]; intros [|e' l'] HF; inversion HF; subst; constructor; auto.
    + destruct (HMap _ _ eq_refl eq_refl) as (os & os' & HO & HO' & HM); [constructor|constructor|]. eapply A_object; eassumption.
  - exfalso. specialize (HC MNewtype). discriminate HC.
  - exfalso. specialize (HC MNewtype). cbn in HC. destruct bs' as [|b1 [|b2 bs']]; [destruct Hx'|discriminate HC|discriminate HC].
  - exfalso. specialize (HC MNewtype). discriminate HC.
  - destruct (HMap _ _ eq_refl eq_refl) as (os & os' & HO & HO' & HM); [constructor|constructor|]. eapply A_body; eassumption.
  - exfalso. specialize (HC MOption). cbn in HC. destruct bs' as [|b1 bs']; [destruct Hx'|discriminate HC].
  - exfalso. specialize (HC MNewtype). cbn in HC. destruct bs as [|b1 [|b2 bs]]; [destruct Hx|discriminate HC|discriminate HC].
  - exfalso. specialize (HC MOption). cbn in HC. destruct bs as [|b1 bs]; [destruct Hx|discriminate HC].
  - apply A_group.
    assert (HF : Forall2 (Alike vo) (map Body bs) (map Body bs')).
    { apply (HSeq MSeq); cbn [src_of call block_call]; try (rewrite map_map; reflexivity).
      - intros y [Hy|Hy]; apply in_map_iff in Hy as (e & <- & _); exact I.
      - intros y Hy Hz. apply in_map_iff in Hy as (e & <- & He). eapply H_group; eassumption.
      - intros y Hy Hz. apply in_map_iff in Hy as (e & <- & He). eapply H_group; eassumption. }
    clear - HF. revert bs' HF. induction bs as [|e l IH]; intros [|e' l'] HF; inversion HF; subst; constructor; auto.
Qed.
End Alike.
