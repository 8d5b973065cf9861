(** * AnyTypesProofs: the types of Serde.v, as targets, do what Serde.v says *)
From Coq Require Import Permutation ZArith Reals SpecFloat Lia ListDec.
From Verif Require Import Base Ast NomFacts Blocks BlockSpec BlockProofs PropBlocks BlockExactSpec BlockExact PropBlockExact NumConv NumSpec NumProofs PropNum FloatConv IoSpec
  Serde SerdeSpec SerdeProofs PropSerde SerdeErrSpec SerdeErrProofs PropSerdeErr SerdeExactSpec PropSerdeExact PropWrap
  Grammar Parser DocProofs PropSyntax Printer Reprint FloatSpec FloatProofs PropFloat PropFloatRead PropSerdeScalar
  DenSpec DenProofs FailSpec FailProofs MapAccess AnyTarget AnySpec AnyProofs AnyAlike AnyTypes.
Local Open Scope nat_scope.

(** ** They are polite *)
Lemma collect_eq t fin acc : collect t fin acc = SItem t (fun a => match a with None => SRet (Good (fin (rev acc))) | Some (Good d) => collect t fin (d :: acc) | Some (Bad e) => SRet (Bad e) end).
Proof. rewrite (sclient_frob_eq (collect t fin acc)) at 1. reflexivity. Qed.
Lemma collect_map_eq k t acc : collect_map k t acc = MKey (fun a => match a with
    | NoKey => MRet (Good (DMap (rev acc)))
    | DupKey e => MRet (Bad e)
    | GotKey n =>
        if key_ok k (Borrowed n) then
          MVal t (fun o => match o with Good d => collect_map k t ((n, d) :: acc) | Bad e => MRet (Bad e) end)
        else MRet (Bad (ECustom (match k with KTStr => CInvalidType | _ => CInvalidValue end)))
    end).
Proof. rewrite (mclient_frob_eq (collect_map k t acc)) at 1. reflexivity. Qed.
Lemma collect_fields_eq fs fin acc : collect_fields fs fin acc = MKey (fun a => match a with
    | NoKey => MRet (fin acc)
    | DupKey e => MRet (Bad e)
    | GotKey n =>
        match field_get n fs with
        | None => MVal ignore (fun o => match o with Good _ => collect_fields fs fin acc | Bad e => MRet (Bad e) end)
        | Some t =>
            match field_get n acc with
            | Some _ => MRet (Bad (ECustom (CDuplicateField n)))
            | None => MVal t (fun o => match o with Good d => collect_fields fs fin ((n, d) :: acc) | Bad e => MRet (Bad e) end)
            end
        end
    end).
Proof. rewrite (mclient_frob_eq (collect_fields fs fin acc)) at 1. reflexivity. Qed.
Lemma ignore_eq : ignore = Target MAny (fun z => match z with ZNone => wrong_type | _ => Good DIgnored end) (IRet wrong_type) (IRet wrong_type) ignore_items ignore_members.
Proof. rewrite (target_frob_eq ignore) at 1. reflexivity. Qed.
Lemma ignore_items_eq : ignore_items = SItem ignore (fun a => match a with None => SRet (Good DIgnored) | Some (Good _) => ignore_items | Some (Bad e) => SRet (Bad e) end).
Proof. rewrite (sclient_frob_eq ignore_items) at 1. reflexivity. Qed.
Lemma ignore_members_eq : ignore_members = MKey (fun a => match a with
    | NoKey => MRet (Good DIgnored)
    | DupKey e => MRet (Bad e)
    | GotKey _ => MVal ignore (fun o => match o with Good _ => ignore_members | Bad e => MRet (Bad e) end)
    end).
Proof. rewrite (mclient_frob_eq ignore_members) at 1. reflexivity. Qed.
Lemma anything_eq : anything = Target MAny (fun z => match z with
      | ZUnit => Good DUnit | ZBool b => Good (DBool b) | ZI64 z => Good (DInt z) | ZF64 f => Good (DFloat f)
      | ZBorrowed s | ZString s => Good (DStr s) | ZNone => wrong_type end)
    (IRet wrong_type) (IRet wrong_type) (any_items []) (any_members []).
Proof. rewrite (target_frob_eq anything) at 1. reflexivity. Qed.
Lemma any_items_eq acc : any_items acc = SItem anything (fun a => match a with None => SRet (Good (DSeq (rev acc))) | Some (Good d) => any_items (d :: acc) | Some (Bad e) => SRet (Bad e) end).
Proof. rewrite (sclient_frob_eq (any_items acc)) at 1. reflexivity. Qed.
Lemma any_members_eq acc : any_members acc = MKey (fun a => match a with
    | NoKey => MRet (Good (DMap (rev acc)))
    | DupKey e => MRet (Bad e)
    | GotKey n => MVal anything (fun o => match o with Good d => any_members ((n, d) :: acc) | Bad e => MRet (Bad e) end)
    end).
Proof. rewrite (mclient_frob_eq (any_members acc)) at 1. reflexivity. Qed.

Lemma ignore_polite : Polite ignore.
Proof.
  cofix CH. rewrite ignore_eq. constructor; [constructor|constructor| |].
  - cofix CS. rewrite ignore_items_eq. constructor; [exact CH|]. intros [[d|e]|]; [exact CS|constructor|constructor].
  - cofix CM. rewrite ignore_members_eq. constructor; [|constructor|intros e; constructor]. intros x. constructor; [exact CH|]. intros [d|e]; [exact CM|constructor].
Qed.
Lemma anything_polite : Polite anything.
Proof.
  cofix CH. rewrite anything_eq. constructor; [constructor|constructor| |].
  - generalize (@nil data). cofix CS. intros acc. rewrite any_items_eq. constructor; [exact CH|]. intros [[d|e]|]; [apply CS|constructor|constructor].
  - generalize (@nil (str * data)). cofix CM. intros acc. rewrite any_members_eq. constructor; [|constructor|intros e; constructor]. intros x. constructor; [exact CH|]. intros [d|e]; [apply CM|constructor].
Qed.
Lemma collect_polite t fin : Polite t -> forall acc, PoliteS (collect t fin acc).
Proof. intros Ht. cofix CS. intros acc. rewrite collect_eq. constructor; [exact Ht|]. intros [[d|e]|]; [apply CS|constructor|constructor]. Qed.
Lemma collect_types_polite ts fin : Forall Polite ts -> forall acc, PoliteS (collect_types ts fin acc).
Proof. induction 1 as [|t ts Ht _ IH]; intros acc; cbn [collect_types]; [constructor|]. constructor; [exact Ht|]. intros [[d|e]|]; [apply IH|constructor|constructor]. Qed.
Lemma collect_map_polite k t : Polite t -> forall acc, PoliteM false (collect_map k t acc).
Proof.
  intros Ht. cofix CM. intros acc. rewrite collect_map_eq. constructor; [|constructor|intros e; constructor]. intros x. destruct (key_ok k (Borrowed x)); [|constructor].
  constructor; [exact Ht|]. intros [d|e]; [apply CM|constructor].
Qed.
Lemma collect_fields_polite fs fin : Forall (fun ft => Polite (snd ft)) fs -> forall acc, PoliteM false (collect_fields fs fin acc).
Proof.
  intros Ht. cofix CM. intros acc. rewrite collect_fields_eq. constructor; [|constructor|intros e; constructor]. intros x. destruct (field_get x fs) as [t|] eqn:E.
  - destruct (field_get x acc); [constructor|]. constructor.
    + unfold field_get in E. destruct (find _ fs) as [[f t']|] eqn:EF; [|discriminate]. injection E as ->. apply find_some in EF as [EF _]. rewrite Forall_forall in Ht. exact (Ht _ EF).
    + intros [d|e]; [apply CM|constructor].
  - constructor; [apply ignore_polite|]. intros [d|e]; [apply CM|constructor].
Qed.
Lemma scalars_polite f m : Polite (scalars f m).
Proof. constructor; constructor. Qed.
Theorem target_of_polite : forall t, Polite (target_of t).
Proof.
  fix IH 1. intros t. destruct t as [|it| | | | | | |t|t|t|ts|k t|fs| | | |]; cbn [target_of]; try apply scalars_polite.
  - constructor; [constructor; apply IH|constructor|constructor|constructor].
  - constructor; [constructor|constructor; apply IH| |constructor]. constructor; [apply IH|]. intros [o|]; constructor.
  - constructor; [constructor|constructor|apply collect_polite, IH|constructor].
  - constructor; [constructor|constructor| |constructor]. apply collect_types_polite. induction ts as [|t ts IHts]; constructor; [apply IH|exact IHts].
  - constructor; [constructor|constructor|constructor|apply collect_map_polite, IH].
  - constructor; [constructor|constructor| |].
    + apply collect_types_polite. induction fs as [|[f t] fs IHfs]; constructor; [apply IH|exact IHfs].
    + apply collect_fields_polite. induction fs as [|[f t] fs IHfs]; constructor; [apply IH|exact IHfs].
  - constructor; [constructor|constructor|apply collect_polite, scalars_polite|constructor].
  - apply ignore_polite.
  - apply anything_polite.
Qed.

(** ** They do what Serde.v says *)
Definition embed (r : dres data) : ran data :=
  match r with DeOk d => Done (Good d) | DeErr e => Done (Bad e) | DePanic => Panicked | DeFuel => Running end.
Section Order.
Variable ord : blocks_t -> blocks_t.
Notation Eval := (Eval ord). Notation SE := (SE ord). Notation ME := (ME ord).
Definition sraws (s : src) : list raw :=
  match s with
  | SExpr (EObject l) => map oraw l
  | SBody b | SBlock (BBody [b]) | SBlock (BLabels [b] []) => map braw (build_map_access_iter ord b)
  | _ => []
  end.
Lemma map_call s m l : call ord s m = VMap l -> l = gsteps [] (sraws s) /\ forall D (mc : mclient D) f, run_map ord (run ord f) f mc s = g_loop (run ord f) f mc (sraws s) None [].
Proof.
  assert (HB : forall b l, body_any ord b = VMap l -> l = gsteps [] (map braw (build_map_access_iter ord b))).
  { intros b l0 E. unfold body_any in E. injection E as <-. apply body_gsteps. }
  assert (HO : forall bs l, one_or_seq ord bs = VMap l -> exists b, bs = [b] /\ l = gsteps [] (map braw (build_map_access_iter ord b))).
  { intros [|b [|b' bs]] l0 E; try discriminate. exists b. split; [reflexivity|]. apply HB, E. }
  assert (HL : forall D (mc : mclient D) f b, map_loop (run ord f) body_next_key body_next_value f mc (access_new (build_map_access_iter ord b)) = g_loop (run ord f) f mc (map braw (build_map_access_iter ord b)) None []).
  { intros D mc f b. rewrite body_loop. reflexivity. }
  destruct s as [e|b|[bs|bs ls]]; cbn [call]; intros E.
  - destruct e as [|n|b|s|l0|l0]; try (exfalso; destruct m; cbn in E; unfold string_event, number_event in E;
        repeat match type of E with context [if ?b then _ else _] => destruct b | context [match ?b with _ => _ end] => destruct b end; discriminate).
    split; [|intros D mc f; cbn [run_map sraws]; rewrite object_loop; reflexivity].
    destruct m; cbn in E; try discriminate; injection E as <-; apply object_gsteps.
  - split; [apply HB, E|]. intros D mc f. apply HL.
  - assert (E' : one_or_seq ord bs = VMap l) by (destruct m; cbn in E; try discriminate; try exact E; destruct (Nat.eqb _ _); discriminate).
    destruct (HO _ _ E') as (b & -> & ->). split; [reflexivity|]. intros D mc f. apply HL.
  - destruct ls as [|? ?]; [|exfalso; destruct m; cbn in E; try discriminate; destruct (Nat.eqb _ _); discriminate].
    assert (E' : one_or_seq ord bs = VMap l) by (destruct m; cbn in E; try exact E; destruct (Nat.eqb _ _); discriminate).
    destruct (HO _ _ E') as (b & -> & ->). split; [reflexivity|]. intros D mc f. apply HL.
Qed.

(** *** Rules *)
Section Rules.
Context {D : Type}.
Lemma SE_ret (o : outcome D) l : SE (SRet o) l (Done o).
Proof. split; [discriminate|]. exists 1. reflexivity. Qed.
Lemma SE_end c (k : option (outcome D) -> sclient D) r : SE (k None) [] r -> SE (SItem c k) [] r.
Proof.
  intros [Hr (f & E)]. split; [exact Hr|]. exists (S f). cbn [seq_loop].
  rewrite (seq_loop_mono (run ord f) (run ord (S f)) (run_mono ord f (S f) ltac:(lia)) f f _ _ (le_n _)); [exact E|congruence].
Qed.
Lemma SE_item c (k : option (outcome D) -> sclient D) s l o r : Eval c s (Done o) -> SE (k (Some o)) l r -> SE (SItem c k) (s :: l) r.
Proof.
  intros [Ho (g & Eg)] [Hr (f & E)]. split; [exact Hr|]. exists (S (f + g)). cbn [seq_loop]. rewrite (run_more ord c s (Done o) g (S (f + g)) ltac:(lia) Ho Eg).
  rewrite (seq_loop_mono (run ord f) (run ord (S (f + g))) (run_mono ord f (S (f + g)) ltac:(lia)) f (f + g) _ _ ltac:(lia)); [exact E|congruence].
Qed.
Lemma SE_panic c (k : option (outcome D) -> sclient D) s l : Eval c s Panicked -> SE (SItem c k) (s :: l) Panicked.
Proof. intros [Ho (g & Eg)]. split; [discriminate|]. exists (S g). cbn [seq_loop]. rewrite (run_more ord c s Panicked g (S g) ltac:(lia) Ho Eg). reflexivity. Qed.
Lemma ME_ret (o : outcome D) rest held seen : ME (MRet o) rest held seen (Done o).
Proof. split; [discriminate|]. exists 1. reflexivity. Qed.
Lemma ME_more (mc : mclient D) rest held seen r f : r <> Running -> g_loop (run ord f) f mc rest held seen = r -> g_loop (run ord (S f)) f mc rest held seen = r.
Proof. intros Hr E. rewrite (g_loop_mono (run ord f) (run ord (S f)) (run_mono ord f (S f) ltac:(lia)) f f _ _ _ _ (le_n _)); [exact E|congruence]. Qed.
Lemma ME_end (k : keyans -> mclient D) held seen r : ME (k NoKey) [] held seen r -> ME (MKey k) [] held seen r.
Proof. intros [Hr (f & E)]. split; [exact Hr|]. exists (S f). cbn [g_loop]. apply ME_more; assumption. Qed.
Lemma ME_none (k : keyans -> mclient D) s d rest held seen : ME (MKey k) ((None, s, d) :: rest) held seen Panicked.
Proof. split; [discriminate|]. exists 1. reflexivity. Qed.
Lemma ME_dup (k : keyans -> mclient D) c s e rest held seen r : seen_mem (cow_str c) seen = true -> ME (k (DupKey e)) rest held seen r -> ME (MKey k) ((Some c, s, Error e) :: rest) held seen r.
Proof. intros EM [Hr (f & E)]. split; [exact Hr|]. exists (S f). cbn [g_loop]. rewrite EM. apply ME_more; assumption. Qed.
Lemma ME_again (k : keyans -> mclient D) c s rest held seen : seen_mem (cow_str c) seen = true -> ME (MKey k) ((Some c, s, Panic) :: rest) held seen Panicked.
Proof. intros EM. split; [discriminate|]. exists 1. cbn [g_loop]. rewrite EM. reflexivity. Qed.
Lemma ME_key (k : keyans -> mclient D) c s d rest held seen r : seen_mem (cow_str c) seen = false -> ME (k (GotKey (cow_str c))) rest (Some s) (cow_str c :: seen) r -> ME (MKey k) ((Some c, s, d) :: rest) held seen r.
Proof. intros EM [Hr (f & E)]. split; [exact Hr|]. exists (S f). cbn [g_loop]. rewrite EM. apply ME_more; assumption. Qed.
Lemma ME_val c (k : outcome D -> mclient D) s o rest seen r : Eval c s (Done o) -> ME (k o) rest None seen r -> ME (MVal c k) rest (Some s) seen r.
Proof.
  intros [Ho (g & Eg)] [Hr (f & E)]. split; [exact Hr|]. exists (S (f + g)). cbn [g_loop]. rewrite (run_more ord c s (Done o) g (S (f + g)) ltac:(lia) Ho Eg).
  rewrite (g_loop_mono (run ord f) (run ord (S (f + g))) (run_mono ord f (S (f + g)) ltac:(lia)) f (f + g) _ _ _ _ ltac:(lia)); [exact E|congruence].
Qed.
Lemma ME_val_panic c (k : outcome D -> mclient D) s rest seen : Eval c s Panicked -> ME (MVal c k) rest (Some s) seen Panicked.
Proof. intros [Ho (g & Eg)]. split; [discriminate|]. exists (S g). cbn [g_loop]. rewrite (run_more ord c s Panicked g (S g) ltac:(lia) Ho Eg). reflexivity. Qed.
End Rules.

(** *** The loops of the types *)
Section Loops.
Variable rec : ty -> src -> dres data.
Variable tg : ty -> target data.
Hypothesis Hrec : forall t s, rec t s <> DeFuel -> Eval (tg t) s (embed (rec t s)).

(* a client that takes elements in turn *)
Lemma item_step t (k : option (outcome data) -> sclient data) s l (X : dres data) (kf : data -> dres data) :
  X = dbind (rec t s) kf -> X <> DeFuel ->
  (forall d, rec t s = DeOk d -> kf d <> DeFuel -> SE (k (Some (Good d))) l (embed (kf d))) ->
  (forall e, k (Some (Bad e)) = SRet (Bad e)) -> SE (SItem (tg t) k) (s :: l) (embed X).
Proof.
  intros EX HX HG HB. destruct (rec t s) as [d|e| |] eqn:E; cbn [dbind] in EX; subst X.
  - eapply SE_item; [rewrite <- (f_equal embed E : embed (rec t s) = Done (Good d)); apply Hrec; congruence|]. apply HG; [reflexivity|exact HX].
  - eapply SE_item; [rewrite <- (f_equal embed E : embed (rec t s) = Done (Bad e)); apply Hrec; congruence|]. rewrite HB. apply SE_ret.
  - apply SE_panic. rewrite <- (f_equal embed E : embed (rec t s) = Panicked). apply Hrec. congruence.
  - congruence.
Qed.
Lemma val_step t (k : outcome data -> mclient data) s rest seen (X : dres data) (kf : data -> dres data) :
  X = dbind (rec t s) kf -> X <> DeFuel ->
  (forall d, rec t s = DeOk d -> kf d <> DeFuel -> ME (k (Good d)) rest None seen (embed (kf d))) ->
  (forall e, k (Bad e) = MRet (Bad e)) -> ME (MVal (tg t) k) rest (Some s) seen (embed X).
Proof.
  intros EX HX HG HB. destruct (rec t s) as [d|e| |] eqn:E; cbn [dbind] in EX; subst X.
  - eapply ME_val; [rewrite <- (f_equal embed E : embed (rec t s) = Done (Good d)); apply Hrec; congruence|]. apply HG; [reflexivity|exact HX].
  - eapply ME_val; [rewrite <- (f_equal embed E : embed (rec t s) = Done (Bad e)); apply Hrec; congruence|]. rewrite HB. apply ME_ret.
  - apply ME_val_panic. rewrite <- (f_equal embed E : embed (rec t s) = Panicked). apply Hrec. congruence.
  - congruence.
Qed.

Lemma collect_run t fin l : forall acc, dmap (fun ds => fin (rev acc ++ ds)) (seq_all rec t l) <> DeFuel ->
  SE (collect (tg t) fin acc) l (embed (dmap (fun ds => fin (rev acc ++ ds)) (seq_all rec t l))).
Proof.
  induction l as [|s l IH]; intros acc H; rewrite collect_eq; cbn [seq_all] in *.
  - apply SE_end. cbn. rewrite app_nil_r. apply SE_ret.
  - eapply (item_step t _ s l _ (fun d => dmap (fun ds => fin (rev (d :: acc) ++ ds)) (seq_all rec t l))); [|exact H| |reflexivity].
    + destruct (rec t s) as [d|e| |]; try reflexivity. cbn. destruct (seq_all rec t l); try reflexivity. cbn. rewrite <- app_assoc. reflexivity.
    + intros d _ Hd. apply IH, Hd.
Qed.
Lemma collect_types_run ts fin : forall l acc, dmap (fun ds => fin (rev acc ++ ds)) (seq_types rec ts l) <> DeFuel ->
  SE (collect_types (map tg ts) fin acc) l (embed (dmap (fun ds => fin (rev acc ++ ds)) (seq_types rec ts l))).
Proof.
  induction ts as [|t ts IH]; intros [|s l] acc H; cbn [map collect_types seq_types] in *.
  - cbn. rewrite app_nil_r. apply SE_ret.
  - cbn. rewrite app_nil_r. apply SE_ret.
  - apply SE_end. apply SE_ret.
  - eapply (item_step t _ s l _ (fun d => dmap (fun ds => fin (rev (d :: acc) ++ ds)) (seq_types rec ts l))); [|exact H| |reflexivity].
    + destruct (rec t s) as [d|e| |]; try reflexivity. cbn. destruct (seq_types rec ts l); try reflexivity. cbn. rewrite <- app_assoc. reflexivity.
    + intros d _ Hd. apply IH, Hd.
Qed.
Lemma collect_map_run k t rest : forall seen held acc, dmap (fun es => DMap (rev acc ++ es)) (map_all rec k t (gsteps seen rest)) <> DeFuel ->
  ME (collect_map k (tg t) acc) rest held seen (embed (dmap (fun es => DMap (rev acc ++ es)) (map_all rec k t (gsteps seen rest)))).
Proof.
  induction rest as [|[[[c|] s] d] rest IH]; intros seen held acc H; rewrite collect_map_eq; cbn [gsteps] in *.
  - apply ME_end. cbn. rewrite app_nil_r. apply ME_ret.
  - destruct (seen_mem (cow_str c) seen) eqn:EM.
    + destruct d as [e|]; [apply ME_dup; [exact EM|apply ME_ret]|apply ME_again, EM].
    + apply ME_key; [exact EM|]. cbn [map_all] in *. assert (EK : key_ok k (Borrowed (cow_str c)) = key_ok k c) by (destruct k; reflexivity). rewrite EK. destruct (key_ok k c); [|apply ME_ret].
      eapply (val_step t _ s rest _ _ (fun d => dmap (fun es => DMap (rev ((cow_str c, d) :: acc) ++ es)) (map_all rec k t (gsteps (cow_str c :: seen) rest)))); [|exact H| |reflexivity].
      * destruct (rec t s) as [d0|e| |]; try reflexivity. cbn. destruct (map_all rec k t _); try reflexivity. cbn. rewrite <- app_assoc. reflexivity.
      * intros d0 _ Hd. apply IH, Hd.
  - apply ME_none.
Qed.
Hypothesis HI : tg TIgnored = ignore.
Hypothesis HA : tg TAny = anything.
Lemma ignore_items_run l : dmap (fun _ => DIgnored) (ignore_seq rec l) <> DeFuel ->
  SE ignore_items l (embed (dmap (fun _ => DIgnored) (ignore_seq rec l))).
Proof.
  induction l as [|s l IH]; intros H; rewrite ignore_items_eq; cbn [ignore_seq] in *.
  - apply SE_end, SE_ret.
  - rewrite <- HI. eapply (item_step TIgnored _ s l _ (fun d => dmap (fun _ => DIgnored) (ignore_seq rec l))); [|exact H| |reflexivity].
    + destruct (rec TIgnored s); reflexivity.
    + intros d _ Hd. apply IH, Hd.
Qed.
Lemma ignore_members_run rest : forall seen held, dmap (fun _ => DIgnored) (ignore_map rec (gsteps seen rest)) <> DeFuel ->
  ME ignore_members rest held seen (embed (dmap (fun _ => DIgnored) (ignore_map rec (gsteps seen rest)))).
Proof.
  induction rest as [|[[[c|] s] d] rest IH]; intros seen held H; rewrite ignore_members_eq; cbn [gsteps] in *.
  - apply ME_end, ME_ret.
  - destruct (seen_mem (cow_str c) seen) eqn:EM.
    + destruct d as [e|]; [apply ME_dup; [exact EM|apply ME_ret]|apply ME_again, EM].
    + apply ME_key; [exact EM|]. cbn [ignore_map] in *. rewrite <- HI.
      eapply (val_step TIgnored _ s rest _ _ (fun d => dmap (fun _ => DIgnored) (ignore_map rec (gsteps (cow_str c :: seen) rest)))); [|exact H| |reflexivity].
      * destruct (rec TIgnored s); reflexivity.
      * intros d0 _ Hd. apply IH, Hd.
  - apply ME_none.
Qed.
Lemma any_items_run l : forall acc, dmap (fun ds => DSeq (rev acc ++ ds)) (seq_all rec TAny l) <> DeFuel ->
  SE (any_items acc) l (embed (dmap (fun ds => DSeq (rev acc ++ ds)) (seq_all rec TAny l))).
Proof.
  induction l as [|s l IH]; intros acc H; rewrite any_items_eq; cbn [seq_all] in *.
  - apply SE_end. cbn. rewrite app_nil_r. apply SE_ret.
  - rewrite <- HA. eapply (item_step TAny _ s l _ (fun d => dmap (fun ds => DSeq (rev (d :: acc) ++ ds)) (seq_all rec TAny l))); [|exact H| |reflexivity].
    + destruct (rec TAny s) as [d|e| |]; try reflexivity. cbn. destruct (seq_all rec TAny l); try reflexivity. cbn. rewrite <- app_assoc. reflexivity.
    + intros d _ Hd. apply IH, Hd.
Qed.
Lemma any_members_run rest : forall seen held acc, dmap (fun es => DMap (rev acc ++ es)) (map_all rec KTString TAny (gsteps seen rest)) <> DeFuel ->
  ME (any_members acc) rest held seen (embed (dmap (fun es => DMap (rev acc ++ es)) (map_all rec KTString TAny (gsteps seen rest)))).
Proof.
  induction rest as [|[[[c|] s] d] rest IH]; intros seen held acc H; rewrite any_members_eq; cbn [gsteps] in *.
  - apply ME_end. cbn. rewrite app_nil_r. apply ME_ret.
  - destruct (seen_mem (cow_str c) seen) eqn:EM.
    + destruct d as [e|]; [apply ME_dup; [exact EM|apply ME_ret]|apply ME_again, EM].
    + apply ME_key; [exact EM|]. cbn [map_all key_ok] in *. rewrite <- HA.
      eapply (val_step TAny _ s rest _ _ (fun d => dmap (fun es => DMap (rev ((cow_str c, d) :: acc) ++ es)) (map_all rec KTString TAny (gsteps (cow_str c :: seen) rest)))); [|exact H| |reflexivity].
      * destruct (rec TAny s) as [d0|e| |]; try reflexivity. cbn. destruct (map_all rec KTString TAny _); try reflexivity. cbn. rewrite <- app_assoc. reflexivity.
      * intros d0 _ Hd. apply IH, Hd.
  - apply ME_none.
Qed.
Lemma field_get_map n (fs : list (str * ty)) : field_get n (map (fun ft => (fst ft, tg (snd ft))) fs) = option_map tg (field_get n fs).
Proof. unfold field_get. induction fs as [|[f t] fs IH]; [reflexivity|]. cbn. destruct (str_eqb f n); [reflexivity|exact IH]. Qed.
Lemma struct_finish_ends fs acc : match struct_finish fs acc with DeOk _ | DeErr _ => True | DePanic | DeFuel => False end.
Proof.
  induction fs as [|[f t] fs IH]; [exact I|]. cbn. destruct (field_get f acc); [|destruct t; try exact I]; cbn; destruct (struct_finish fs acc); cbn in *; auto.
Qed.
Lemma finish_struct_eq fs acc : Done (finish_struct fs acc) = embed (dmap DStruct (struct_finish fs acc)).
Proof. unfold finish_struct. pose proof (struct_finish_ends fs acc). destruct (struct_finish fs acc); cbn; try reflexivity; contradiction. Qed.
Lemma collect_fields_run fs rest : forall seen held acc, dmap DStruct (dbind (struct_map rec fs acc (gsteps seen rest)) (fun acc => struct_finish fs acc)) <> DeFuel ->
  ME (collect_fields (map (fun ft => (fst ft, tg (snd ft))) fs) (finish_struct fs) acc) rest held seen
     (embed (dmap DStruct (dbind (struct_map rec fs acc (gsteps seen rest)) (fun acc => struct_finish fs acc)))).
Proof.
  induction rest as [|[[[c|] s] d] rest IH]; intros seen held acc H; rewrite collect_fields_eq; cbn [gsteps] in *.
  - apply ME_end. cbn [struct_map dbind]. rewrite <- finish_struct_eq. apply ME_ret.
  - destruct (seen_mem (cow_str c) seen) eqn:EM.
    + destruct d as [e|]; [apply ME_dup; [exact EM|apply ME_ret]|apply ME_again, EM].
    + apply ME_key; [exact EM|]. cbn [struct_map] in *. rewrite field_get_map. destruct (field_get (cow_str c) fs) as [t|]; cbn [option_map].
      * destruct (field_get (cow_str c) acc); [apply ME_ret|].
        eapply (val_step t _ s rest _ _ (fun d => dmap DStruct (dbind (struct_map rec fs ((cow_str c, d) :: acc) (gsteps (cow_str c :: seen) rest)) (fun acc => struct_finish fs acc)))); [|exact H| |reflexivity].
        -- destruct (rec t s); reflexivity.
        -- intros d0 _ Hd. apply IH, Hd.
      * rewrite <- HI. eapply (val_step TIgnored _ s rest _ _ (fun d => dmap DStruct (dbind (struct_map rec fs acc (gsteps (cow_str c :: seen) rest)) (fun acc => struct_finish fs acc)))); [|exact H| |reflexivity].
        -- destruct (rec TIgnored s); reflexivity.
        -- intros d0 _ Hd. apply IH, Hd.
  - apply ME_none.
Qed.
End Loops.

Definition react {D} (f : nat) (c : target D) (s : src) (ev : event) : ran D :=
  match c with
  | Target m on_scalar on_some on_newtype on_seq on_map =>
      match ev with
      | VUnit => Done (on_scalar ZUnit)
      | VBool b => Done (on_scalar (ZBool b))
      | VI64 z => Done (on_scalar (ZI64 z))
      | VF64 x => Done (on_scalar (ZF64 x))
      | VBorrowedStr t => Done (on_scalar (ZBorrowed t))
      | VString t => Done (on_scalar (ZString t))
      | VNone => Done (on_scalar ZNone)
      | VSome s' => run_inner (run ord f) on_some s'
      | VNewtype s' => run_inner (run ord f) on_newtype s'
      | VSeq l => seq_loop (run ord f) f on_seq l
      | VMap _ => run_map ord (run ord f) f on_map s
      | VErr e => Done (Bad e)
      | VPanic => Panicked
      end
  end.
Definition method_target {D} (c : target D) : method := match c with Target m _ _ _ _ _ => m end.
Lemma run_react {D} f (c : target D) s : run ord (S f) c s = react f c s (call ord s (method_target c)).
Proof. destruct c. reflexivity. Qed.
Lemma target_method t : method_target (target_of t) = method_of t.
Proof. destruct t; try reflexivity. Qed.
Definition ER (c : target data) s ev r := r <> Running /\ exists f, react f c s ev = r.
Lemma ER_const c s ev r : r <> Running -> (forall f, react f c s ev = r) -> ER c s ev r.
Proof. intros H H1. split; [exact H|]. exists 0. apply H1. Qed.
Lemma embed_run r : r <> DeFuel -> embed r <> Running.
Proof. destruct r; cbn; congruence. Qed.

Theorem types_run : forall f t s, de ord f t s <> DeFuel -> Eval (target_of t) s (embed (de ord f t s)).
Proof.
  induction f as [|f IH]; intros t s H; [exfalso; apply H; reflexivity|]. cbn [de] in *.
  enough (HR : ER (target_of t) s (call ord s (method_of t)) (embed (visit (de ord f) t (call ord s (method_of t))))).
  { destruct HR as [Hr (g & E)]. split; [exact Hr|]. exists (S g). rewrite run_react, target_method. exact E. }
  destruct (call ord s (method_of t)) as [|b|z|x|u|u| |s'|s'|l|l|e|] eqn:EC;
    try (apply ER_const; [apply embed_run, H|]; intros g; destruct t; try reflexivity; cbn; try (destruct (checked _ _); reflexivity); try (destruct u as [|? [|? ?]]; reflexivity); fail).
  - (* VSome *) destruct t; try (apply ER_const; [apply embed_run, H|]; reflexivity). cbn [visit] in *.
    assert (Hd : de ord f t s' <> DeFuel) by (intros E; rewrite E in H; apply H; reflexivity). destruct (IH t s' Hd) as [Hr (g & E)]. split; [apply embed_run, H|].
    exists g. cbn. rewrite E. destruct (de ord f t s'); try reflexivity. 
  - (* VNewtype *) destruct t; try (apply ER_const; [apply embed_run, H|]; reflexivity). cbn [visit] in *.
    destruct (IH t s' H) as [Hr (g & E)]. split; [apply embed_run, H|]. exists g. cbn. rewrite E. destruct (de ord f t s'); reflexivity.
  - (* VSeq *)
    assert (HS : forall (m : method) on_scalar on_some on_newtype sc on_map r, SE sc l r -> ER (Target m on_scalar on_some on_newtype sc on_map) s (VSeq l) r) by (intros until r; intros [Hr HE]; split; assumption).
    destruct t; try (apply ER_const; [apply embed_run, H|]; reflexivity); cbn [visit target_of] in *.
    all: try (split; [apply embed_run, H|]; exists 1; reflexivity).
    + apply HS. unfold first_item. destruct l as [|s0 l].
      * apply SE_end, SE_ret.
      * assert (EX : forall o, Eval (target_of t) s0 (Done o) -> SE (SItem (target_of t) (fun a => match a with None => SRet (Bad (ECustom CInvalidLength)) | Some o => SRet o end)) (s0 :: l) (Done o)) by (intros o Ho; eapply SE_item; [exact Ho|apply SE_ret]).
        specialize (IH t s0 H). destruct (de ord f t s0); cbn [embed] in *; try (apply EX, IH); [apply SE_panic, IH|congruence].
    + apply HS. apply (collect_run (de ord f) target_of IH t DSeq l [] H).
    + apply HS. apply (collect_types_run (de ord f) target_of IH l0 DSeq l [] H).
    + apply HS. replace (map (fun ft : str * ty => target_of (snd ft)) fields) with (map target_of (map snd fields)) by apply map_map.
      apply (collect_types_run (de ord f) target_of IH (map snd fields) (fun ds => DStruct (combine (map fst fields) ds)) l [] H).
    + apply HS. apply (collect_run (de ord f) target_of IH (TInt U8) as_bytes l [] H).
    + rewrite ignore_eq. apply HS. apply (ignore_items_run (de ord f) target_of IH eq_refl l H).
    + rewrite anything_eq. apply HS. apply (any_items_run (de ord f) target_of IH eq_refl l [] H).
  - (* VMap *)
    destruct (map_call s _ l EC) as [-> HL].
    assert (HM : forall (m : method) on_scalar on_some on_newtype sc mc r, ME mc (sraws s) None [] r -> ER (Target m on_scalar on_some on_newtype sc mc) s (VMap (gsteps [] (sraws s))) r).
    { intros until r; intros [Hr (g & E)]; split; [exact Hr|]. exists g. cbn [react]. rewrite HL. exact E. }
    destruct t; try (apply ER_const; [apply embed_run, H|]; reflexivity); cbn [visit target_of] in *.
    all: try (apply HM; apply ME_ret; fail).
    + apply HM. apply (collect_map_run (de ord f) target_of IH _ t (sraws s) [] None [] H).
    + apply HM. apply (collect_fields_run (de ord f) target_of IH eq_refl fields (sraws s) [] None [] H).
    + rewrite ignore_eq. apply HM. apply (ignore_members_run (de ord f) target_of IH eq_refl (sraws s) [] None H).
    + rewrite anything_eq. apply HM. apply (any_members_run (de ord f) target_of IH eq_refl (sraws s) [] None [] H).
Qed.
End Order.
