(** * PropMapAccess: C87, the map accesses under any sequence of calls *)
From Coq Require Import Permutation.
From Verif Require Import Base Ast NomFacts Blocks BlockSpec BlockProofs PropBlockExact Serde SerdeSpec SerdeProofs PropSerde MapAccess MapAccessSpec.
Local Open Scope nat_scope.

(** ** Facts about the specification *)
Lemma keys_app h h' : keys (h ++ h') = keys h + keys h'.
Proof. unfold keys. rewrite filter_app, app_length. reflexivity. Qed.
Lemma app_at {A} (l1 l2 l1' l2' : list A) x y : l1 ++ x :: l2 = l1' ++ y :: l2' -> length l1 = length l1' -> l1 = l1' /\ x = y /\ l2 = l2'.
Proof.
  revert l1'. induction l1 as [|a l1 IH]; intros [|b l1'] H HL; try discriminate.
  - injection H as <- <-. auto.
  - injection H as <- H. injection HL as HL. destruct (IH l1' H HL) as (-> & -> & ->). auto.
Qed.
Lemma GivesKey_fun es k c s c' s' : GivesKey es k c s -> GivesKey es k c' s' -> c = c' /\ s = s'.
Proof.
  intros (es1 & d & es2 & E & L & _) (es1' & d' & es2' & E' & L' & _). rewrite E in E'.
  assert (HL : length es1 = length es1') by congruence. destruct (app_at _ _ _ _ _ _ E' HL) as (_ & [= <- <- _] & _). auto.
Qed.
(* the last request is what counts *)
Lemma Waiting_key es h s : Waiting es (h ++ [NextKey]) s <->
  (exists c, GivesKey es (keys h) c s) \/ ((forall c s', ~ GivesKey es (keys h) c s') /\ Waiting es h s).
Proof.
  split.
  - intros (h1 & h2 & c & E & HG & HV & HL). destruct h2 as [|o h2 _] using rev_ind.
    + apply app_inj_tail in E as [<- _]. left. eauto.
    + rewrite app_comm_cons, app_assoc in E. apply app_inj_tail in E as [-> <-]. right. split.
      * intros c' s'. specialize (HL h2 [] c' s' eq_refl). rewrite keys_app. cbn. unfold keys in *. cbn in *.
        replace (length (filter _ h1) + S _) with (length (filter (fun o => match o with NextKey => true | _ => false end) h1) + 1 + length (filter (fun o => match o with NextKey => true | _ => false end) h2)) by lia. exact HL.
      * exists h1, h2, c. split; [reflexivity|]. split; [exact HG|]. split; [intros Hi; apply HV, in_app_iff; auto|].
        intros h3 h4 c' s' ->. apply (HL h3 (h4 ++ [NextKey])). rewrite <- app_assoc. reflexivity.
  - intros [(c & HG)|[Hno (h1 & h2 & c & -> & HG & HV & HL)]].
    + exists h, [], c. split; [reflexivity|]. split; [exact HG|]. split; [intros []|]. intros [|? ?] h4 c' s' E; discriminate.
    + exists h1, (h2 ++ [NextKey]), c. split; [rewrite <- app_assoc; reflexivity|]. split; [exact HG|]. split.
      * intros Hi. apply in_app_iff in Hi as [Hi|[Hi|[]]]; [exact (HV Hi)|discriminate].
      * intros h3 h4 c' s' E. destruct h4 as [|o h4 _] using rev_ind.
        -- apply app_inj_tail in E as [<- _]. specialize (Hno c' s'). rewrite keys_app in Hno. unfold keys in *. cbn in *.
           replace (length (filter _ h1) + 1 + _) with (length (filter (fun o => match o with NextKey => true | _ => false end) h1) + S (length (filter (fun o => match o with NextKey => true | _ => false end) h2))) by lia. exact Hno.
        -- rewrite app_comm_cons, app_assoc in E. apply app_inj_tail in E as [-> _]. eapply HL. reflexivity.
Qed.
Lemma Waiting_value es h s : ~ Waiting es (h ++ [NextValue]) s.
Proof.
  intros (h1 & h2 & c & E & _ & HV & _). destruct h2 as [|o h2 _] using rev_ind.
  - apply app_inj_tail in E as [_ E]. discriminate.
  - rewrite app_comm_cons, app_assoc in E. apply app_inj_tail in E as [_ <-]. apply HV, in_app_iff. right. left. reflexivity.
Qed.
Lemma Waiting_size es h s : Waiting es (h ++ [SizeHint]) s <-> Waiting es h s.
Proof.
  split.
  - intros (h1 & h2 & c & E & HG & HV & HL). destruct h2 as [|o h2 _] using rev_ind.
    + apply app_inj_tail in E as [_ E]. discriminate.
    + rewrite app_comm_cons, app_assoc in E. apply app_inj_tail in E as [-> <-].
      exists h1, h2, c. split; [reflexivity|]. split; [exact HG|]. split; [intros Hi; apply HV, in_app_iff; auto|].
      intros h3 h4 c' s' ->. apply (HL h3 (h4 ++ [SizeHint])). rewrite <- app_assoc. reflexivity.
  - intros (h1 & h2 & c & -> & HG & HV & HL). exists h1, (h2 ++ [SizeHint]), c. split; [rewrite <- app_assoc; reflexivity|]. split; [exact HG|]. split.
    + intros Hi. apply in_app_iff in Hi as [Hi|[Hi|[]]]; [exact (HV Hi)|discriminate].
    + intros h3 h4 c' s' E. destruct h4 as [|o h4 _] using rev_ind.
      * apply app_inj_tail in E as [_ E]. discriminate.
      * rewrite app_comm_cons, app_assoc in E. apply app_inj_tail in E as [-> _]. eapply HL. reflexivity.
Qed.
Lemma Waiting_fun es h s s' : Waiting es h s -> Waiting es h s' -> s = s'.
Proof.
  induction h as [|o h IH] using rev_ind.
  - intros (h1 & h2 & c & E & _). destruct h1; discriminate.
  - destruct o.
    + rewrite !Waiting_key. intros [(c & H)|[H W]] [(c' & H')|[H' W']].
      * apply (GivesKey_fun _ _ _ _ _ _ H H').
      * destruct (H' _ _ H).
      * destruct (H _ _ H').
      * auto.
    + intros W. destruct (Waiting_value _ _ _ W).
    + rewrite !Waiting_size. exact IH.
Qed.
(** What a call sees is determined. *)
Theorem C87_determined : forall es h o x y, Sees es h o x -> Sees es h o y -> x = y.
Proof.
  intros es h o x y Hx Hy.
  assert (T : forall es1 es2 es1' es2' (p q : offer), es = es1 ++ p :: es2 -> length es1 = keys h -> es = es1' ++ q :: es2' -> length es1' = keys h -> es1 = es1' /\ p = q).
  { intros es1 es2 es1' es2' p q E L E' L'. rewrite E in E'. assert (HL : length es1 = length es1') by congruence.
    destruct (app_at _ _ _ _ _ _ E' HL) as (? & ? & _). auto. }
  assert (N : forall es1 es2 (p : offer), es = es1 ++ p :: es2 -> length es1 = keys h -> ~ length es <= keys h) by (intros * -> <-; rewrite app_length; cbn; lia).
  destruct Hx as [|Hx|c s (es1 & d & es2 & E & L & F)|es1 c s d es2 E L F|es1 s d es2 E L|s W|W];
    inversion Hy as [|Hy' H1 H2|c' s' (es1' & d' & es2' & E' & L' & F') H1 H2|es1' c' s' d' es2' E' L' F' H1 H2|es1' s' d' es2' E' L' H1 H2|s' W' H1 H2|W' H1 H2];
    try discriminate; try reflexivity;
    try (exfalso; eapply N; eassumption);
    try (destruct (T _ _ _ _ _ _ E L E' L') as [? [= ? ? ?]]; subst; try contradiction; reflexivity);
    try (destruct (T _ _ _ _ _ _ E L E' L') as [? ?]; discriminate).
  - f_equal. eapply Waiting_fun; eassumption.
  - destruct (W' _ W).
  - destruct (W _ W').
Qed.

  (* until a panic, every call is answered *)
  Lemma run_length {K V} (next_key next_value : access K V -> obs * access K V) h' : forall a, length (run next_key next_value h' a) = length h' \/
    (length (run next_key next_value h' a) <= length h' /\ exists l, run next_key next_value h' a = l ++ [OPanic]).
  Proof.
    induction h' as [|o h' IH]; intros a; [left; reflexivity|]. cbn [run]. destruct (call_op next_key next_value o a) as [y a'].
    assert (HP : y = OPanic \/ y <> OPanic) by (destruct y; auto; right; discriminate). destruct HP as [->|Hy].
    - right. cbn. split; [lia|]. exists []. reflexivity.
    - assert (E : match y with OPanic => [OPanic] | _ => y :: run next_key next_value h' a' end = y :: run next_key next_value h' a') by (destruct y; try reflexivity; contradiction).
      rewrite E. destruct (IH a') as [H|[H (l & El)]]; [left; cbn; congruence|]. right. split; [cbn; lia|]. exists (y :: l). rewrite El. reflexivity.
  Qed.

(** ** The machines *)
Section Machine.
  Context {K V : Type}.
  Variables (off : K * V -> offer) (sv : V -> src).
  Hypothesis off_sv : forall k v, snd (fst (off (k, v))) = sv v.
  Definition gnext_key (a : access K V) : obs * access K V :=
    match ma_rest a with
    | [] => (OEnd, a)
    | (k, v) :: rest =>
        match off (k, v) with
        | (None, _, _) => (OPanic, mk_access rest (ma_value a) (ma_seen a))
        | (Some c, _, d) =>
            if seen_mem (cow_str c) (ma_seen a) then (d, mk_access rest (ma_value a) (ma_seen a))
            else (OKey c, mk_access rest (Some v) (cow_str c :: ma_seen a))
        end
    end.
  Definition gnext_value (a : access K V) : obs * access K V :=
    match ma_value a with None => (OPanic, a) | Some v => (OVal (sv v), mk_access (ma_rest a) None (ma_seen a)) end.
  Variable next_key next_value : access K V -> obs * access K V.
  Hypothesis Hkey : forall a, next_key a = gnext_key a.
  Hypothesis Hvalue : forall a, next_value a = gnext_value a.

  Definition Inv (es : list offer) (h : list op) (a : access K V) : Prop :=
    (exists es1, es = es1 ++ map off (ma_rest a) /\ (length es1 = keys h \/ (ma_rest a = [] /\ length es1 <= keys h)) /\
       forall n, In n (ma_seen a) <-> Exists (named n) es1) /\
    forall s, option_map sv (ma_value a) = Some s <-> Waiting es h s.
  Lemma keys_snoc h o : keys (h ++ [o]) = match o with NextKey => S (keys h) | _ => keys h end.
  Proof. rewrite keys_app. unfold keys. destruct o; cbn; lia. Qed.
  Lemma none_gives es h a c s : Inv es h a -> ma_rest a = [] -> ~ GivesKey es (keys h) c s.
  Proof.
    intros [(es1 & E & HL & _) _] HR (es1' & d & es2 & E' & L' & _). rewrite HR, app_nil_r in E.
    assert (length es1 = length es) by congruence. rewrite E' in H. rewrite app_length in H. cbn in H. destruct HL as [HL|[_ HL]]; lia.
  Qed.
  Lemma step_inv es h a o x a' : Inv es h a -> call_op next_key next_value o a = (x, a') ->
    Sees es h o x /\ (x <> OPanic -> Inv es (h ++ [o]) a').
  Proof.
    intros HI H. pose proof HI as [(es1 & E & HL & Hs) HW]. destruct o; cbn [call_op] in H.
    - rewrite Hkey in H. unfold gnext_key in H. destruct (ma_rest a) as [|[k v] rest] eqn:ER.
      + injection H as <- <-. split.
        * apply Sees_end. rewrite E. cbn. rewrite app_nil_r. destruct HL as [->|[_ ?]]; lia.
        * intros _. split.
          -- exists es1. rewrite ER. split; [exact E|]. split; [|exact Hs]. right. split; [reflexivity|]. rewrite keys_snoc. destruct HL as [->|[_ ?]]; lia.
          -- intros s. rewrite HW, Waiting_key. split; [|intros [(c & HG)|[_ W]]; [destruct (none_gives _ _ _ _ _ HI ER HG)|exact W]].
             intros W. right. split; [|exact W]. intros c s'. apply (none_gives _ _ _ _ _ HI ER).
      + destruct HL as [HL|[? _]]; [|discriminate]. cbn [map] in E. pose proof (off_sv k v) as Hsv.
        destruct (off (k, v)) as [[oc s] d] eqn:EO. cbn in Hsv. subst s.
        assert (T : forall c s, GivesKey es (keys h) c s -> oc = Some c /\ s = sv v /\ ~ Exists (named (cow_str c)) es1).
        { intros c s (es1' & d' & es2 & E' & L' & F). rewrite E in E'. assert (HLL : length es1 = length es1') by congruence.
          destruct (app_at _ _ _ _ _ _ E' HLL) as (<- & [= -> <- _] & _). auto. }
        assert (Es' : es = (es1 ++ [(oc, sv v, d)]) ++ map off rest) by (rewrite <- app_assoc; exact E).
        destruct oc as [c|].
        * destruct (seen_mem (cow_str c) (ma_seen a)) eqn:EM; injection H as <- <-.
          -- apply seen_mem_in in EM. apply Hs in EM. split; [eapply Sees_again; eassumption|]. intros _. split; cbn.
             ++ exists (es1 ++ [(Some c, sv v, d)]). split; [exact Es'|]. split; [left; rewrite app_length, keys_snoc; cbn; lia|].
                intros n. rewrite Hs, Exists_app. split; [auto|]. intros [?|H]; [assumption|].
                apply Exists_cons in H as [(c' & Hc & <-)|H]; [cbn in Hc; injection Hc as <-; exact EM|inversion H].
             ++ intros s. rewrite HW, Waiting_key.
                assert (No : forall c0 s0, ~ GivesKey es (keys h) c0 s0) by (intros c0 s0 HG; destruct (T _ _ HG) as ([= <-] & _ & F); contradiction).
                split; [auto|]. intros [(c0 & HG)|[_ W]]; [destruct (No _ _ HG)|exact W].
          -- apply seen_mem_out in EM. rewrite Hs in EM.
             assert (HG : GivesKey es (keys h) c (sv v)) by (exists es1, d, (map off rest); auto).
             split; [eapply Sees_key; exact HG|]. intros _. split; cbn.
             ++ exists (es1 ++ [(Some c, sv v, d)]). split; [exact Es'|]. split; [left; rewrite app_length, keys_snoc; cbn; lia|].
                intros n. rewrite Exists_app. rewrite Hs. split.
                ** intros [<-|?]; [|auto]. right. left. exists c. auto.
                ** intros [?|H]; [auto|]. apply Exists_cons in H as [(c' & Hc & <-)|H]; [cbn in Hc; injection Hc as <-; auto|inversion H].
             ++ intros s. rewrite Waiting_key. split.
                ** intros [= <-]. eauto.
                ** intros [(c0 & HG')|[No _]]; [destruct (T _ _ HG') as (_ & -> & _); reflexivity|destruct (No _ _ HG)].
        * injection H as <- <-. split; [eapply Sees_no_name; eassumption|]. intros []. reflexivity.
    - rewrite Hvalue in H. unfold gnext_value in H. destruct (ma_value a) as [v|] eqn:EV; injection H as <- <-.
      + split; [apply Sees_value, HW; reflexivity|]. intros _. split; cbn.
        * exists es1. split; [exact E|]. rewrite keys_snoc. auto.
        * intros s. split; [discriminate|]. intros W. destruct (Waiting_value _ _ _ W).
      + split; [|intros []; reflexivity]. apply Sees_nothing. intros s W. apply HW in W. discriminate.
    - injection H as <- <-. split.
      + replace (length (ma_rest a)) with (length es - keys h); [constructor|]. rewrite E, app_length, map_length.
        destruct HL as [->|[-> HL]]; cbn; lia.
      + intros _. split; [exists es1; rewrite keys_snoc; auto|]. intros s. rewrite HW, Waiting_size. reflexivity.
  Qed.
  Lemma run_sees es h' : forall h a, Inv es h a -> forall i x, nth_error (run next_key next_value h' a) i = Some x ->
    exists o, nth_error h' i = Some o /\ Sees es (h ++ firstn i h') o x.
  Proof.
    induction h' as [|o h' IH]; intros h a HI i x H; [destruct i; discriminate|]. cbn [run] in H.
    destruct (call_op next_key next_value o a) as [y a'] eqn:E. destruct (step_inv _ _ _ _ _ _ HI E) as [HS HI'].
    destruct i as [|i].
    - assert (y = x) as <- by (destruct y; injection H as <-; reflexivity). exists o. rewrite app_nil_r. auto.
    - assert (Hy : y <> OPanic) by (intros ->; destruct i; discriminate).
      assert (H' : nth_error (run next_key next_value h' a') i = Some x) by (destruct y; try exact H; contradiction).
      destruct (IH _ _ (HI' Hy) i x H') as (o' & Ho' & HS'). exists o'. split; [exact Ho'|]. rewrite <- app_assoc in HS'. exact HS'.
  Qed.
  Lemma Inv_new l : Inv (map off l) [] (access_new l).
  Proof.
    split.
    - exists []. cbn. split; [reflexivity|]. split; [auto|]. intros n. split; [intros []|intros H; inversion H].
    - intros s. split; [discriminate|]. intros (h1 & h2 & c & E & _). destruct h1; discriminate.
  Qed.
End Machine.

(* the attributes and blocks of a body, as the access keeps them *)
Definition body_offer (kv : cow * body_value) : offer :=
  match snd kv with
  | BVExpr e => (Some (fst kv), SExpr e, ODup (EBodyDuplicateKey (cow_str (fst kv))))
  | BVBlock b => (Some (fst kv), SBlock b, OPanic)
  end.
Lemma body_offers ord b : Order ord -> BodyOffers b (map body_offer (build_map_access_iter ord b)).
Proof.
  intros Ho. unfold build_map_access_iter. rewrite map_app, !map_map. exists (ord (blocks_new (blocks_of b))). split.
  - f_equal. induction b as [|[n e|t ls bd] b IH]; cbn; [reflexivity| |exact IH]. f_equal. exact IH.
  - destruct (C85_new (blocks_of b) (ord (blocks_new (blocks_of b)))) as (HD & HT & HR).
    { apply (ROB _ (ord (blocks_new (blocks_of b)))); [apply Ho|]. induction (ord (blocks_new (blocks_of b))) as [|x l IH]; constructor; [|exact IH]. split; [reflexivity|apply Reorder_refl]. }
    rewrite <- blocks_list. split; [exact HD|]. split.
    + intros t. rewrite <- HT. split.
      * intros H. apply in_map_iff in H as ([k x] & E & H). exists k, x. auto.
      * intros (k & x & H & E). apply in_map_iff. exists (k, x). auto.
    + intros t x H. destruct (HR t x H) as (r & HL & HB). exists r. split; [|exact HB]. destruct HL as (l1 & l2 & E & Hne & Ht & H1 & H2).
      apply (LR _ _ _ l1 l2); try assumption.
Qed.

Lemma object_key_eq a : object_next_key a = gnext_key object_offer a.
Proof. unfold object_next_key, gnext_key, object_offer. destruct (ma_rest a) as [|[[c|c] v] rest]; reflexivity. Qed.
Lemma object_value_eq a : object_next_value a = gnext_value SExpr a.
Proof. reflexivity. Qed.
Lemma object_off k v : snd (fst (object_offer (k, v))) = SExpr v.
Proof. destruct k; reflexivity. Qed.
Lemma body_key_eq a : body_next_key a = gnext_key body_offer a.
Proof. unfold body_next_key, gnext_key, body_offer. destruct (ma_rest a) as [|[c [e|b]] rest]; reflexivity. Qed.
Lemma body_value_eq a : body_next_value a = gnext_value val_src a.
Proof. unfold body_next_value, gnext_value. destruct (ma_value a) as [[e|b]|]; reflexivity. Qed.
Lemma body_off k v : snd (fst (body_offer (k, v))) = val_src v.
Proof. destruct v; reflexivity. Qed.

(** ** Any sequence of calls *)
Theorem C87_object_calls : forall l h i x, nth_error (object_run l h) i = Some x ->
  exists o, nth_error h i = Some o /\ Sees (map object_offer l) (firstn i h) o x.
Proof.
  intros l h i x H. eapply (run_sees object_offer SExpr object_off _ _ object_key_eq object_value_eq _ h []); [apply Inv_new|exact H].
Qed.
Theorem C87_body_calls : forall ord b, Order ord -> exists es, BodyOffers b es /\
  forall h i x, nth_error (body_run ord b h) i = Some x ->
  exists o, nth_error h i = Some o /\ Sees es (firstn i h) o x.
Proof.
  intros ord b Ho. exists (map body_offer (build_map_access_iter ord b)). split; [apply body_offers, Ho|]. intros h i x H.
  eapply (run_sees body_offer val_src body_off _ _ body_key_eq body_value_eq _ h []); [apply Inv_new|exact H].
Qed.
(** Every call is answered, up to the first panic. *)
Theorem C87_answered : forall l ord b h,
  (length (object_run l h) = length h \/ (length (object_run l h) <= length h /\ exists o, object_run l h = o ++ [OPanic])) /\
  (length (body_run ord b h) = length h \/ (length (body_run ord b h) <= length h /\ exists o, body_run ord b h = o ++ [OPanic])).
Proof.
  intros l ord b h. split.
  - apply run_length.
  - apply run_length.
Qed.

(** ** Asking in turn *)
Fixpoint turns (n : nat) : list op := match n with 0 => [NextKey] | S n => NextKey :: NextValue :: turns n end.
Definition is_entry (st : mstep) : bool := match st with MEntry _ _ => true | _ => false end.
Definition entries_of (l : list mstep) : nat := length (filter is_entry l).
(* what a client asking in turn sees, when the steps of Serde.v are [l] *)
Fixpoint turns_see (l : list mstep) : list obs :=
  match l with
  | [] => [OEnd]
  | MEntry c s :: l' => OKey c :: OVal s :: turns_see l'
  | MDuplicate e :: _ => [ODup e]
  | MPanic :: _ => [OPanic]
  end.
Lemma object_turns l : forall seen, run object_next_key object_next_value (turns (entries_of (object_steps seen l))) (mk_access l None seen) = turns_see (object_steps seen l).
Proof.
  induction l as [|[[c|c] e] l IH]; intros seen; [reflexivity| |reflexivity]. cbn [object_steps].
  destruct (seen_mem (cow_str c) seen) eqn:E.
  - cbn [entries_of filter is_entry length turns run call_op turns_see]. unfold object_next_key. cbn [ma_rest ma_seen]. rewrite E. reflexivity.
  - change (entries_of (MEntry c (SExpr e) :: object_steps (cow_str c :: seen) l)) with (S (entries_of (object_steps (cow_str c :: seen) l))).
    cbn [turns run call_op turns_see]. unfold object_next_key at 1. cbn [ma_rest ma_seen]. rewrite E. cbn [object_next_value ma_value ma_rest ma_seen]. f_equal. f_equal. apply IH.
Qed.
Lemma body_turns l : forall seen, run body_next_key body_next_value (turns (entries_of (body_steps seen l))) (mk_access l None seen) = turns_see (body_steps seen l).
Proof.
  induction l as [|[c v] l IH]; intros seen; [reflexivity|]. cbn [body_steps]. destruct (seen_mem (cow_str c) seen) eqn:E.
  - destruct v; cbn [entries_of filter is_entry length turns run call_op turns_see]; unfold body_next_key; cbn [ma_rest ma_seen]; rewrite E; reflexivity.
  - assert (EE : forall s, entries_of (MEntry c s :: body_steps (cow_str c :: seen) l) = S (entries_of (body_steps (cow_str c :: seen) l))) by reflexivity.
    destruct v; rewrite EE; cbn [turns run call_op turns_see]; unfold body_next_key at 1; cbn [ma_rest ma_seen]; rewrite E; cbn [body_next_value ma_value ma_rest ma_seen];
      f_equal; f_equal; apply IH.
Qed.
(** The calls that [Serde.v]'s visitors make are those of such a client. *)
Theorem C87_in_turn : forall l ord b,
  object_run l (turns (entries_of (object_steps [] l))) = turns_see (object_steps [] l) /\
  body_run ord b (turns (entries_of (body_steps [] (build_map_access_iter ord b)))) = turns_see (body_steps [] (build_map_access_iter ord b)).
Proof. intros l ord b. split; [apply object_turns|apply body_turns]. Qed.
Lemma in_turn_length done es out : InTurn done es out -> exists n, length out = S (2 * n).
Proof. induction 1 as [|done c s d es out _ _ (n & IH)| |]; [exists 0|exists (S n)|exists 0|exists 0]; cbn in *; lia. Qed.
Section Turn.
  Context {K V : Type}.
  Variables (off : K * V -> offer) (sv : V -> src).
  Hypothesis off_sv : forall k v, snd (fst (off (k, v))) = sv v.
  Variable next_key next_value : access K V -> obs * access K V.
  Hypothesis Hkey : forall a, next_key a = gnext_key off a.
  Hypothesis Hvalue : forall a, next_value a = gnext_value sv a.
  Hypothesis off_dup : forall k v, match snd (off (k, v)) with ODup _ | OPanic => True | _ => False end.
  Lemma run_turn l : forall done seen, (forall n, In n seen <-> Exists (named n) done) ->
    exists n out, InTurn done (map off l) out /\ length out = S (2 * n) /\ run next_key next_value (turns n) (mk_access l None seen) = out.
  Proof.
    induction l as [|[k v] l IH]; intros done seen Hs.
    - exists 0, [OEnd]. split; [constructor|]. split; [reflexivity|]. cbn [turns run call_op]. rewrite Hkey. reflexivity.
    - pose proof (off_sv k v) as Hsv. pose proof (off_dup k v) as Hd. cbn [map]. destruct (off (k, v)) as [[[c|] s] d] eqn:EO; cbn in Hsv, Hd; subst s.
      + destruct (seen_mem (cow_str c) seen) eqn:EM.
        * exists 0, [d]. split; [apply IT_again, Hs, seen_mem_in, EM|]. split; [reflexivity|]. cbn [turns run call_op]. rewrite Hkey.
          unfold gnext_key. cbn [ma_rest ma_seen]. rewrite EO, EM. destruct d; try contradiction; reflexivity.
        * destruct (IH (done ++ [(Some c, sv v, d)]) (cow_str c :: seen)) as (n & out & HT & HL & HR).
          { intros x. rewrite Exists_app. cbn [In]. rewrite Hs. split.
            - intros [<-|?]; [|auto]. right. left. exists c. auto.
            - intros [?|H]; [auto|]. apply Exists_cons in H as [(c' & Hc & <-)|H]; [cbn in Hc; injection Hc as <-; auto|inversion H]. }
          exists (S n), (OKey c :: OVal (sv v) :: out). split; [|split].
          -- apply IT_entry; [rewrite <- Hs; apply seen_mem_out, EM|exact HT].
          -- cbn in *. lia.
          -- cbn [turns run call_op]. rewrite Hkey. unfold gnext_key. cbn [ma_rest ma_seen]. rewrite EO, EM. rewrite Hvalue. unfold gnext_value. cbn [ma_value ma_rest ma_seen].
             rewrite HR. reflexivity.
      + exists 0, [OPanic]. split; [constructor|]. split; [reflexivity|]. cbn [turns run call_op]. rewrite Hkey. unfold gnext_key. cbn [ma_rest]. rewrite EO. reflexivity.
  Qed.
End Turn.
Lemma InTurn_fun done es out out' : InTurn done es out -> InTurn done es out' -> out = out'.
Proof. intros H. revert out'. induction H as [|done c s d es out Hn _ IH|done c s d es Hx|]; intros out' H'; inversion H'; subst; try contradiction; try reflexivity. f_equal. f_equal. auto. Qed.
(** Asked in turn, an object and a body give what the specification says. *)
Theorem C87_in_turn_object : forall l out, InTurn [] (map object_offer l) out -> object_run l (turns (Nat.div2 (length out))) = out.
Proof.
  intros l out H. destruct (run_turn object_offer SExpr object_off _ _ object_key_eq object_value_eq) with (l := l) (done := @nil offer) (seen := @nil str) as (n & out' & HT & HL & HR).
  - intros [c|c] v; exact I.
  - intros n. split; [intros []|intros H0; inversion H0].
  - rewrite (InTurn_fun _ _ _ _ H HT), HL. rewrite Nat.div2_succ_double. exact HR.
Qed.
Theorem C87_in_turn_body : forall ord b, Order ord -> exists es out, BodyOffers b es /\ InTurn [] es out /\
  body_run ord b (turns (Nat.div2 (length out))) = out.
Proof.
  intros ord b Ho. destruct (run_turn body_offer val_src body_off _ _ body_key_eq body_value_eq) with (l := build_map_access_iter ord b) (done := @nil offer) (seen := @nil str) as (n & out & HT & HL & HR).
  - intros c [e|x]; exact I.
  - intros n. split; [intros []|intros H0; inversion H0].
  - exists (map body_offer (build_map_access_iter ord b)), out. split; [apply body_offers, Ho|]. split; [exact HT|]. rewrite HL, Nat.div2_succ_double. exact HR.
Qed.
(** In particular such a client never makes the access panic by asking for a value: if a
    panic is seen, it is a key that is not an identifier or a block type that is also
    an attribute. *)
Print Assumptions C87_determined.
Print Assumptions C87_object_calls.
Print Assumptions C87_body_calls.
Print Assumptions C87_answered.
Print Assumptions C87_in_turn.
Print Assumptions C87_in_turn_object.
Print Assumptions C87_in_turn_body.

Definition obj87 : list (okey * expr) :=
  [(KIdent (Borrowed (lit "a")), EBool true); (KIdent (Borrowed (lit "a")), ENull); (KIdent (Borrowed (lit "b")), EBool false)].
(** A duplicate between: the value of the first key still waits; skipping a value is
    allowed; asking twice panics. *)
Example C87_nonvacuous :
  object_run obj87 [SizeHint; NextKey; NextKey; SizeHint; NextValue; NextKey; NextKey; SizeHint; NextValue] =
    [OSize 3; OKey (Borrowed (lit "a")); ODup (EObjectDuplicateKey (lit "a")); OSize 1; OVal (SExpr (EBool true));
     OKey (Borrowed (lit "b")); OEnd; OSize 0; OVal (SExpr (EBool false))] /\
  object_run obj87 [NextValue; NextKey] = [OPanic] /\
  object_run obj87 [NextKey; NextValue; NextValue; NextKey] = [OKey (Borrowed (lit "a")); OVal (SExpr (EBool true)); OPanic].
Proof. repeat split. Qed.
(** A body with a repeated attribute and two types of blocks. *)
Example C87_body_nonvacuous : body_run (fun m => m)
    [Attr (Borrowed (lit "a")) (EBool true); Blk (Borrowed (lit "b")) [] []; Attr (Borrowed (lit "a")) ENull]
    [NextKey; NextValue; NextKey; NextKey; NextValue; NextKey] =
  [OKey (Borrowed (lit "a")); OVal (SExpr (EBool true)); ODup (EBodyDuplicateKey (lit "a")); OKey (Borrowed (lit "b")); OVal (SBlock (BBody [[]])); OEnd].
Proof. reflexivity. Qed.
