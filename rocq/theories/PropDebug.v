(** * PropDebug: C120, the text the tool writes determines the value *)
From Coq Require Import ZArith SpecFloat Lia.
From Verif Require Import Base NomFacts NumConv NumSpec NumProofs Utf8 IoSpec PropIo Kvp PropKvp Value ValueSpec ValueProofs OldParser ReachSpec VReachSpec PropVReach
  Cli PropCli Debug DebugSpec DebugProofs.
Close Scope Z_scope.
Open Scope N_scope.
Open Scope list_scope.

(** Different values have different texts, whatever the strings in them are. *)
Theorem C120_determines : forall printable short show p p',
  GoodFloatTexts show -> FloatsInMap (NotNaN 53 1024) p -> FloatsInMap (NotNaN 53 1024) p' ->
  debug_mapvalues printable short show p = debug_mapvalues printable short show p' -> p = p'.
Proof. intros printable short show p p' HS. apply debug_mapvalues_inj, HS. Qed.
Theorem C120_determines_value : forall printable short show v v',
  GoodFloatTexts show -> FloatsIn (NotNaN 53 1024) v -> FloatsIn (NotNaN 53 1024) v' ->
  debug_value printable short show v = debug_value printable short show v' -> v = v'.
Proof. intros printable short show p p' HS. apply debug_value_inj, HS. Qed.

(** ** What parsing returns *)
Definition Fine (v : value) : Prop := FloatsIn (NotNaN 53 1024) v /\ StringsIn IsStr v.
Definition FineMap (p : mapvalues) : Prop := FloatsInMap (NotNaN 53 1024) p /\ StringsInMap IsStr p.
Lemma fine_entries p : Forall (fun kv => IsStr (key_chars (fst kv)) /\ Fine (snd kv)) (entries p) -> FineMap p.
Proof. intros H. split; constructor; (eapply Forall_impl; [|exact H]); intros [k v] (Hk & Hf & Hs); auto. Qed.
Lemma fine_block b : Forall (fun kv => Forall IsStr (fst kv) /\ FineMap (snd kv)) (entries b) -> Fine (VBlock b).
Proof. intros H. split; constructor; (eapply Forall_impl; [|exact H]); intros [k v] (Hk & Hf & Hs); auto. Qed.
Lemma fine_list l : Forall Fine l -> Fine (VList l).
Proof. intros H. split; constructor; (eapply Forall_impl; [|exact H]); intros v (Hf & Hs); auto. Qed.
Lemma fine_object l : Forall FineMap l -> Fine (VObject l).
Proof. intros H. split; constructor; (eapply Forall_impl; [|exact H]); intros v (Hf & Hs); auto. Qed.
Lemma rkey_str U k : RKey U k -> IsStr (key_chars k).
Proof. intros [t [_ H]|s H]; exact H. Qed.
Lemma reach_fine U :
  (forall v, (RValue U v -> Fine v) /\ (forall k, REntry U (k, v) -> IsStr (key_chars k) /\ Fine v) /\
     (MValue U v -> Fine v) /\ (forall k, MEntry U (k, v) -> IsStr (key_chars k) /\ Fine v)) /\
  (forall p, (forall l, p = Unmerged l -> Forall (REntry U) l -> FineMap p) /\ (MMap U p -> FineMap p)).
Proof.
  assert (SC : forall v, (RValue U v -> Fine v) -> (MValue U v -> Fine v) -> (forall l, v <> VObject l) -> (forall b, v <> VBlock b) ->
    (RValue U v -> Fine v) /\ (forall k, REntry U (k, v) -> IsStr (key_chars k) /\ Fine v) /\
     (MValue U v -> Fine v) /\ (forall k, MEntry U (k, v) -> IsStr (key_chars k) /\ Fine v)).
  { intros v HR HM Ho Hb. split; [exact HR|]. split; [|split; [exact HM|]]; intros k H.
    - inversion H as [k0 v0 Hk Hv|t ls l Ht Hls Hs Hl]; subst; [split; [eapply rkey_str, Hk|auto]|elim (Hb _ eq_refl)].
    - inversion H as [k0 v0 Hk Hv|k0 ps Hk Hn Hp|t bs Ht Hn Hd Hf]; subst; [split; [eapply rkey_str, Hk|auto]|elim (Ho _ eq_refl)|elim (Hb _ eq_refl)]. }
  apply value_map_ind.
  - apply SC; try discriminate; intros _; (split; constructor).
  - intros i. apply SC; try discriminate; intros _; (split; constructor).
  - intros f. apply SC; try discriminate; intros H; inversion H; subst; (split; constructor; assumption).
  - intros b. apply SC; try discriminate; intros _; (split; constructor).
  - intros s. apply SC; try discriminate; intros H; inversion H; subst; (split; constructor; assumption).
  - intros l IH. apply SC; try discriminate; intros H; inversion H as [| | | | |l' HF|]; subst; apply fine_list; rewrite Forall_forall in *; intros x Hx; destruct (IH x Hx) as (H1 & _ & H3 & _); auto.
  - intros l IH.
    assert (HR : RValue U (VObject l) -> Fine (VObject l)).
    { intros H. inversion H as [| | | | | |l' HF]; subst. apply fine_object. constructor; [|constructor]. inversion IH as [|? ? [Hp _] _]; subst. apply (Hp l'); auto. }
    assert (HM : Forall (MMap U) l -> Fine (VObject l)).
    { intros HF. apply fine_object. rewrite Forall_forall in *. intros x Hx. apply (IH x Hx), (HF x Hx). }
    split; [exact HR|]. split; [|split].
    + intros k H. inversion H as [k0 v0 Hk Hv|]; subst. split; [eapply rkey_str, Hk|auto].
    + intros H. inversion H as [| | | | | |p HF]; subst. apply HM. auto.
    + intros k H. inversion H as [k0 v0 Hk Hv|k0 ps Hk Hn Hp|]; subst; (split; [eapply rkey_str, Hk|]); [inversion Hv; subst|]; apply HM; auto.
  - intros b IH. split; [intros H; inversion H|]. split; [|split; [intros H; inversion H|]].
    + intros k H. inversion H as [k0 v0 Hk Hv|t ls l [_ Ht] Hls Hs Hl]; subst; [inversion Hv|]. split; [exact Ht|]. apply fine_block. cbn [entries] in *. inversion IH as [|? ? [Hp _] _]; subst.
      constructor; [|constructor]. split; [exact Hs|]. apply (Hp l); auto.
    + intros k H. inversion H as [k0 v0 Hk Hv|k0 ps Hk Hn Hp|t bs [_ Ht] Hn Hd Hf]; subst; [inversion Hv|]. split; [exact Ht|]. apply fine_block. cbn [entries] in *. rewrite Forall_forall in *.
      intros x Hx. destruct (Hf x Hx) as (_ & H1 & H2). split; [exact H1|]. apply (IH x Hx), H2.
  - intros p IH. split.
    + intros l -> HF. apply fine_entries. cbn [entries] in *. rewrite Forall_forall in *. intros [k v] Hx. destruct (IH (k, v) Hx) as (_ & H2 & _ & H4). specialize (HF _ Hx). cbn [fst snd] in *. auto.
    + intros H. inversion H as [m Hd HF]; subst. apply fine_entries. cbn [entries] in *. rewrite Forall_forall in *. intros [k v] Hx. destruct (IH (k, v) Hx) as (_ & H2 & _ & H4). specialize (HF _ Hx). cbn [fst snd] in *. auto.
Qed.
Lemma extend_in {K V} (e : K -> K -> bool) (He : Eqb e) (l m : list (K * V)) : hm_extend e [] l m -> forall x, In x m -> In x l.
Proof.
  intros H [k v] Hx. apply (hm_extend_spec e He) in H as [_ H]; [|constructor]. apply H in Hx as (l1 & l2 & E & _). change (l = l1 ++ (k, v) :: l2) in E. rewrite E. apply in_app_iff. right. left. reflexivity.
Qed.
Lemma owned_fine : (forall v r, v_as_owned v r -> Fine v -> Fine r) /\ (forall p r, m_as_owned p r -> FineMap p -> FineMap r).
Proof.
  assert (HL : forall (A B : Type) (R : A -> B -> Prop) (P : A -> Prop) (Q : B -> Prop) l l', Forall2 R l l' -> (forall a b, In a l -> R a b -> P a -> Q b) -> Forall P l -> Forall Q l').
  { intros A B R P Q l l' HF H HP. induction HF as [|a b l l' Hab _ IHF]; [constructor|]. inversion HP; subst. constructor; [eapply H; [left; reflexivity|exact Hab|assumption]|]. apply IHF; [|assumption]. intros; eapply H; [right; eassumption|eassumption|assumption]. }
  apply value_map_ind.
  1-5: intros; match goal with H : v_as_owned _ _ |- _ => inversion H; subst; assumption end.
  - intros l IH r H [HF HS]. inversion H; subst. inversion HF; inversion HS; subst. apply fine_list. eapply (HL _ _ _ Fine); [eassumption| |].
    + intros a b Ha Hab Hf. rewrite Forall_forall in IH. eapply IH; eassumption.
    + rewrite Forall_forall in *. intros x Hx. split; auto.
  - intros l IH r H [HF HS]. inversion H; subst. inversion HF; inversion HS; subst. apply fine_object. eapply (HL _ _ _ FineMap); [eassumption| |].
    + intros a b Ha Hab Hf. rewrite Forall_forall in IH. eapply IH; eassumption.
    + rewrite Forall_forall in *. intros x Hx. split; auto.
  - intros b IH r H [HF HS]. inversion HF as [| | | | | | |? HF']; inversion HS as [| | | | | | |? HS']; subst.
    assert (G : forall l', Forall2 (fun a c : list str * mapvalues => fst c = fst a /\ m_as_owned (snd a) (snd c)) (entries b) l' -> Forall (fun kv => Forall IsStr (fst kv) /\ FineMap (snd kv)) l').
    { intros l' H2. eapply (HL _ _ _ (fun kv => Forall IsStr (fst kv) /\ FineMap (snd kv))); [exact H2| |].
      - intros a c Ha [E Hac] [Hk Hf]. rewrite E. split; [exact Hk|]. rewrite Forall_forall in IH. eapply IH; eassumption.
      - rewrite Forall_forall in *. intros x Hx. destruct (HS' x Hx). split; [assumption|]. split; auto. }
    inversion H as [| | | | | | |l l' H2|l l' m H2 HX]; subst; apply fine_block; cbn [entries] in *; [apply G, H2|].
    specialize (G _ H2). rewrite Forall_forall in *. intros x Hx. apply G. eapply extend_in; [apply labels_eqb_eq|exact HX|exact Hx].
  - intros b IH r H [HF HS]. inversion HF as [? HF']; inversion HS as [? HS']; subst.
    assert (G : forall l', Forall2 (fun a c : key * value => fst c = key_as_owned (fst a) /\ v_as_owned (snd a) (snd c)) (entries b) l' -> Forall (fun kv => IsStr (key_chars (fst kv)) /\ Fine (snd kv)) l').
    { intros l' H2. eapply (HL _ _ _ (fun kv => IsStr (key_chars (fst kv)) /\ Fine (snd kv))); [exact H2| |].
      - intros a c Ha [E Hac] [Hk Hf]. rewrite E, key_as_owned_id. split; [exact Hk|]. rewrite Forall_forall in IH. eapply IH; eassumption.
      - rewrite Forall_forall in *. intros x Hx. destruct (HS' x Hx). split; [assumption|]. split; auto. }
    inversion H as [l l' H2|l l' m H2 HX]; subst; apply fine_entries; cbn [entries] in *; [apply G, H2|].
    specialize (G _ H2). rewrite Forall_forall in *. intros x Hx. apply G. eapply extend_in; [apply key_eqb_eq|exact HX|exact Hx].
Qed.
(** Everything the tool parses has floats of the format, and strings of characters *)
Lemma parses_fine U S w input no_merge m : Parses U S w input no_merge m -> FineMap m.
Proof.
  intros (b & s & _ & Hs & _ & m0 & H & Ho). apply (proj2 owned_fine m0 m Ho). destruct no_merge; cbn [behaviour] in H.
  - destruct (proj1 (C114_values U m0)) as (l & E & HF); [eauto|]. exact (proj1 (proj2 (reach_fine U) m0) l E HF).
  - apply (proj2 (proj2 (reach_fine U) m0)), C114_merged. eauto.
Qed.
Lemma parses_shape U S w input no_merge m : Parses U S w input no_merge m -> if no_merge then exists l, m = Unmerged l else exists l, m = Merged l.
Proof.
  intros (b & s & _ & Hs & _ & m0 & H & Ho). destruct no_merge; cbn [behaviour] in H.
  - destruct (proj1 (C114_values U m0)) as (l & -> & HF); [eauto|]. inversion Ho; subst. eauto.
  - assert (HM : MMap U m0) by (apply C114_merged; eauto). inversion HM; subst. inversion Ho; subst. eauto.
Qed.

(** ** The text is made of characters *)
Lemma is_app a b : IsStr a -> IsStr b -> IsStr (a ++ b).
Proof. intros H H'. apply Forall_app. auto. Qed.
Lemma is_flat {A} (f : A -> str) l : Forall (fun x => IsStr (f x)) l -> IsStr (flat_map f l).
Proof. induction 1; [constructor|]. apply is_app; assumption. Qed.
Lemma is_ascii s : forallb (fun c => c <? 128) s = true -> IsStr s.
Proof. intros H. rewrite forallb_forall in H. apply Forall_forall. intros c Hc. apply H, N.ltb_lt in Hc. unfold valid_char. destruct (N.ltb_spec c 55296); [reflexivity|lia]. Qed.
Lemma is_pad s : forall b, IsStr s -> IsStr (pad b s).
Proof.
  induction s as [|c s IH]; intros b H; [constructor|]. inversion H; subst. cbn [pad]. apply is_app; [destruct b; apply is_ascii; reflexivity|]. constructor; [assumption|]. apply IH. assumption.
Qed.
Ltac asc := apply is_ascii; reflexivity.
Lemma is_field f : IsStr f -> IsStr (pad true (f ++ lit "," ++ [c_lf])).
Proof. intros H. apply is_pad, is_app; [exact H|asc]. Qed.
Lemma is_tuple name l : IsStr name -> Forall IsStr l -> IsStr (debug_tuple name l).
Proof. intros Hn H. unfold debug_tuple. apply is_app; [exact Hn|]. apply is_app; [asc|]. apply is_app; [asc|]. apply is_app; [|asc]. apply is_flat. eapply Forall_impl; [|exact H]. intros f. apply is_field. Qed.
Lemma is_list l : Forall IsStr l -> IsStr (debug_list l).
Proof. intros H. unfold debug_list. apply is_app; [asc|]. apply is_app; [destruct l; asc|]. apply is_app; [|asc]. apply is_flat. eapply Forall_impl; [|exact H]. intros f. apply is_field. Qed.
Lemma is_map l : Forall (fun kv => IsStr (fst kv) /\ IsStr (snd kv)) l -> IsStr (debug_map l).
Proof.
  intros H. unfold debug_map. apply is_app; [asc|]. apply is_app; [destruct l; asc|]. apply is_app; [|asc]. apply is_flat. eapply Forall_impl; [|exact H].
  intros [k v] [Hk Hv]. apply is_pad, is_app; [exact Hk|]. apply is_app; [asc|]. apply is_app; [exact Hv|asc].
Qed.
Lemma is_small (c : N) : c < 128 -> valid_char c = true.
Proof. intros H. unfold valid_char. destruct (N.ltb_spec c 55296); [reflexivity|lia]. Qed.
Section Chars.
Context (printable short : N -> bool) (show : spec_float -> str) (HS : GoodFloatTexts show).
Lemma is_str s : IsStr s -> IsStr (debug_str printable short s).
Proof.
  intros H. unfold debug_str. apply is_app; [asc|]. apply is_app; [|asc]. apply is_flat. eapply Forall_impl; [|exact H]. intros c Hc. unfold escape_debug.
  repeat match goal with |- IsStr (if ?b then _ else _) => destruct b; [try asc|] end; [constructor; [exact Hc|constructor]|].
  apply is_app; [asc|]. apply is_app; [|asc]. apply Forall_forall. intros d Hd. apply (proj2 (proj2 (hex_str_value c))) in Hd. apply is_small. lia.
Qed.
Lemma is_key k : IsStr (key_chars k) -> IsStr (debug_key printable short k).
Proof. intros H. destruct k; (apply is_tuple; [asc|]; constructor; [apply is_str, H|constructor]). Qed.
Lemma is_kvp {K V} (dk : K -> str) (dv : V -> str) p : Forall (fun kv => IsStr (dk (fst kv)) /\ IsStr (dv (snd kv))) (entries p) -> IsStr (debug_kvp dk dv p).
Proof.
  intros H. destruct p as [m|l]; cbn [debug_kvp entries] in *; (apply is_tuple; [asc|]; constructor; [|constructor]); [apply is_map|apply is_list]; apply Forall_map; (eapply Forall_impl; [|exact H]); intros kv [H1 H2]; cbn beta; [auto|].
  apply is_tuple; [constructor|]. repeat constructor; assumption.
Qed.
Lemma is_int z : IsStr (int_to_string z).
Proof. apply Forall_forall. intros c Hc. apply (int_chars printable short) in Hc. apply is_small. lia. Qed.
Lemma is_values : (forall v, Fine v -> IsStr (debug_value printable short show v)) /\ (forall p, FineMap p -> IsStr (debug_mapvalues printable short show p)).
Proof.
  apply value_map_ind.
  - intros _. asc.
  - intros i _. apply is_tuple; [asc|]. constructor; [apply is_int|constructor].
  - intros f [H _]. inversion H as [| |? Hf| | | | |]; subst. apply is_tuple; [asc|]. constructor; [|constructor]. apply Forall_forall. intros c Hc. apply (proj2 HS) in Hf as [_ Hf]. apply Hf, Hc.
  - intros b _. destruct b; asc.
  - intros s [_ H]. inversion H; subst. apply is_tuple; [asc|]. constructor; [|constructor]. apply is_str. assumption.
  - intros l IH [HF HI]. inversion HF; inversion HI; subst. apply is_tuple; [asc|]. constructor; [|constructor]. apply is_list, Forall_map. rewrite Forall_forall in *. intros x Hx. apply (IH x Hx). split; auto.
  - intros l IH [HF HI]. inversion HF; inversion HI; subst. apply is_tuple; [asc|]. constructor; [|constructor]. apply is_list, Forall_map. rewrite Forall_forall in *. intros x Hx. apply (IH x Hx). split; auto.
  - intros b IH [HF HI]. inversion HF as [| | | | | | |? HF']; inversion HI as [| | | | | | |? HI']; subst. apply is_tuple; [asc|]. constructor; [|constructor]. apply is_kvp. rewrite Forall_forall in *. intros x Hx.
    destruct (HI' x Hx) as [Hk Hm]. split; [apply is_list, Forall_map; eapply Forall_impl; [|exact Hk]; intros s; apply is_str|]. apply (IH x Hx). split; auto.
  - intros b IH [HF HI]. inversion HF as [? HF']; inversion HI as [? HI']; subst. apply is_kvp. rewrite Forall_forall in *. intros x Hx.
    destruct (HI' x Hx) as [Hk Hm]. split; [apply is_key, Hk|]. apply (IH x Hx). split; auto.
Qed.
End Chars.
(** What a run that exits with 0 wrote: to standard output, or into the output file *)
Definition Wrote (S : system) (w : world) (output : str) (w2 : world) (bytes : list N) : Prop :=
  (output = lit "-" -> stdout w2 = stdout w ++ bytes) /\ (output <> lit "-" -> files w2 (resolve S output) = Some bytes).
(** Two runs of the tool that wrote the same bytes were given the same [--no-merge], and
    read documents with one and the same value. *)
Theorem C120_same_output : forall U printable short show msg S w input output no_merge w2 S' w' input' output' no_merge' w2' bytes,
  GoodFloatTexts show ->
  cli U (debug_mapvalues printable short show) msg S w input output no_merge w2 0 -> Wrote S w output w2 bytes ->
  cli U (debug_mapvalues printable short show) msg S' w' input' output' no_merge' w2' 0 -> Wrote S' w' output' w2' bytes ->
  no_merge = no_merge' /\ exists m, Parses U S w input no_merge m /\ Parses U S' w' input' no_merge' m.
Proof.
  intros U printable short show msg S w input output no_merge w2 S' w' input' output' no_merge' w2' bytes HS H HW H' HW'.
  assert (K : forall S w input output no_merge w2, cli U (debug_mapvalues printable short show) msg S w input output no_merge w2 0 -> Wrote S w output w2 bytes ->
    exists m, Parses U S w input no_merge m /\ bytes = utf8 (debug_mapvalues printable short show m ++ [10])).
  { clear - HS. intros S w input output no_merge w2 H [HW1 HW2]. apply C72_success in H as (m & Hm & H1 & H2). exists m. split; [exact Hm|].
    destruct (list_eq_dec N.eq_dec output (lit "-")) as [E|E].
    - destruct (H1 E) as [H _]. rewrite (HW1 E) in H. eapply app_inv_head, H.
    - destruct (H2 E) as [H _]. rewrite (HW2 E) in H. congruence. }
  destruct (K _ _ _ _ _ _ H HW) as (m & Hm & E). destruct (K _ _ _ _ _ _ H' HW') as (m' & Hm' & E').
  pose proof (parses_fine _ _ _ _ _ _ Hm) as F. pose proof (parses_fine _ _ _ _ _ _ Hm') as F'.
  assert (J : IsStr (debug_mapvalues printable short show m ++ [10])) by (apply is_app; [exact (proj2 (is_values printable short show HS) _ F)|apply is_ascii; reflexivity]).
  assert (J' : IsStr (debug_mapvalues printable short show m' ++ [10])) by (apply is_app; [exact (proj2 (is_values printable short show HS) _ F')|apply is_ascii; reflexivity]).
  assert (ET : debug_mapvalues printable short show m = debug_mapvalues printable short show m').
  { apply from_utf8_complete in J. apply from_utf8_complete in J'. rewrite <- E in J. rewrite <- E' in J'. rewrite J in J'. injection J' as J'. apply app_inj_tail in J' as [-> _]. reflexivity. }
  apply C120_determines in ET; [|exact HS|apply F|apply F']. subst m'. split; [|eauto].
  apply parses_shape in Hm. apply parses_shape in Hm'. destruct no_merge, no_merge'; try reflexivity; destruct Hm as [l ->], Hm' as [l' El]; discriminate El.
Qed.
Print Assumptions C120_determines.
Print Assumptions C120_determines_value.
Print Assumptions C120_same_output.

(** ** Non-vacuity: float texts as required exist, and a printed value *)
Definition sign_text (s : bool) : str := lit (if s then "-" else "+").
Definition plain_float (f : spec_float) : str :=
  match f with
  | S754_zero s => sign_text s ++ lit "zero"
  | S754_infinity s => sign_text s ++ lit "inf"
  | S754_nan => lit "NaN"
  | S754_finite s m e => sign_text s ++ int_to_string (Zpos m) ++ lit "e" ++ int_to_string e
  end.
Local Opaque int_to_string.
Example C120_floats : GoodFloatTexts plain_float.
Proof.
  assert (HI : forall z c, In c (int_to_string z) -> c = 45 \/ 48 <= c <= 57) by (intros z c; apply (int_chars (fun _ => true) (fun _ => true))).
  assert (HN : forall z, exists h t, int_to_string z = h :: t /\ (h = 45 \/ 48 <= h <= 57)).
  { intros z. destruct (int_to_string z) as [|h t] eqn:E; [elim (int_nonempty z E)|]. exists h, t. split; [reflexivity|]. apply (HI z). rewrite E. left. reflexivity. }
  split.
  - assert (HX : forall s s' a b, sign_text s ++ a = sign_text s' ++ b -> s = s' /\ a = b).
    { intros [] [] a b E; try discriminate E; injection E as ->; auto. }
    assert (HZ : forall z r t, int_to_string z ++ r = t -> exists c t', t = c :: t' /\ (c = 45 \/ 48 <= c <= 57)).
    { intros z r t <-. destruct (HN z) as (h & u & -> & Hh). exists h, (u ++ r). auto. }
    assert (HB : forall z r t, lit "zero" = t \/ lit "inf" = t -> int_to_string z ++ r = t -> False).
    { intros z r t Ht E. apply HZ in E as (c & t' & E & Hc). destruct Ht as [Ht|Ht]; rewrite E in Ht; injection Ht as Ht _; lia. }
    assert (HNaN : forall s a, lit "NaN" = sign_text s ++ a -> False) by (intros [] a E; discriminate E).
    intros f g _ _ E. destruct f as [s|s| |s m e], g as [s'|s'| |s' m' e']; unfold plain_float in E; try reflexivity;
      try (apply HNaN in E; destruct E); try (symmetry in E; apply HNaN in E; destruct E); apply HX in E as [-> E]; try discriminate E; try reflexivity.
    1,2: symmetry in E; apply HB in E; [destruct E|auto].
    1,2: apply HB in E; [destruct E|auto].
    change (int_to_string (Z.pos m) ++ 101 :: int_to_string e = int_to_string (Z.pos m') ++ 101 :: int_to_string e') in E.
    apply (split_unique 101) in E as [E1 E2]; [|intros Hi; apply HI in Hi; lia|intros Hi; apply HI in Hi; lia].
    apply int_inj in E1. apply int_inj in E2. congruence.
  - intros f _. assert (HC : forall c, In c (plain_float f) -> c = 43 \/ c = 45 \/ 48 <= c <= 122).
    { intros c Hc. destruct f as [s|s| |s m e]; unfold plain_float in Hc; rewrite ?in_app_iff in Hc.
      - destruct s; cbn in Hc; intuition lia.
      - destruct s; cbn in Hc; intuition lia.
      - cbn in Hc. intuition lia.
      - destruct Hc as [Hc|[Hc|[Hc|Hc]]]; [destruct s; cbn in Hc; intuition lia|apply HI in Hc; lia|cbn in Hc; intuition lia|apply HI in Hc; lia]. }
    split; [destruct f as [[]|[]| |[] m e]; intros E; apply (f_equal (@List.hd N 0)) in E; discriminate E|]. intros c Hc. apply HC in Hc. repeat split; try lia. apply is_small. lia.
Qed.
Local Transparent int_to_string.
Definition C120_value : mapvalues :=
  Unmerged [(KeyIdent (lit "a"), VList []); (KeyIdent (lit "b"), VBlock (Unmerged [([lit "x"], Unmerged [(KeyString [10; 34], VInteger (-5))])]))].
Example C120_text : debug_mapvalues (fun c => 31 <? c) (fun _ => false) plain_float C120_value = lit
"Unmerged(
    [
        (
            Identifier(
                ""a"",
            ),
            List(
                [],
            ),
        ),
        (
            Identifier(
                ""b"",
            ),
            Block(
                Unmerged(
                    [
                        (
                            [
                                ""x"",
                            ],
                            Unmerged(
                                [
                                    (
                                        String(
                                            ""\n\"""",
                                        ),
                                        Integer(
                                            -5,
                                        ),
                                    ),
                                ],
                            ),
                        ),
                    ],
                ),
            ),
        ),
    ],
)".
Proof. vm_compute. reflexivity. Qed.
(** Without the indentation and the escapes this would fail: a string cannot imitate other values. *)
Example C120_strings : let d := debug_value (fun c => 31 <? c) (fun _ => false) plain_float in
  d (VList [VString (lit "a"",""b")]) <> d (VList [VString (lit "a"); VString (lit "b")]) /\ d (VString (lit "1")) <> d (VInteger 1) /\ d (VFloat (S754_zero true)) <> d (VFloat (S754_zero false)) /\
  FloatsIn (NotNaN 53 1024) (VFloat (S754_zero true)).
Proof. cbv zeta. split; [vm_compute; discriminate|]. split; [vm_compute; discriminate|]. split; [vm_compute; discriminate|]. constructor. left. exact I. Qed.
