(** * PropCli: C72-C74, the command line tool *)
From Verif Require Import Base Nom Lex Grammar Parser Utf8 IoSpec PropIo Kvp Value ValueSpec ValueProofs OldParser OldGrammar OldProofs PropOld Cli.

(** The bytes a run reads: standard input for "-", otherwise the file. *)
Inductive Source (S : system) (w : world) : str -> list N -> Prop :=
| Source_stdin b : Delivers (stdin S) b -> Source S w (lit "-") b
| Source_file path b : path <> lit "-" -> may_open S path = true -> files w (resolve S path) = Some b -> Source S w path b.
(** [--no-merge] *)
Definition behaviour (no_merge : bool) : option merge_behaviour := if no_merge then None else Some MBError.
(** The source parses to [m]. *)
Definition Parses (U : ucd) (S : system) (w : world) (input : str) (no_merge : bool) (m : mapvalues) : Prop :=
  exists b s, Source S w input b /\ IsStr s /\ b = utf8 s /\ exists m0, from_str U s (behaviour no_merge) (VOk m0) /\ m_as_owned m0 m.

Lemma read_parses U S w input ev no_merge m : input_reader S w input (Some ev) ->
  from_reader U ev (behaviour no_merge) (VOk m) -> Parses U S w input no_merge m.
Proof.
  intros Hi Hf. unfold from_reader, read_to_string in Hf. destruct (read_to_end ev) as [b|] eqn:Er; [|discriminate].
  destruct (from_utf8 b) as [s|] eqn:Eu; [|discriminate]. destruct Hf as (o1 & H1 & H2).
  destruct (from_utf8_sound _ _ _ (le_n _) Eu) as [Hs Hb]. exists b, s. split; [|split; [exact Hs|split; [exact Hb|]]].
  - inversion Hi as [E1 E2|path content ev' Hp Ho Hc Hd E1 E2|]; subst.
    + constructor. apply read_to_end_delivers. exact Er.
    + destruct Hd as [Hd|Hd].
      * apply read_to_end_delivers in Hd. rewrite Er in Hd. injection Hd as <-. constructor; assumption.
      * apply read_to_end_fails in Hd. congruence.
  - destruct o1 as [m0| | | |]; try discriminate H2. destruct H2 as (m' & Hm & E). injection E as <-. exists m0. split; assumption.
Qed.
Lemma read_outcome U ev mb : (exists o, from_reader U ev mb o) /\ ~ from_reader U ev mb VDiverges.
Proof.
  split; [apply C21_from_reader_total|]. unfold from_reader. destruct (read_to_string ev) as [b|]; [|discriminate].
  intros (o1 & H1 & H2). destruct o1 as [m| | | |]; try discriminate H2; [destruct H2 as (m' & _ & H2); discriminate|].
  exact (proj2 (C02_from_str_terminates U b mb) H1).
Qed.

(** ** C72: files are only written after the whole input was read and parsed *)
(** Exit code 0 means that the source parsed, and that the output, and nothing else, now
    holds the text of its value. *)
Theorem C72_success : forall U debug show S w input output no_merge w2,
  cli U debug show S w input output no_merge w2 0 ->
  exists m, Parses U S w input no_merge m /\
    (output = lit "-" -> stdout w2 = stdout w ++ utf8 (debug m ++ [10]) /\ forall f, files w2 f = files w f) /\
    (output <> lit "-" -> files w2 (resolve S output) = Some (utf8 (debug m ++ [10])) /\
       (forall f, f <> resolve S output -> files w2 f = files w f) /\ stdout w2 = stdout w).
Proof.
  intros U debug show S w input output no_merge w2 H. inversion H as [w1 r w2' code Hr Hf E1 E2]; subst. clear H.
  destruct r as [|e|]; cbn in Hf; try discriminate. injection Hf as <-.
  inversion Hr as [|ev m w' res Hi Hm Hw| |]; subst. exists m. split; [eapply read_parses; eassumption|].
  inversion Hw as [E1|n Hn E1 E2|path Hp Hc E1 E2|path Hp Hc E1 E2|path n Hp Hc Hn E1 E2]; subst.
  - split; [|congruence]. intros _. cbn. auto.
  - split; [congruence|]. intros _. cbn. rewrite N.eqb_refl. split; [reflexivity|]. split; [|reflexivity].
    intros f Hne. apply N.eqb_neq in Hne. rewrite Hne. reflexivity.
Qed.
(** If the source cannot be read or does not parse, no file is touched, and standard
    output gets at most one error line. *)
Theorem C72_no_clobber : forall U debug show S w input output no_merge w2 code,
  (forall m, ~ Parses U S w input no_merge m) ->
  cli U debug show S w input output no_merge w2 code ->
  (forall f, files w2 f = files w f) /\
  (code = 1 /\ (exists e, stdout w2 = stdout w ++ utf8 (lit "Error: " ++ show e ++ [10])) \/ code = 101 /\ stdout w2 = stdout w).
Proof.
  intros U debug show S w input output no_merge w2 code HN H. inversion H as [w1 r w2' code' Hr Hf E1 E2]; subst. clear H.
  inversion Hr as [Hi|ev m w' res Hi Hm Hw|ev o Hi Ho H1 H2 H3|ev Hi Ho]; subst; cbn in Hf.
  - injection Hf as <- <-. cbn. split; [reflexivity|]. left. split; [reflexivity|]. exists IOError. reflexivity.
  - elim (HN m). eapply read_parses; eassumption.
  - injection Hf as <- <-. cbn. split; [reflexivity|]. left. split; [reflexivity|]. eexists. reflexivity.
  - injection Hf as <- <-. split; [reflexivity|]. right. auto.
Qed.
(** Whatever happens, no file other than the output changes; and the output only ever
    changes to a prefix of the text of the parsed value. *)
Theorem C72_only_output : forall U debug show S w input output no_merge w2 code,
  cli U debug show S w input output no_merge w2 code ->
  forall f, files w2 f = files w f \/
    (f = resolve S output /\ output <> lit "-" /\ exists m c t, Parses U S w input no_merge m /\ files w2 f = Some c /\ c ++ t = utf8 (debug m ++ [10])).
Proof.
  intros U debug show S w input output no_merge w2 code H f. inversion H as [w1 r w2' code' Hr Hf E1 E2]; subst. clear H.
  assert (Efiles : files w2 = files w1) by (destruct r; cbn in Hf; injection Hf as <- <-; reflexivity). rewrite Efiles. clear Hf Efiles.
  inversion Hr as [Hi|ev m w' res Hi Hm Hw|ev o Hi Ho H1 H2 H3|ev Hi Ho]; subst; auto.
  inversion Hw as [E1|n Hn E1 E2|path Hp Hc E1 E2|path Hp Hc E1 E2|path n Hp Hc Hn E1 E2]; subst; auto; cbn;
    destruct (f =? resolve S output) eqn:Ef; auto; apply N.eqb_eq in Ef; right; (split; [exact Ef|]); (split; [assumption|]).
  - exists m, (utf8 (debug m ++ [10])), []. split; [eapply read_parses; eassumption|]. split; [reflexivity|]. apply app_nil_r.
  - exists m, (firstn n (utf8 (debug m ++ [10]))), (skipn n (utf8 (debug m ++ [10]))). split; [eapply read_parses; eassumption|].
    split; [reflexivity|]. apply firstn_skipn.
Qed.
Print Assumptions C72_success.
Print Assumptions C72_no_clobber.
Print Assumptions C72_only_output.

(** ** C73: exit codes *)
Theorem C73_exit_codes : forall U debug show S w input output no_merge,
  (exists w2 code, cli U debug show S w input output no_merge w2 code) /\
  forall w2 code, cli U debug show S w input output no_merge w2 code ->
    code = 0 \/ code = 1 \/
    (code = 101 /\ exists b s, Source S w input b /\ IsStr s /\ b = utf8 s /\ from_str U s (behaviour no_merge) VPanic).
Proof.
  intros U debug show S w input output no_merge. split.
  - assert (Hrun : exists w1 r, run_parse U debug S w input output no_merge w1 r).
    { assert (Hi : input_reader S w input None \/ exists ev, input_reader S w input (Some ev)).
      { destruct (list_eq_dec N.eq_dec input (lit "-")) as [->|Hd]; [right; eexists; constructor|].
        destruct (may_open S input) eqn:Eo; [|left; constructor; auto].
        destruct (files w (resolve S input)) as [c|] eqn:Ec; [|left; constructor; auto].
        right. assert (G : exists ev, FailsRead ev).
        { destruct (C21_reader_total [ReadError]) as [[b Hb]|Hf]; [|eauto]. apply read_to_end_delivers in Hb. discriminate. }
        destruct G as [ev G]. exists ev. econstructor; eauto. }
      destruct Hi as [Hi|[ev Hi]]; [do 2 eexists; apply RP_open_error; exact Hi|].
      destruct (read_outcome U ev (behaviour no_merge)) as [[o Ho] Hd]. destruct o as [m|e|e| |].
      - assert (Hw : exists w1 r, write_output S w (utf8 (debug m ++ [10])) output w1 r).
        { destruct (list_eq_dec N.eq_dec output (lit "-")) as [->|Hp]; [do 2 eexists; constructor|].
          destruct (may_create S output) eqn:Ec; do 2 eexists; [apply WO_file|apply WO_create_error]; assumption. }
        destruct Hw as (w1 & r & Hw). exists w1, r. eapply RP_done; eassumption.
      - do 2 eexists. eapply (RP_parse_error _ _ _ _ _ _ _ ev (VErr e)); try eassumption; discriminate.
      - do 2 eexists. eapply (RP_parse_error _ _ _ _ _ _ _ ev (VMergeErr e)); try eassumption; discriminate.
      - do 2 eexists. eapply RP_panic; eassumption.
      - elim (Hd Ho). }
    destruct Hrun as (w1 & r & Hr). destruct (finish show w1 r) as [w2 code] eqn:Ef. exists w2, code. econstructor; eassumption.
  - intros w2 code H. inversion H as [w1 r w2' code' Hr Hf E1 E2]; subst. destruct r as [|e|]; cbn in Hf; injection Hf as <- <-; auto.
    right; right. split; [reflexivity|]. inversion Hr as [|ev m w' res Hi Hm Hw|ev o Hi Ho H1 H2 H3|ev Hi Ho]; subst.
    + inversion Hw.
    + unfold from_reader, read_to_string in Ho. destruct (read_to_end ev) as [b|] eqn:Er; [|discriminate].
      destruct (from_utf8 b) as [s|] eqn:Eu; [|discriminate]. destruct Ho as (o1 & H1 & H2).
      destruct (from_utf8_sound _ _ _ (le_n _) Eu) as [Hs Hb]. exists b, s. split; [|split; [exact Hs|split; [exact Hb|]]].
      * inversion Hi as [E1 E2|path content ev' Hp Hop Hc Hd E1 E2|]; subst.
        -- constructor. apply read_to_end_delivers. exact Er.
        -- destruct Hd as [Hd|Hd].
           ++ apply read_to_end_delivers in Hd. rewrite Er in Hd. injection Hd as <-. constructor; assumption.
           ++ apply read_to_end_fails in Hd. congruence.
      * destruct o1 as [m0| | | |]; try discriminate H2; [destruct H2 as (m' & _ & E); discriminate|exact H1].
Qed.

(** A source that parses is not refused: the run can end with code 0, and it can only
    end with 1 because reading the source or writing the output failed. *)
Theorem C73_accepts : forall U debug show S w input output no_merge s m,
  Source S w input (utf8 s) -> IsStr s -> from_str U s (behaviour no_merge) (VOk m) ->
  output = lit "-" \/ may_create S output = true ->
  exists w2, cli U debug show S w input output no_merge w2 0.
Proof.
  intros U debug show S w input output no_merge s m Hs Hi Hm Ho.
  destruct (proj2 as_owned_total m) as [m' Hown].
  assert (Hev : exists ev, input_reader S w input (Some ev) /\ Delivers ev (utf8 s)).
  { inversion Hs as [b Hd E1 E2|path b Hp Hop Hf E1 E2]; subst.
    - exists (stdin S). split; [constructor|exact Hd].
    - assert (G : Delivers [Chunk (utf8 s)] (utf8 s)).
      { apply read_to_end_delivers. cbn. destruct (utf8 s); [reflexivity|]. cbn. rewrite app_nil_r. reflexivity. }
      exists [Chunk (utf8 s)]. split; [|exact G]. econstructor; eauto. }
  destruct Hev as (ev & Hr & Hd).
  assert (Hf : from_reader U ev (behaviour no_merge) (VOk m')).
  { unfold from_reader, read_to_string. apply read_to_end_delivers in Hd. rewrite Hd, from_utf8_complete by exact Hi.
    exists (VOk m). split; [exact Hm|]. exists m'. split; [exact Hown|reflexivity]. }
  assert (Hw : exists w1, write_output S w (utf8 (debug m' ++ [10])) output w1 CliOk).
  { destruct (list_eq_dec N.eq_dec output (lit "-")) as [->|Hp]; [eexists; constructor|].
    destruct Ho as [Ho|Ho]; [contradiction|]. eexists. apply WO_file; assumption. }
  destruct Hw as [w1 Hw]. exists w1. econstructor; [eapply RP_done; eassumption|reflexivity].
Qed.
Print Assumptions C73_exit_codes.
Print Assumptions C73_accepts.

(** ** C74: [--no-merge] accepts whatever the default accepts *)
Theorem C74_no_merge_weaker : forall U S w input m, Parses U S w input false m -> exists m', Parses U S w input true m'.
Proof.
  intros U S w input m (b & s & Hs & Hi & Hb & m0 & Hm & _). unfold from_str in Hm.
  destruct (old_body_cases U s) as [[m1 E]|[E|[(? & E)|E]]]; rewrite E in Hm; try discriminate Hm.
  destruct (proj2 as_owned_total m1) as [m' Hown]. exists m', b, s. do 3 (split; [assumption|]). exists m1. split; [|exact Hown].
  unfold from_str. rewrite E. reflexivity.
Qed.
Print Assumptions C74_no_merge_weaker.
(** A document with a key that is given twice, once with neither an object nor a block: accepted
    with [--no-merge], and only so. *)
Lemma Source_one S w input b b' : Source S w input b -> Source S w input b' -> b = b'.
Proof.
  intros H H'. inversion H as [x Hd E|path x Hp Ho Hf E]; subst; inversion H' as [y Hd'|path' y Hp' Ho' Hf']; subst; try congruence.
  apply read_to_end_delivers in Hd. apply read_to_end_delivers in Hd'. congruence.
Qed.
Theorem C74_repeated : forall U S w input s l l1 k v l2 v' l3, Source S w input (utf8 s) -> IsStr s ->
  from_str U s None (VOk (Unmerged l)) -> l = l1 ++ (k, v) :: l2 ++ (k, v') :: l3 ->
  ((forall x, v <> VObject x) /\ (forall b, v <> VBlock b)) \/ ((forall x, v' <> VObject x) /\ (forall b, v' <> VBlock b)) ->
  (forall m, ~ Parses U S w input false m) /\ exists m, Parses U S w input true m.
Proof.
  intros U S w input s l l1 k v l2 v' l3 HS Hi H -> Hv. split.
  - intros m (b & s' & Hs & Hi' & Eb & m0 & Hm & _). assert (Es : s' = s) by (apply C20_utf8_injective; [exact Hi'|exact Hi|]; rewrite <- Eb; exact (Source_one _ _ _ _ _ Hs HS)).
    subst s'. unfold from_str in H, Hm. destruct (old_body U s) as [[|c0 r] m1| |q| |]; try discriminate H. cbn [apply_merge behaviour] in *. injection H as <-.
    destruct Hm as ([m2|e] & Hm & E); [|discriminate]. apply mmerge_ok in Hm as [Hm _]. inversion Hm as [|l0 _ HK]; subst.
    specialize (HK k). unfold values_of in HK. rewrite filter_app in HK. cbn [filter] in HK. rewrite filter_app in HK. cbn [filter fst] in HK.
    assert (Ek : key_eqb k k = true) by (apply key_eqb_eq; reflexivity). rewrite Ek, !map_app in HK. cbn [map snd] in HK. rewrite map_app in HK. cbn [map snd] in HK.
    destruct HK as [HK|[[ls HK]|[ls HK]]].
    + rewrite !app_length in HK. cbn [length] in HK. rewrite app_length in HK. cbn [length] in HK. lia.
    + assert (Hall : forall x, In x (map VObject ls) -> exists y, x = VObject y) by (intros x Hx; apply in_map_iff in Hx as (y & <- & _); eauto). rewrite <- HK in Hall.
      destruct (Hall v) as [y Ey]; [apply in_app_iff; right; left; reflexivity|]. destruct (Hall v') as [y' Ey']; [apply in_app_iff; right; right; apply in_app_iff; right; left; reflexivity|].
      destruct Hv as [[Hv _]|[Hv _]]; eapply Hv; eassumption.
    + assert (Hall : forall x, In x (map VBlock ls) -> exists y, x = VBlock y) by (intros x Hx; apply in_map_iff in Hx as (y & <- & _); eauto). rewrite <- HK in Hall.
      destruct (Hall v) as [y Ey]; [apply in_app_iff; right; left; reflexivity|]. destruct (Hall v') as [y' Ey']; [apply in_app_iff; right; right; apply in_app_iff; right; left; reflexivity|].
      destruct Hv as [[_ Hv]|[_ Hv]]; eapply Hv; eassumption.
  - destruct (proj2 as_owned_total (Unmerged (l1 ++ (k, v) :: l2 ++ (k, v') :: l3))) as [m' Hown]. exists m', (utf8 s), s. do 2 (split; [assumption|]). split; [reflexivity|].
    eexists. split; [exact H|exact Hown].
Qed.
Print Assumptions C74_repeated.

(** A run in place: the input path is the output path. *)
Definition ex_system : system := System (fun p => 7) (fun _ => true) (fun _ => true) [].
Definition ex_world : world := World (fun f => if f =? 7 then Some (utf8 (lit "a = 1")) else None) [].
Example C72_in_place : exists w2, cli ascii_ucd (fun _ => lit "DEBUG") (fun _ => []) ex_system ex_world (lit "f.hcl") (lit "f.hcl") true w2 0 /\
  files w2 7 = Some (utf8 (lit "DEBUG" ++ [10])).
Proof.
  destruct (C73_accepts ascii_ucd (fun _ => lit "DEBUG") (fun _ => []) ex_system ex_world (lit "f.hcl") (lit "f.hcl") true (lit "a = 1")
    (Unmerged [(KeyIdent (lit "a"), VInteger 1)])) as [w2 H].
  - constructor; [discriminate|reflexivity|reflexivity].
  - repeat constructor.
  - vm_compute. reflexivity.
  - right. reflexivity.
  - exists w2. split; [exact H|]. destruct (C72_success _ _ _ _ _ _ _ _ _ H) as (m & _ & _ & G). destruct G as [G _]; [discriminate|]. exact G.
Qed.
(** A duplicate attribute: refused by default, printed with [--no-merge]. *)
Definition dup_world : world := World (fun f => if f =? 7 then Some (utf8 (lit "a = 1
a = 2")) else None) [].
Example C74_strict : (forall m, ~ Parses ascii_ucd ex_system dup_world (lit "f.hcl") false m) /\
  exists m, Parses ascii_ucd ex_system dup_world (lit "f.hcl") true m.
Proof.
  assert (Hb : old_body ascii_ucd (lit "a = 1
a = 2") = Ok [] (Unmerged [(KeyIdent (lit "a"), VInteger 1); (KeyIdent (lit "a"), VInteger 2)])) by (vm_compute; reflexivity).
  split.
  - intros m (b & s & Hs & Hi & Eb & m0 & Hm & _). inversion Hs as [|path b' Hp Ho Hf]; subst. 
    assert (Es : lit "a = 1
a = 2" = s). { apply C20_utf8_injective; [repeat constructor|exact Hi|]. cbn [files dup_world] in Hf. injection Hf as Hf. exact Hf. }
    subst s. clear Hf Hs. unfold from_str in Hm. rewrite Hb in Hm. cbn [apply_merge behaviour] in Hm.
    destruct Hm as ([m1|e] & Hm & E); [|discriminate]. 
    apply mmerge_ok in Hm as [Hm _]. inversion Hm; subst.
    match goal with H : forall k, SameKind _ |- _ => specialize (H (KeyIdent (lit "a"))) end.
    match goal with H : SameKind _ |- _ => destruct H as [H|[[ls H]|[ls H]]]; cbn in H end; [lia|destruct ls; discriminate..].
  - destruct (proj2 as_owned_total (Unmerged [(KeyIdent (lit "a"), VInteger 1); (KeyIdent (lit "a"), VInteger 2)])) as [m' Hown].
    exists m'. do 2 eexists. split; [apply Source_file; [discriminate|reflexivity|reflexivity]|]. split; [|split; [reflexivity|]]; [repeat constructor|].
    eexists. split; [|exact Hown]. unfold from_str. rewrite Hb. reflexivity.
Qed.
