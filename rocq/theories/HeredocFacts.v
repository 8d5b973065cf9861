(** * HeredocFacts: heredocs meet their grammar; exact panic condition *)
From Verif Require Import Base Nom NomFacts Ast Lex Grammar WsFacts NumFacts StrFacts.

(** ** [take_till_match!] *)
Lemma take_till_match_ok {A} (p : parser A) s r a v :
  take_till_match p s = Ok r (a, v) <->
  exists t, s = a ++ t /\ t <> [] /\ p t = Ok r v /\
    forall x y, a = x ++ y -> y <> [] -> p (y ++ t) = Err \/ (exists q, p (y ++ t) = Fail q).
Proof.
  revert a; induction s as [|c s IH]; intros a; cbn [take_till_match].
  - split; [discriminate|]. intros (t & E & Ht & _). symmetry in E. apply app_eq_nil in E as [_ ->]. congruence.
  - split.
    + intros H.
      assert (Hgo : (p (c :: s) = Err \/ (exists q, p (c :: s) = Fail q)) ->
        map_res (fun pv => (c :: fst pv, snd pv)) (take_till_match p s) = Ok r (a, v) ->
        exists t, c :: s = a ++ t /\ t <> [] /\ p t = Ok r v /\
          forall x y, a = x ++ y -> y <> [] -> p (y ++ t) = Err \/ (exists q, p (y ++ t) = Fail q)).
      { intros Hp Hm. apply map_res_ok in Hm as ([a' v'] & Hm & E). cbn in E. injection E as -> ->.
        apply IH in Hm as (t & -> & Ht & Hpt & Hn). exists t. split; [reflexivity|]. split; [exact Ht|].
        split; [exact Hpt|]. intros x y E Hy. destruct x as [|x0 x].
        - cbn in E. subst y. exact Hp.
        - cbn in E. injection E as _ E. eauto. }
      destruct (p (c :: s)) eqn:Ep; try discriminate; eauto.
      injection H as -> <- ->. exists (c :: s). split; [reflexivity|]. split; [discriminate|].
      split; [exact Ep|]. intros x y E Hy. symmetry in E. apply app_eq_nil in E as [_ ->]. congruence.
    + intros (t & E & Ht & Hp & Hn). destruct a as [|c' a]; cbn in E.
      * subst t. rewrite Hp. reflexivity.
      * injection E as <- ->.
        assert (H : take_till_match p (a ++ t) = Ok r (a, v)).
        { apply IH. exists t. split; [reflexivity|]. split; [exact Ht|]. split; [exact Hp|].
          intros x y -> Hy. apply (Hn (c :: x) y); [reflexivity|exact Hy]. }
        destruct (Hn [] (c :: a) eq_refl ltac:(discriminate)) as [E|(q & E)]; cbn [app] in E; rewrite E, H; reflexivity.
Qed.

Lemma take_till_match_err {A} (p : parser A) s :
  (forall x, p x = Err \/ (exists q, p x = Fail q) \/ exists r v, p x = Ok r v) ->
  (take_till_match p s = Err <->
   forall a t, s = a ++ t -> t <> [] -> p t = Err \/ (exists q, p t = Fail q)).
Proof.
  intros Hs. induction s as [|c s IH]; cbn [take_till_match].
  - split; [|reflexivity]. intros _ a t E Ht. symmetry in E. apply app_eq_nil in E as [_ ->]. congruence.
  - split.
    + intros H a t E Ht.
      assert (Hp : p (c :: s) = Err \/ (exists q, p (c :: s) = Fail q)).
      { destruct (Hs (c :: s)) as [E'|[E'|(r & v & E')]]; auto. rewrite E' in H. discriminate. }
      destruct a as [|c' a]; cbn in E; [subst t; exact Hp|]. injection E as <- ->.
      apply (proj1 IH) with (a := a); try reflexivity; try assumption.
      destruct Hp as [E'|(q & E')]; rewrite E' in H; destruct (take_till_match p (a ++ t)); cbn in H; congruence.
    + intros H. assert (Ht : take_till_match p s = Err).
      { apply IH. intros a t -> Ht. apply (H (c :: a)); [reflexivity|exact Ht]. }
      destruct (H [] (c :: s) eq_refl ltac:(discriminate)) as [E|(q & E)]; rewrite E, Ht; reflexivity.
Qed.

Lemma simple_take_till_match {A} (p : parser A) : simple p -> simple (take_till_match p).
Proof.
  intros Hp s. induction s as [|c s IH]; cbn [take_till_match]; [auto|].
  destruct (Hp (c :: s)) as [(r & v & E)|E]; rewrite E; [eauto|].
  destruct IH as [(r & v & E')|E']; rewrite E'; cbn; eauto.
Qed.
Lemma wf_take_till_match {A} (p : parser A) : wf p -> wf (take_till_match p).
Proof.
  intros Hp s. induction s as [|c s IH]; cbn [take_till_match]; [exact I|].
  specialize (Hp (c :: s)). destruct (p (c :: s)); cbn in Hp; try exact I; try contradiction; try exact Hp.
  - apply good_map_res. eapply good_weaken; [|exact IH]. apply suffix_cons.
  - apply good_map_res. eapply good_weaken; [|exact IH]. apply suffix_cons.
Qed.

(** ** Unindenting *)
Lemma split_lf_nonempty s : split_lf s <> [].
Proof.
  destruct s as [|c s]; cbn [split_lf]; [discriminate|]. destruct (c =? c_lf); [discriminate|].
  destruct (split_lf s); discriminate.
Qed.
Lemma join_unlines ls : join_lf ls = unlines ls.
Proof.
  induction ls as [|l ls IH]; [reflexivity|]. cbn [join_lf unlines]. rewrite IH. reflexivity.
Qed.
Lemma unlines_cons l ls : ls <> [] -> unlines (l :: ls) = l ++ [10] ++ unlines ls.
Proof. destruct ls; [congruence|reflexivity]. Qed.

Lemma split_lf_spec s : unlines (split_lf s) = s /\ forall l, In l (split_lf s) -> ~ In 10 l.
Proof.
  induction s as [|c s [IH1 IH2]]; [split; [reflexivity|intros l [<-|[]] []]|].
  cbn [split_lf]. destruct (N.eqb_spec c c_lf) as [->|Hc].
  - rewrite unlines_cons by apply split_lf_nonempty. rewrite IH1. split; [reflexivity|].
    intros l [<-|Hl]; [intros []|auto].
  - destruct (split_lf s) as [|l ls] eqn:E; [exfalso; eapply split_lf_nonempty; exact E|].
    split.
    + destruct ls as [|l' ls]; cbn [unlines app] in *; [congruence|]. rewrite <- IH1. reflexivity.
    + intros l0 [<-|Hl]; [|apply IH2; right; exact Hl].
      intros [->|Hin]; [congruence|]. apply (IH2 l); [left; reflexivity|exact Hin].
Qed.
Lemma split_lf_app l s : ~ In 10 l ->
  split_lf (l ++ s) = match split_lf s with x :: xs => (l ++ x) :: xs | [] => [] end.
Proof.
  induction l as [|c l IH]; intros H; cbn [app].
  - destruct (split_lf s) eqn:E; [exfalso; eapply split_lf_nonempty; exact E|reflexivity].
  - cbn [split_lf]. destruct (N.eqb_spec c c_lf) as [->|Hc]; [exfalso; apply H; left; reflexivity|].
    rewrite IH by (intros Hi; apply H; right; exact Hi).
    destruct (split_lf s) eqn:E; [exfalso; eapply split_lf_nonempty; exact E|reflexivity].
Qed.
Lemma split_unlines ls : ls <> [] -> (forall l, In l ls -> ~ In 10 l) -> split_lf (unlines ls) = ls.
Proof.
  induction ls as [|l ls IH]; intros Hne H; [congruence|].
  destruct ls as [|l' ls].
  - cbn [unlines]. rewrite <- (app_nil_r l) at 1. rewrite split_lf_app by (apply H; left; reflexivity).
    cbn. rewrite app_nil_r. reflexivity.
  - rewrite unlines_cons by discriminate. rewrite split_lf_app by (apply H; left; reflexivity).
    cbn [app split_lf N.eqb Pos.eqb]. rewrite IH; [rewrite app_nil_r; reflexivity|discriminate|].
    intros x Hx. apply H. right; exact Hx.
Qed.

Lemma utf8_len_pos c : (1 <= utf8_len c)%nat.
Proof. unfold utf8_len. repeat match goal with |- context [if ?b then _ else _] => destruct b end; lia. Qed.
Lemma utf8_len_one c : utf8_len c = 1%nat <-> c < 128.
Proof.
  unfold utf8_len. destruct (N.ltb_spec c 128); [tauto|].
  repeat match goal with |- context [if ?b then _ else _] => destruct b end; split; intros; lia.
Qed.

Lemma slice_0 s : slice_from 0 s = Some s.
Proof. destruct s; reflexivity. Qed.
Lemma slice_spaces n s : slice_from n (repeat 32 n ++ s) = Some s.
Proof.
  induction n as [|n IH]; [apply slice_0|]. cbn [repeat app slice_from]. 
  change (utf8_len 32) with 1%nat. cbn [Nat.leb]. rewrite Nat.sub_succ, Nat.sub_0_r. exact IH.
Qed.
Lemma slice_spaces_add k m s : slice_from (k + m) (repeat 32 k ++ s) = slice_from m s.
Proof.
  induction k as [|k IH]; [reflexivity|]. cbn [repeat app Nat.add slice_from].
  change (utf8_len 32) with 1%nat. cbn [Nat.leb]. rewrite Nat.sub_succ, Nat.sub_0_r. exact IH.
Qed.

Lemma scan_None n l : scan_indent n l = None ->
  (exists o, l = repeat 32 n ++ o) \/ exists k, (k < n)%nat /\ l = repeat 32 k.
Proof.
  revert l; induction n as [|n IH]; intros l H; [left; exists l; reflexivity|].
  destruct l as [|c l]; [right; exists 0%nat; split; [lia|reflexivity]|].
  cbn [scan_indent] in H. destruct (N.eqb_spec c c_space) as [->|]; [|discriminate].
  destruct (scan_indent n l) as [[[k c'] tl]|] eqn:E; [discriminate|].
  destruct (IH l E) as [(o & ->)|(k & Hk & ->)]; [left; exists o; reflexivity|].
  right. exists (S k). split; [lia|reflexivity].
Qed.
Lemma scan_Some n l k c tl : scan_indent n l = Some (k, c, tl) ->
  exists o, (k < n)%nat /\ c <> 32 /\ l = repeat 32 k ++ c :: o /\ tl = firstn (n - k - 1) o.
Proof.
  revert l k; induction n as [|n IH]; intros l k H; [discriminate|].
  destruct l as [|x l]; [discriminate|]. cbn [scan_indent] in H.
  destruct (N.eqb_spec x c_space) as [->|Hx].
  - destruct (scan_indent n l) as [[[k' c'] tl']|] eqn:E; [|discriminate]. injection H as <- -> ->.
    destruct (IH l k' E) as (o & Hk & Hc & -> & ->). exists o. split; [lia|]. split; [exact Hc|].
    split; reflexivity.
  - injection H as <- -> <-. exists l. split; [lia|]. split; [exact Hx|]. split; [reflexivity|].
    rewrite Nat.sub_0_r, Nat.sub_succ, Nat.sub_0_r. reflexivity.
Qed.
Lemma scan_full n o : scan_indent n (repeat 32 n ++ o) = None.
Proof. induction n as [|n IH]; [reflexivity|]. cbn [repeat app scan_indent N.eqb Pos.eqb]. rewrite IH. reflexivity. Qed.
Lemma scan_less n k c o : (k < n)%nat -> c <> 32 ->
  scan_indent n (repeat 32 k ++ c :: o) = Some (k, c, firstn (n - k - 1) o).
Proof.
  revert k; induction n as [|n IH]; intros k Hk Hc; [lia|]. destruct k as [|k].
  - cbn [repeat app scan_indent]. apply N.eqb_neq in Hc. rewrite Hc.
    rewrite Nat.sub_0_r, Nat.sub_succ, Nat.sub_0_r. reflexivity.
  - cbn [repeat app scan_indent N.eqb Pos.eqb]. rewrite IH by (lia || assumption). reflexivity.
Qed.

Lemma slice_short n k : (k < n)%nat -> slice_from n (repeat 32 k) = None.
Proof.
  intros H. replace n with (k + (n - k))%nat by lia. rewrite <- (app_nil_r (repeat 32 k)).
  rewrite slice_spaces_add. destruct (n - k)%nat eqn:E; [lia|reflexivity].
Qed.

Lemma unindent_line_ok n l o : unindent_line n l = Some o <-> UnindentLine n l o.
Proof.
  unfold unindent_line. split.
  - destruct (scan_indent n l) as [[[k c] tl]|] eqn:E.
    + apply scan_Some in E as (o' & Hk & Hc & -> & ->).
      destruct (firstn (n - k - 1) o') as [|c' f] eqn:Ef; [discriminate|].
      replace (k + utf8_len c - 1)%nat with (k + (utf8_len c - 1))%nat by (pose proof (utf8_len_pos c); lia).
      rewrite slice_spaces_add. cbn [slice_from].
      destruct (utf8_len c - 1)%nat as [|m] eqn:Em.
      * intros [= <-]. destruct o' as [|c2 o']; [rewrite firstn_nil in Ef; discriminate|].
        apply UL_less; [|exact Hc|apply utf8_len_one; pose proof (utf8_len_pos c); lia].
        destruct (n - k - 1)%nat eqn:En; [discriminate|lia].
      * destruct (Nat.leb_spec (utf8_len c) (S m)); [lia|discriminate].
    + apply scan_None in E as [(o' & ->)|(k & Hk & ->)].
      * rewrite slice_spaces. intros [= ->]. constructor.
      * rewrite slice_short by exact Hk. discriminate.
  - intros [o'|k c c' o' Hk Hc H1].
    + rewrite scan_full. apply slice_spaces.
    + rewrite scan_less by (lia || assumption). destruct (n - k - 1)%nat eqn:En; [lia|]. cbn [firstn].
      replace (k + utf8_len c - 1)%nat with (k + 0)%nat by (apply utf8_len_one in H1; lia).
      rewrite slice_spaces_add. reflexivity.
Qed.

Lemma unindent_lines_ok n ls os : unindent_lines n ls = Some os <-> Forall2 (UnindentLine n) ls os.
Proof.
  revert os; induction ls as [|l ls IH]; intros os; cbn [unindent_lines].
  - split; [intros [= <-]; constructor|intros H; inversion H; reflexivity].
  - split.
    + destruct (unindent_line n l) eqn:E1; [|discriminate].
      destruct (unindent_lines n ls) eqn:E2; [|discriminate].
      intros [= <-]. constructor; [apply unindent_line_ok, E1|apply IH; reflexivity].
    + intros H. inversion H as [|? o ? os' H1 H2]; subst.
      apply unindent_line_ok in H1. apply IH in H2. rewrite H1, H2. reflexivity.
Qed.

Lemma unindent_ok n s v : (0 < n)%nat ->
  (unindent_heredoc s n = Some v <-> exists out, Unindent n s out /\ v = Owned out).
Proof.
  intros Hn. destruct n as [|n]; [lia|]. unfold unindent_heredoc. split.
  - destruct (unindent_lines (S n) (split_lf s)) as [os|] eqn:E; [|discriminate]. intros [= <-].
    exists (join_lf os). split; [|reflexivity].
    destruct (split_lf_spec s) as [H1 H2]. apply unindent_lines_ok in E.
    exists (split_lf s), os. split; [apply split_lf_nonempty|]. split; [exact H2|]. split; [congruence|].
    split; [apply join_unlines|exact E].
  - intros (out & (ls & os & Hne & Hl & -> & -> & H) & ->).
    rewrite split_unlines by assumption. apply unindent_lines_ok in H. rewrite H, join_unlines. reflexivity.
Qed.

(** ** Heredocs *)
Section WithTables.
Context (U : ucd).

Lemma marker_spec c : marker_char U c = true <-> AlphaNumeric U c \/ c = 95.
Proof. unfold marker_char. rewrite orb_true_iff, N.eqb_eq, is_alphanumeric_spec. reflexivity. Qed.
Lemma MarkerText_spec m : MarkerText U m <-> m <> [] /\ forallb (marker_char U) m = true.
Proof.
  unfold MarkerText. rewrite forallb_forall. split; intros [H1 H2]; split; auto; intros c Hc.
  - apply marker_spec. auto.
  - apply marker_spec. auto.
Qed.
Lemma marker_ascii c : c < 128 -> marker_char U c = is_ascii_alpha c || is_dec_digit c || (c =? 95).
Proof.
  intros H. unfold marker_char, is_alphanumeric. apply N.ltb_lt in H. rewrite H. reflexivity.
Qed.
Lemma marker_not c : marker_char U c = true ->
  c <> 45 /\ c <> 32 /\ c <> 9 /\ c <> 10 /\ c <> 13.
Proof.
  intros H. repeat split; intros ->; rewrite marker_ascii in H by lia; discriminate.
Qed.

Definition blank (c : char) : bool := (c =? c_space) || (c =? c_tab).
Lemma Blanks_spec b : forallb blank b = true <-> Blanks b.
Proof.
  unfold Blanks. rewrite forallb_forall. split; intros H c Hc; specialize (H c Hc); unfold blank in *; lia.
Qed.

Lemma eol_marker_stop e r : Eol e -> stops (marker_char U) (e ++ r).
Proof. intros [|]; cbn [app stops]; apply marker_ascii; lia. Qed.

Lemma peek_eol_ok s r v : peek eol s = Ok r v <-> r = s /\ Eol v /\ exists r', s = v ++ r'.
Proof.
  unfold peek. split.
  - intros H. apply bind_ok in H as (r' & v' & H & E). injection E as <- <-.
    apply eol_ok in H as [He ->]. eauto.
  - intros (-> & He & r' & ->). rewrite (eol_eq _ _ He). reflexivity.
Qed.
Lemma simple_peek_eol : simple (peek eol).
Proof. apply simple_peek, simple_eol. Qed.

Lemma heredoc_begin_ok s r h : heredoc_begin U s = Ok r h <->
  exists d m e r', MarkerText U m /\ (d = [] \/ d = [45]) /\ Eol e /\ r = e ++ r' /\
    s = [60; 60] ++ d ++ m ++ r /\ h = mk_heredoc m (match d with [] => false | _ => true end).
Proof.
  unfold heredoc_begin. split.
  - intros H. apply bind_ok in H as (r1 & v1 & H1 & H). apply tag_ok in H1 as [-> _].
    apply bind_ok in H as (r2 & o & H2 & H). apply bind_ok in H as (r3 & m & H3 & H).
    apply bind_ok in H as (r4 & e & H4 & H). injection H as <- <-.
    apply take_while1_ok in H3 as (-> & Hm & Hmm & Hs).
    apply peek_eol_ok in H4 as (-> & He & r' & ->).
    assert (HM : MarkerText U m) by (apply MarkerText_spec; auto).
    unfold opt in H2. destruct (tag_cases (lit "-") r1) as [(q & -> & E)|E]; rewrite E in H2; injection H2 as E1 <-.
    + exists [45], m, e, r'. subst q. repeat (split; [auto|]); auto.
    + exists [], m, e, r'. subst r1. repeat (split; [auto|]); auto.
  - intros (d & m & e & r' & Hm & Hd & He & -> & -> & ->).
    apply MarkerText_spec in Hm as [Hm1 Hm2].
    change (tag (lit "<<")) with (tag [60; 60]). rewrite tag_app. cbn [bind].
    assert (E : opt (tag (lit "-")) (d ++ m ++ e ++ r') =
      Ok (m ++ e ++ r') (match d with [] => None | _ => Some [45] end)).
    { destruct Hd as [->| ->].
      - cbn [app]. destruct m as [|c m]; [congruence|]. unfold opt, tag. cbn [lit app strip_prefix].
        cbn in Hm2. apply andb_true_iff in Hm2 as [Hc _]. apply marker_not in Hc.
        change (N_of_ascii "-") with 45. destruct (N.eqb_spec 45 c); [lia|reflexivity].
      - reflexivity. }
    rewrite E. cbn [bind]. rewrite take_while1_eq; [|exact Hm1|exact Hm2|apply eol_marker_stop, He].
    cbn [bind]. assert (E2 : peek eol (e ++ r') = Ok (e ++ r') e) by (apply peek_eol_ok; eauto).
    rewrite E2. cbn [bind]. destruct Hd as [->| ->]; reflexivity.
Qed.
Lemma simple_heredoc_begin : simple (heredoc_begin U).
Proof.
  intros s. unfold heredoc_begin. apply simple_bind; [apply simple_tag|]. intros r v.
  apply simple_bind; [apply simple_opt, simple_tag|]. intros r1 v1.
  apply simple_bind; [apply simple_take_while1|]. intros r2 v2.
  apply simple_bind; [apply simple_peek_eol|]. eauto.
Qed.
Lemma wf_heredoc_begin : wf (heredoc_begin U).
Proof.
  intros s. unfold heredoc_begin. apply good_bind; [apply wf_tag|]. intros r v _ _.
  apply good_bind; [apply wf_opt, wf_tag|]. intros r1 v1 _ _.
  apply good_bind; [apply wf_take_while1|]. intros r2 v2 _ _.
  apply good_bind; [apply wf_peek, wf_eol|]. intros r3 v3 _ _. cbn; auto with suffix.
Qed.

Lemma heredoc_end_ok h s r n : MarkerText U (hd_ident h) ->
  (heredoc_end h s = Ok r n <->
   exists b, Closing (hd_ident h) b s r /\ n = if hd_indented h then length b else 0%nat).
Proof.
  intros Hm. apply MarkerText_spec in Hm as [Hm1 Hm2]. unfold heredoc_end. split.
  - intros H. apply bind_ok in H as (r1 & e & H1 & H). apply eol_ok in H1 as [He ->].
    apply bind_ok in H as (r2 & b & H2 & H). apply bind_ok in H as (r3 & v3 & H3 & H).
    apply bind_ok in H as (r4 & e' & H4 & H). injection H as <- <-.
    apply tag_ok in H3 as [-> ->]. apply peek_eol_ok in H4 as (-> & He' & r' & ->).
    unfold space0, take_while in H2. destruct (span _ r1) as [b' r2] eqn:Eb in H2. injection H2 as -> ->.
    apply span_spec in Eb as (-> & Hb & _). exists b. split; [|reflexivity].
    exists e, e', r'. split; [exact He|]. split; [apply Blanks_spec, Hb|]. split; [exact He'|]. auto.
  - intros (b & (e & e' & r' & He & Hb & He' & -> & ->) & ->).
    rewrite (eol_eq _ _ He). cbn [bind].
    assert (E : space0 (b ++ hd_ident h ++ e' ++ r') = Ok (hd_ident h ++ e' ++ r') b).
    { unfold space0, take_while. rewrite span_eq; [reflexivity|apply Blanks_spec, Hb|].
      destruct (hd_ident h) as [|c m]; [congruence|]. cbn in Hm2 |- *.
      apply andb_true_iff in Hm2 as [Hc _]. apply marker_not in Hc. lia. }
    rewrite E. cbn [bind]. rewrite tag_app. cbn [bind].
    assert (E2 : peek eol (e' ++ r') = Ok (e' ++ r') e') by (apply peek_eol_ok; eauto).
    rewrite E2. reflexivity.
Qed.
Lemma simple_heredoc_end h : simple (heredoc_end h).
Proof.
  intros s. unfold heredoc_end. apply simple_bind; [apply simple_eol|]. intros r v.
  apply simple_bind; [apply simple_take_while|]. intros r1 v1.
  apply simple_bind; [apply simple_tag|]. intros r2 v2.
  apply simple_bind; [apply simple_peek_eol|]. eauto.
Qed.
Lemma wf_heredoc_end h : wf (heredoc_end h).
Proof.
  intros s. unfold heredoc_end. apply good_bind; [apply wf_eol|]. intros r v _ _.
  apply good_bind; [apply wf_take_while|]. intros r1 v1 _ _.
  apply good_bind; [apply wf_tag|]. intros r2 v2 _ _.
  apply good_bind; [apply wf_peek, wf_eol|]. intros r3 v3 _ _. cbn; auto with suffix.
Qed.

Lemma heredoc_end_err h s : MarkerText U (hd_ident h) ->
  (heredoc_end h s = Err <-> forall b r, ~ Closing (hd_ident h) b s r).
Proof.
  intros Hm. split.
  - intros E b r Hc.
    assert (H : heredoc_end h s = Ok r (if hd_indented h then length b else 0%nat))
      by (apply heredoc_end_ok; eauto). congruence.
  - intros H. destruct (simple_heredoc_end h s) as [(r & n & E)|E]; [|exact E].
    apply heredoc_end_ok in E as (b & Hc & _); [|exact Hm]. exfalso. eapply H, Hc.
Qed.

Lemma Closing_first m b s r : Closing m b s r -> exists e s', Eol e /\ s = e ++ s'.
Proof. intros (e & e' & r' & He & _ & _ & _ & ->). eauto. Qed.

Lemma Closing_crlf m b s r : Closing m b (10 :: s) r -> Closing m b (13 :: 10 :: s) r.
Proof.
  intros (e & e' & r' & He & Hb & He' & -> & E). destruct He; cbn in E; [|discriminate].
  injection E as ->. exists [13; 10], e', r'. repeat split; auto; constructor.
Qed.

(** What the heredoc text splits into, before unindenting *)
Definition HereSplit (d m p b t r : str) (content : str) (n : nat) : Prop :=
  MarkerText U m /\ (d = [] \/ d = [45]) /\ Closing m b t r /\
  (forall x y b' r', p = x ++ y -> y <> [] -> ~ Closing m b' (y ++ t) r') /\
  match p with
  | [] => content = [] /\ n = 0%nat
  | _ => exists e, Eol e /\ p = e ++ content /\ n = match d with [] => 0%nat | _ => length b end
  end.

Definition here_inner (h : heredoc_t) : parser (str * nat) :=
  alt (pmap (fun _ => ([] : str, 0%nat)) (heredoc_end h))
      (fun s1 => let* (q1, _e) := eol s1 in take_till_match (heredoc_end h) q1).

Lemma simple_here_inner h : simple (here_inner h).
Proof.
  apply simple_alt; [apply simple_pmap, simple_heredoc_end|]. intros s.
  apply simple_bind; [apply simple_eol|]. intros r v. apply simple_take_till_match, simple_heredoc_end.
Qed.
Lemma wf_here_inner h : wf (here_inner h).
Proof.
  apply wf_alt; [apply wf_pmap, wf_heredoc_end|]. intros s.
  apply good_bind; [apply wf_eol|]. intros r v _ _. apply wf_take_till_match, wf_heredoc_end.
Qed.

Lemma here_inner_ok d m s r content n : MarkerText U m -> (d = [] \/ d = [45]) ->
  (here_inner (mk_heredoc m (match d with [] => false | _ => true end)) s = Ok r (content, n) <->
   exists p b t, s = p ++ t /\ HereSplit d m p b t r content n).
Proof.
  intros Hm Hd. set (h := mk_heredoc m _). assert (Hh : MarkerText U (hd_ident h)) by exact Hm.
  unfold here_inner, alt, pmap. split.
  - destruct (simple_heredoc_end h s) as [(r1 & n1 & E)|E]; rewrite E; cbn [map_res bind].
    + intros [= <- <- <-]. apply heredoc_end_ok in E as (b & Hc & _); [|exact Hh].
      exists [], b, s. split; [reflexivity|]. split; [exact Hm|]. split; [exact Hd|]. split; [exact Hc|].
      split; [|auto]. intros x y b' r' E Hy. symmetry in E. apply app_eq_nil in E as [_ ->]. congruence.
    + intros H. apply bind_ok in H as (q1 & e & H1 & H). apply eol_ok in H1 as [He ->].
      apply take_till_match_ok in H as (t & -> & Ht & H & Hn).
      apply heredoc_end_ok in H as (b & Hc & ->); [|exact Hh].
      pose proof (proj1 (heredoc_end_err h _ Hh) E) as E0.
      assert (Hno : forall x y b' r', content = x ++ y -> y <> [] -> ~ Closing m b' (y ++ t) r').
      { intros x y b' r' Ex Hy. destruct (Hn x y Ex Hy) as [E'|(? & E')].
        - apply (proj1 (heredoc_end_err h _ Hh) E').
        - destruct (simple_heredoc_end h (y ++ t)) as [(? & ? & E'')|E'']; congruence. }
      exists (e ++ content), b, t. split; [rewrite <- app_assoc; reflexivity|].
      split; [exact Hm|]. split; [exact Hd|]. split; [exact Hc|]. split.
      * intros x y b' r' Ex Hy. destruct x as [|x0 x].
        { cbn in Ex. subst y. rewrite <- app_assoc. apply E0. }
        destruct He; cbn in Ex.
        { injection Ex as _ Ex. eapply Hno; eassumption. }
        injection Ex as <- Ex. destruct x as [|x1 x].
        { cbn in Ex. subst y. intros HC. apply Closing_crlf in HC. eapply E0. exact HC. }
        cbn in Ex. injection Ex as _ Ex. eapply Hno; eassumption.
      * destruct (e ++ content) eqn:Ee; [destruct He; discriminate|]. rewrite <- Ee.
        exists e. split; [exact He|]. split; [reflexivity|]. subst h. destruct Hd as [->| ->]; reflexivity.
  - intros (p & b & t & -> & _ & _ & Hc & Hno & Hp). destruct p as [|p0 p].
    + destruct Hp as [-> ->]. cbn [app].
      assert (E : heredoc_end h t = Ok r (if hd_indented h then length b else 0%nat))
        by (apply heredoc_end_ok; eauto).
      rewrite E. reflexivity.
    + destruct Hp as (e & He & Ep & ->). rewrite Ep in *.
      assert (E : heredoc_end h ((e ++ content) ++ t) = Err).
      { apply heredoc_end_err; [exact Hh|]. intros b' r'. apply (Hno [] (e ++ content)); [reflexivity|].
        destruct He; discriminate. }
      rewrite E. cbn [map_res bind]. rewrite <- app_assoc. rewrite (eol_eq _ _ He). cbn [bind].
      apply take_till_match_ok. exists t. split; [reflexivity|].
      split; [apply Closing_first in Hc as (e1 & s' & He1 & ->); destruct He1; discriminate|].
      split.
      * apply heredoc_end_ok; [exact Hh|]. exists b. split; [exact Hc|].
        subst h. destruct Hd as [->| ->]; reflexivity.
      * intros x y -> Hy. left. apply heredoc_end_err; [exact Hh|]. intros b' r'.
        apply (Hno (e ++ x) y); [rewrite app_assoc; reflexivity|exact Hy].
Qed.

Lemma heredoc_string_split s :
  (exists d m p b t r content n, s = [60; 60] ++ d ++ m ++ p ++ t /\ HereSplit d m p b t r content n /\
     heredoc_string U s = match unindent_heredoc content n with Some v => Ok r v | None => Panic end)
  \/ heredoc_string U s = Err.
Proof.
  unfold heredoc_string. destruct (simple_heredoc_begin s) as [(r1 & h & E)|E]; rewrite E; cbn [bind]; [|auto].
  apply heredoc_begin_ok in E as (d & m & e & r' & Hm & Hd & He & -> & -> & ->).
  fold (here_inner (mk_heredoc m (match d with [] => false | _ => true end))).
  set (h := mk_heredoc m _).
  change (alt _ _ (e ++ r')) with (here_inner h (e ++ r')).
  destruct (simple_here_inner h (e ++ r')) as [(r2 & [content n] & E)|E]; rewrite E; cbn [bind fst snd]; [|auto].
  left. apply here_inner_ok in E as (p & b & t & E & HS); [|exact Hm|exact Hd].
  exists d, m, p, b, t, r2, content, n. rewrite E. auto.
Qed.

Lemma HereSplit_eol d m p b t r content n : HereSplit d m p b t r content n ->
  exists e r', Eol e /\ p ++ t = e ++ r'.
Proof.
  intros (_ & _ & Hc & _ & Hp). destruct p as [|p0 p].
  - apply Closing_first in Hc as (e & s' & He & ->). cbn. eauto.
  - destruct Hp as (e & He & -> & _). rewrite <- app_assoc. eauto.
Qed.

Lemma heredoc_string_eq d m p b t r content n : HereSplit d m p b t r content n ->
  heredoc_string U ([60; 60] ++ d ++ m ++ p ++ t) =
    match unindent_heredoc content n with Some v => Ok r v | None => Panic end.
Proof.
  intros HS. pose proof HS as (Hm & Hd & _). destruct (HereSplit_eol _ _ _ _ _ _ _ _ HS) as (e & r' & He & Ee).
  unfold heredoc_string.
  assert (E : heredoc_begin U ([60; 60] ++ d ++ m ++ p ++ t) =
    Ok (p ++ t) (mk_heredoc m (match d with [] => false | _ => true end))).
  { apply heredoc_begin_ok. exists d, m, e, r'. rewrite Ee. auto 10. }
  rewrite E. cbn [bind]. change (alt _ _ (p ++ t)) with
    (here_inner (mk_heredoc m (match d with [] => false | _ => true end)) (p ++ t)).
  assert (E2 : here_inner (mk_heredoc m (match d with [] => false | _ => true end)) (p ++ t)
    = Ok r (content, n)) by (apply here_inner_ok; eauto 10).
  rewrite E2. reflexivity.
Qed.

Lemma HereSplit_GHeredoc d m p b t r content n v : HereSplit d m p b t r content n ->
  unindent_heredoc content n = Some v -> GHeredoc U v ([60; 60] ++ d ++ m ++ p ++ t) r.
Proof.
  intros (Hm & Hd & Hc & Hno & Hp) Hv. apply (GH U d m p b t r v); try assumption.
  destruct p as [|p0 p].
  - destruct Hp as [-> ->]. cbn in Hv. congruence.
  - destruct Hp as (e & He & Ep & ->). exists e, content. split; [exact He|]. split; [exact Ep|].
    destruct Hd as [->| ->].
    + cbn in Hv. congruence.
    + destruct b as [|b0 b]; [cbn in Hv; congruence|].
      apply unindent_ok in Hv; [exact Hv|cbn; lia].
Qed.
Lemma GHeredoc_HereSplit v s r : GHeredoc U v s r ->
  exists d m p b t content n, s = [60; 60] ++ d ++ m ++ p ++ t /\
    HereSplit d m p b t r content n /\ unindent_heredoc content n = Some v.
Proof.
  intros [d m p b t r0 v0 Hm Hd Hc Hno Hp]. destruct p as [|p0 p].
  - exists d, m, [], b, t, [], 0%nat. split; [reflexivity|]. split; [split; auto|]. subst. reflexivity.
  - destruct Hp as (e & content & He & Ep & Hv).
    exists d, m, (p0 :: p), b, t, content, (match d with [] => 0%nat | _ => length b end).
    split; [reflexivity|]. split; [repeat split; eauto; apply Hm|].
    destruct Hd as [->| ->]; [cbn; congruence|]. destruct b as [|b0 b]; [cbn; congruence|].
    apply unindent_ok; [cbn; lia|exact Hv].
Qed.

Lemma heredoc_string_ok s r v : heredoc_string U s = Ok r v <-> GHeredoc U v s r.
Proof.
  split.
  - intros H. destruct (heredoc_string_split s) as [(d & m & p & b & t & r0 & content & n & -> & HS & E)|E];
      rewrite E in H; [|discriminate].
    destruct (unindent_heredoc content n) as [v'|] eqn:Ev; [|discriminate]. injection H as -> ->.
    eapply HereSplit_GHeredoc; eassumption.
  - intros H. apply GHeredoc_HereSplit in H as (d & m & p & b & t & content & n & -> & HS & E).
    apply heredoc_string_eq in HS. rewrite E in HS. exact HS.
Qed.
Lemma heredoc_string_panic s : heredoc_string U s = Panic <->
  exists d m p b t r content n, s = [60; 60] ++ d ++ m ++ p ++ t /\
    HereSplit d m p b t r content n /\ unindent_heredoc content n = None.
Proof.
  split.
  - intros H. destruct (heredoc_string_split s) as [(d & m & p & b & t & r0 & content & n & -> & HS & E)|E];
      rewrite E in H; [|discriminate].
    destruct (unindent_heredoc content n) as [v'|] eqn:Ev; [discriminate|].
    exists d, m, p, b, t, r0, content, n. auto.
  - intros (d & m & p & b & t & r & content & n & -> & HS & E).
    apply heredoc_string_eq in HS. rewrite E in HS. exact HS.
Qed.
Lemma heredoc_string_outcome s :
  (exists r v, heredoc_string U s = Ok r v) \/ heredoc_string U s = Err \/ heredoc_string U s = Panic.
Proof.
  destruct (heredoc_string_split s) as [(d & m & p & b & t & r0 & content & n & -> & HS & E)|E]; [|auto].
  rewrite E. destruct (unindent_heredoc content n); eauto.
Qed.
Lemma wf_heredoc_string : wf (heredoc_string U).
Proof.
  intros s. unfold heredoc_string. apply good_bind; [apply wf_heredoc_begin|]. intros r h _ _.
  apply good_bind; [apply (wf_here_inner h)|]. intros r1 ci _ _.
  destruct (unindent_heredoc _ _); cbn; auto with suffix.
Qed.
Lemma heredoc_first c s : c <> 60 -> heredoc_string U (c :: s) = Err.
Proof.
  intros H. destruct (heredoc_string_split (c :: s)) as [(d & m & p & b & t & r0 & content & n & E & _)|E]; [|exact E].
  cbn in E. congruence.
Qed.
Lemma heredoc_nil : heredoc_string U [] = Err.
Proof. reflexivity. Qed.

(** ** Strings *)
Lemma wf_string_p : wf (string_p U).
Proof. apply wf_alt; [apply wf_pmap, wf_quoted_string|apply wf_heredoc_string]. Qed.
Lemma string_p_ok s r v : string_p U s = Ok r v <->
  (exists w s', v = Owned w /\ s = 34 :: s' /\ GChars Plain w s' (34 :: r)) \/ GHeredoc U v s r.
Proof.
  unfold string_p, alt, pmap. split.
  - destruct (quoted_string_outcome s) as [(r1 & w & E)|[E|(? & E)]]; rewrite E; cbn [map_res bind].
    + intros [= <- <-]. apply quoted_string_ok in E as (s' & -> & H). left. eauto.
    + intros H. right. apply heredoc_string_ok, H.
    + discriminate.
  - intros [(w & s' & -> & -> & H)|H].
    + assert (E : quoted_string (34 :: s') = Ok r w) by (apply quoted_string_ok; eauto).
      rewrite E. reflexivity.
    + assert (E : quoted_string s = Err).
      { pose proof H as H'. destruct H' as [d m p b t r0 v0]. reflexivity. }
      rewrite E. cbn. apply heredoc_string_ok, H.
Qed.
Lemma string_p_first c s : c <> 34 -> c <> 60 -> string_p U (c :: s) = Err.
Proof.
  intros H1 H2. unfold string_p, alt, pmap. rewrite quoted_string_first by exact H1. cbn.
  apply heredoc_first, H2.
Qed.
End WithTables.
