(** * StrFacts: the string parsers meet the grammar of strings *)
From Verif Require Import Base Nom NomFacts Ast Lex Grammar WsFacts NumFacts.

(** ** Runs of digits of bounded length *)
Definition Run (p : char -> bool) (m : nat) (d r : str) : Prop :=
  length d = m \/ stops p r.

Lemma tw_ok p n s r v : (1 <= n)%nat -> take_while_m_n 1 n p s = Ok r v ->
  s = v ++ r /\ (1 <= length v <= n)%nat /\ forallb p v = true /\ Run p n v r.
Proof.
  intros Hn. unfold take_while_m_n. destruct (span p s) as [a b] eqn:E.
  apply span_spec in E as (-> & Ha & Hb).
  destruct (Nat.leb_spec 1 (length a)) as [H1|H1]; [|discriminate].
  intros [= <- <-]. rewrite firstn_app, skipn_app.
  destruct (Nat.le_gt_cases (length a) n) as [H2|H2].
  - replace (Nat.min n (length a)) with (length a) by lia.
    rewrite firstn_all, skipn_all, Nat.sub_diag. cbn [firstn skipn app]. rewrite app_nil_r.
    repeat split; try assumption; try lia. right; exact Hb.
  - replace (Nat.min n (length a)) with n by lia.
    replace (n - length a)%nat with 0%nat by lia. cbn [firstn skipn]. rewrite app_nil_r.
    assert (Hf : length (firstn n a) = n) by (rewrite firstn_length; lia).
    repeat split.
    + rewrite <- (firstn_skipn n a) at 1. rewrite <- app_assoc. reflexivity.
    + lia.
    + lia.
    + rewrite forallb_forall in Ha |- *. intros c Hc. apply Ha.
      rewrite <- (firstn_skipn n a). apply in_or_app. left; exact Hc.
    + left; exact Hf.
Qed.

Lemma tw_eq p n v r : (1 <= length v <= n)%nat -> forallb p v = true -> Run p n v r ->
  take_while_m_n 1 n p (v ++ r) = Ok r v.
Proof.
  intros Hl Hv Hr. unfold take_while_m_n.
  destruct (span p r) as [a b] eqn:E. apply span_spec in E as (-> & Ha & Hb).
  assert (Es : span p (v ++ a ++ b) = (v ++ a, b)).
  { apply span_spec. rewrite app_assoc. split; [reflexivity|]. split; [|exact Hb].
    rewrite forallb_app, Hv, Ha. reflexivity. }
  rewrite Es. rewrite app_length.
  destruct (Nat.leb_spec 1 (length v + length a)) as [H1|H1]; [|lia].
  assert (Hm : Nat.min n (length v + length a) = length v).
  { destruct Hr as [Hr|Hr]; [lia|]. destruct a as [|c a]; [cbn; lia|].
    cbn in Hr, Ha. rewrite Hr in Ha. discriminate. }
  rewrite Hm, firstn_app, skipn_app, firstn_all, skipn_all, Nat.sub_diag.
  cbn [firstn skipn app]. rewrite app_nil_r. reflexivity.
Qed.

Lemma tw_err p n s : stops p s -> take_while_m_n 1 n p s = Err.
Proof.
  intros H. unfold take_while_m_n.
  replace (span p s) with (@nil char, s) by (symmetry; apply span_spec; cbn; auto). reflexivity.
Qed.
Lemma simple_tw m n p : simple (take_while_m_n m n p).
Proof.
  intros s. unfold take_while_m_n. destruct (span p s) as [a b].
  destruct (Nat.leb m (length a)); eauto.
Qed.

Lemma Run_longest p m d r d' r' :
  Run p m d r -> d ++ r = d' ++ r' -> (length d' <= m)%nat -> forallb p d' = true ->
  (length d' <= length d)%nat.
Proof.
  intros HR E Hl Hp. destruct (Nat.le_gt_cases (length d') (length d)) as [H|H]; [exact H|exfalso].
  apply app_prefix in E as (c & x & -> & ->); [|exact H].
  rewrite app_length in Hl. cbn [length] in Hl.
  destruct HR as [HR|HR]; [lia|]. cbn in HR. rewrite forallb_app in Hp. cbn in Hp.
  rewrite HR in Hp. cbn in Hp. rewrite andb_false_r in Hp. discriminate.
Qed.

(** ** Escape sequences *)
Lemma oct_spec c : is_oct_digit c = true <-> 48 <= c <= 55.
Proof. unfold is_oct_digit. lia. Qed.
Lemma hex_spec c : is_hex_digit c = true <-> 48 <= c <= 57 \/ 65 <= c <= 70 \/ 97 <= c <= 102.
Proof. unfold is_hex_digit, is_dec_digit. lia. Qed.
Lemma OctDigits_spec d : forallb is_oct_digit d = true <-> OctDigits d.
Proof.
  rewrite forallb_forall. unfold OctDigits. split; intros H c Hc; apply oct_spec; auto.
Qed.
Lemma HexDigits_spec d : forallb is_hex_digit d = true <-> HexDigits d.
Proof.
  rewrite forallb_forall. unfold HexDigits. split; intros H c Hc; apply hex_spec; auto.
Qed.

Lemma radix_val_value b d : radix_val b d = value b 0 d.
Proof.
  unfold radix_val. generalize 0. induction d as [|c d IH]; intros a; [reflexivity|].
  cbn [fold_left value]. rewrite IH. f_equal. unfold digit_val, dval. lia.
Qed.

Definition Esc (t : str) : Prop := exists n, EscShape n t.

Lemma Esc_simple_head n c t : EscShape n (c :: t) -> t <> [] ->
  (is_oct_digit c = true \/ c = 120 \/ c = 117 \/ c = 85).
Proof.
  intros H Ht. inversion H; subst; try contradiction; auto.
  left. apply oct_spec. match goal with HH : OctDigits _ |- _ => apply HH end. left; reflexivity.
Qed.
Lemma EscShape_nonempty n t : EscShape n t -> t <> [].
Proof. intros H E. subst. inversion H; subst; cbn in *; lia. Qed.

Lemma Esc_oct n c t : EscShape n (c :: t) -> is_oct_digit c = true ->
  (length (c :: t) <= 3)%nat /\ forallb is_oct_digit (c :: t) = true.
Proof.
  intros H Hc. inversion H; subst; try discriminate Hc.
  split; [tauto|]. apply OctDigits_spec. assumption.
Qed.
Definition hexmax (c : char) : nat := if c =? 120 then 2 else if c =? 117 then 4 else 8.
Lemma Esc_hex n c t : EscShape n (c :: t) -> c = 120 \/ c = 117 \/ c = 85 ->
  (length t <= hexmax c)%nat /\ forallb is_hex_digit t = true.
Proof.
  intros H Hc.
  inversion H; subst; try (exfalso; lia);
    try (split; [cbn [hexmax N.eqb Pos.eqb]; unfold hexmax; cbn; tauto|apply HexDigits_spec; assumption]).
  exfalso. match goal with HH : OctDigits _ |- _ => specialize (HH c (or_introl eq_refl)) end. lia.
Qed.

Lemma Longest_single c r : Esc [c] -> is_oct_digit c = false -> c <> 120 -> c <> 117 -> c <> 85 ->
  Longest Esc [c] r.
Proof.
  intros HE H1 H2 H3 H4. split; [exact HE|]. intros t' r' E [n' H'].
  destruct t' as [|c' t']; [cbn; lia|]. cbn in E. injection E as <- _.
  destruct t' as [|x t']; [cbn; lia|]. exfalso.
  apply Esc_simple_head in H'; [|discriminate]. destruct H' as [H'|H']; [congruence|lia].
Qed.

Lemma Longest_oct d r : (1 <= length d <= 3)%nat -> OctDigits d ->
  (Longest Esc d r <-> Run is_oct_digit 3 d r).
Proof.
  intros Hl Hd. split.
  - intros [_ HL]. destruct (Nat.eq_dec (length d) 3) as [E|E]; [left; exact E|right].
    destruct r as [|c r]; [exact I|]. cbn. destruct (is_oct_digit c) eqn:Ec; [|reflexivity].
    specialize (HL (d ++ [c]) r). rewrite <- app_assoc in HL. specialize (HL eq_refl).
    rewrite app_length in HL. cbn [length] in HL.
    enough (length d + 1 <= length d)%nat by lia. apply HL.
    eexists. apply Esc_octal; [rewrite app_length; cbn; lia|].
    intros x Hx. apply in_app_or in Hx as [Hx|[<-|[]]]; [apply Hd, Hx|apply oct_spec, Ec].
  - intros HR. split; [eexists; apply Esc_octal; eassumption|].
    intros t' r' E [n' H']. destruct d as [|c d]; [cbn in Hl; lia|].
    destruct t' as [|c' t']; [cbn; lia|]. assert (c' = c) by (cbn in E; congruence). subst c'.
    apply Esc_oct in H' as [H1 H2]; [|apply oct_spec, Hd; left; reflexivity].
    exact (Run_longest _ _ _ _ _ _ HR E H1 H2).
Qed.

Lemma Esc_hex_intro c d : c = 120 \/ c = 117 \/ c = 85 ->
  (1 <= length d <= hexmax c)%nat -> HexDigits d -> EscShape (value 16 0 d) (c :: d).
Proof.
  intros [->|[->| ->]] Hl Hd; cbn in Hl.
  - apply (Esc_x d); assumption.
  - apply (Esc_u d); assumption.
  - apply (Esc_U d); assumption.
Qed.

Lemma Longest_hex c d r : c = 120 \/ c = 117 \/ c = 85 ->
  (1 <= length d <= hexmax c)%nat -> HexDigits d ->
  (Longest Esc (c :: d) r <-> Run is_hex_digit (hexmax c) d r).
Proof.
  intros Hc Hl Hd. split.
  - intros [_ HL]. destruct (Nat.eq_dec (length d) (hexmax c)) as [E|E]; [left; exact E|right].
    destruct r as [|x r]; [exact I|]. cbn. destruct (is_hex_digit x) eqn:Ex; [|reflexivity].
    specialize (HL (c :: d ++ [x]) r). cbn [app] in HL. rewrite <- app_assoc in HL. specialize (HL eq_refl).
    cbn [length] in HL. rewrite app_length in HL. cbn [length] in HL.
    enough (S (length d + 1) <= S (length d))%nat by lia. apply HL.
    eexists. apply Esc_hex_intro; [exact Hc|rewrite app_length; cbn [length]; lia|].
    intros y Hy. apply in_app_or in Hy as [Hy|[<-|[]]]; [apply Hd, Hy|apply hex_spec, Ex].
  - intros HR. split; [eexists; apply Esc_hex_intro; eassumption|].
    intros t' r' E [n' H']. destruct t' as [|c' t']; [cbn; lia|].
    assert (c' = c) by (cbn in E; congruence). subst c'.
    apply Esc_hex in H' as [H1 H2]; [|exact Hc]. cbn in E. injection E as E. cbn [length].
    pose proof (Run_longest _ _ _ _ _ _ HR E H1 H2). lia.
Qed.

Lemma map_opt_ok {A B} (p : parser A) (f : A -> option B) s r w :
  map_opt p f s = Ok r w <-> exists v, p s = Ok r v /\ f v = Some w.
Proof.
  unfold map_opt. split.
  - intros H. apply bind_ok in H as (r' & v & H1 & H). destruct (f v) eqn:E; [|discriminate].
    injection H as -> ->. eauto.
  - intros (v & H & E). rewrite H. cbn. rewrite E. reflexivity.
Qed.
Lemma wf_map_opt {A B} (p : parser A) (f : A -> option B) : wf p -> wf (map_opt p f).
Proof. intros Hp s. apply good_bind; [apply Hp|]. intros r v _ _. destruct (f v); cbn; auto with suffix. Qed.
Lemma simple_map_opt {A B} (p : parser A) (f : A -> option B) : simple p -> simple (map_opt p f).
Proof. intros Hp s. apply simple_bind; [apply Hp|]. intros r v. destruct (f v); eauto. Qed.

Lemma valid_char_spec n : valid_char n = true <-> ScalarValue n.
Proof. unfold valid_char, ScalarValue. lia. Qed.
Lemma char_to_string_ok n v : char_to_string n = Some v <-> v = [n] /\ ScalarValue n.
Proof.
  unfold char_to_string. rewrite <- valid_char_spec. destruct (valid_char n); split; intros H;
    [injection H as <-; auto|destruct H as [-> _]; reflexivity|discriminate|destruct H; discriminate].
Qed.

Lemma simple_hex_escape c n : simple (hex_escape c n).
Proof. apply simple_map_opt, simple_preceded; [apply simple_tag|apply simple_tw]. Qed.
Lemma wf_hex_escape c n : wf (hex_escape c n).
Proof. apply wf_map_opt, wf_preceded; [apply wf_tag|apply wf_take_while_m_n]. Qed.
Lemma simple_octal_escape : simple octal_escape.
Proof. apply simple_map_opt, simple_tw. Qed.
Lemma wf_octal_escape : wf octal_escape.
Proof. apply wf_map_opt, wf_take_while_m_n. Qed.

Lemma hex_escape_ok c n s r v : (1 <= n)%nat -> hex_escape c n s = Ok r v ->
  exists d, s = c :: d ++ r /\ v = [value 16 0 d] /\ ScalarValue (value 16 0 d) /\
    (1 <= length d <= n)%nat /\ HexDigits d /\ Run is_hex_digit n d r.
Proof.
  intros Hn H. apply map_opt_ok in H as (d & H & E). apply char_to_string_ok in E as [-> E].
  unfold preceded in H. apply bind_ok in H as (r1 & v1 & H1 & H2). apply tag_ok in H1 as [-> ->].
  apply tw_ok in H2 as (-> & Hl & Hd & HR); [|exact Hn].
  exists d. rewrite radix_val_value in *. apply HexDigits_spec in Hd. auto 10.
Qed.
Lemma hex_escape_eq c n d r : (1 <= length d <= n)%nat -> HexDigits d -> Run is_hex_digit n d r ->
  ScalarValue (value 16 0 d) -> hex_escape c n (c :: d ++ r) = Ok r [value 16 0 d].
Proof.
  intros Hl Hd HR Hv. apply map_opt_ok. exists d. split.
  - unfold preceded. change (c :: d ++ r) with ([c] ++ d ++ r). rewrite tag_app. cbn [bind].
    apply tw_eq; try assumption. apply HexDigits_spec, Hd.
  - rewrite radix_val_value. apply char_to_string_ok. auto.
Qed.
Lemma hex_escape_neq c n x s : x <> c -> hex_escape c n (x :: s) = Err.
Proof.
  intros H. unfold hex_escape, map_opt, preceded, tag. cbn [strip_prefix].
  assert (E : (c =? x) = false) by (apply N.eqb_neq; congruence). rewrite E. reflexivity.
Qed.

Definition simple_esc (n c : N) : Prop :=
  (n, c) = (7, 97) \/ (n, c) = (8, 98) \/ (n, c) = (12, 102) \/ (n, c) = (10, 110) \/
  (n, c) = (13, 114) \/ (n, c) = (9, 116) \/ (n, c) = (11, 118) \/ (n, c) = (92, 92) \/
  (n, c) = (34, 34) \/ (n, c) = (63, 63).

Lemma alt_tag {B} c (w : B) q s :
  alt (pmap (fun _ => w) (tag [c])) q s =
  match s with x :: s' => if c =? x then Ok s' w else q s | [] => q [] end.
Proof.
  unfold alt, pmap, tag. destruct s as [|x s']; cbn [strip_prefix]; [reflexivity|].
  destruct (c =? x); reflexivity.
Qed.

Lemma unescape_cases x s :
  unescape (x :: s) =
    if 97 =? x then Ok s [7] else if 98 =? x then Ok s [8] else if 102 =? x then Ok s [12]
    else if 110 =? x then Ok s [10] else if 114 =? x then Ok s [13] else if 116 =? x then Ok s [9]
    else if 118 =? x then Ok s [11] else if 92 =? x then Ok s [92] else if 34 =? x then Ok s [34]
    else if 63 =? x then Ok s [63] else alt octal_escape hex_to_unicode (x :: s).
Proof.
  unfold unescape.
  change (lit "a") with [97]; change (lit "b") with [98]; change (lit "f") with [102];
  change (lit "n") with [110]; change (lit "r") with [114]; change (lit "t") with [116];
  change (lit "v") with [118]; change (lit "?") with [63].
  rewrite alt_tag. destruct (97 =? x); [reflexivity|].
  rewrite alt_tag. destruct (98 =? x); [reflexivity|].
  rewrite alt_tag. destruct (102 =? x); [reflexivity|].
  rewrite alt_tag. destruct (110 =? x); [reflexivity|].
  rewrite alt_tag. destruct (114 =? x); [reflexivity|].
  rewrite alt_tag. destruct (116 =? x); [reflexivity|].
  rewrite alt_tag. destruct (118 =? x); [reflexivity|].
  rewrite alt_tag. destruct (92 =? x); [reflexivity|].
  rewrite alt_tag. destruct (34 =? x); [reflexivity|].
  rewrite alt_tag. destruct (63 =? x); reflexivity.
Qed.

Lemma wf_unescape : wf unescape.
Proof.
  unfold unescape. repeat (apply wf_alt; [apply wf_pmap, wf_tag|]).
  apply wf_alt; [apply wf_octal_escape|]. apply wf_return_error.
  apply wf_alt; [apply wf_hex_escape|]. apply wf_alt; apply wf_hex_escape.
Qed.

(** [unescape] never yields a recoverable error or a panic. *)
Lemma unescape_outcome s : (exists r v, unescape s = Ok r v) \/ unescape s = Fail s.
Proof.
  destruct s as [|x s]; [right; reflexivity|]. rewrite unescape_cases.
  repeat match goal with |- context [if ?b then _ else _] => destruct b; [left; eauto|] end.
  unfold hex_to_unicode, return_error, alt.
  destruct (simple_octal_escape (x :: s)) as [(r & v & H)|H]; rewrite H; [left; eauto|].
  destruct (simple_hex_escape 120 2 (x :: s)) as [(r & v & H1)|H1]; rewrite H1; [left; eauto|].
  destruct (simple_hex_escape 117 4 (x :: s)) as [(r & v & H2)|H2]; rewrite H2; [left; eauto|].
  destruct (simple_hex_escape 85 8 (x :: s)) as [(r & v & H3)|H3]; rewrite H3; [left; eauto|].
  right; reflexivity.
Qed.

Lemma octal_value_valid d : (length d <= 3)%nat -> OctDigits d -> ScalarValue (value 8 0 d).
Proof.
  intros Hl Hd. assert (value 8 0 d < 512).
  { assert (forall c, In c d -> dval c < 8).
    { intros c Hc. specialize (Hd c Hc). unfold dval. destruct (N.leb_spec c 57); lia. }
    destruct d as [|a [|b [|c [|e d]]]]; cbn [value]; [lia| | | |cbn in Hl; lia];
      assert (dval a < 8) by (apply H; cbn; auto);
      try assert (dval b < 8) by (apply H; cbn; auto);
      try assert (dval c < 8) by (apply H; cbn; auto); lia. }
  unfold ScalarValue. lia.
Qed.

Lemma unescape_ok s r v : unescape s = Ok r v <->
  exists n t, v = [n] /\ s = t ++ r /\ EscShape n t /\ Longest Esc t r /\ ScalarValue n.
Proof.
  split.
  - intros H. destruct s as [|x s]; [discriminate|]. rewrite unescape_cases in H.
    assert (Hs : forall n c, c = x -> EscShape n [c] -> ScalarValue n ->
      is_oct_digit c = false -> c <> 120 -> c <> 117 -> c <> 85 -> Ok s [n] = Ok r v ->
      exists n t, v = [n] /\ x :: s = t ++ r /\ EscShape n t /\ Longest Esc t r /\ ScalarValue n).
    { intros n c -> HE Hv H1 H2 H3 H4 [= <- <-]. exists n, [x].
      repeat split; try assumption; try reflexivity; apply Longest_single; try assumption; exists n; exact HE. }
    destruct (N.eqb_spec 97 x) as [E|_]; [apply (Hs 7 97 E); try reflexivity; try lia; try (unfold ScalarValue; lia); [constructor|exact H]|].
    destruct (N.eqb_spec 98 x) as [E|_]; [apply (Hs 8 98 E); try reflexivity; try lia; try (unfold ScalarValue; lia); [constructor|exact H]|].
    destruct (N.eqb_spec 102 x) as [E|_]; [apply (Hs 12 102 E); try reflexivity; try lia; try (unfold ScalarValue; lia); [constructor|exact H]|].
    destruct (N.eqb_spec 110 x) as [E|_]; [apply (Hs 10 110 E); try reflexivity; try lia; try (unfold ScalarValue; lia); [constructor|exact H]|].
    destruct (N.eqb_spec 114 x) as [E|_]; [apply (Hs 13 114 E); try reflexivity; try lia; try (unfold ScalarValue; lia); [constructor|exact H]|].
    destruct (N.eqb_spec 116 x) as [E|_]; [apply (Hs 9 116 E); try reflexivity; try lia; try (unfold ScalarValue; lia); [constructor|exact H]|].
    destruct (N.eqb_spec 118 x) as [E|_]; [apply (Hs 11 118 E); try reflexivity; try lia; try (unfold ScalarValue; lia); [constructor|exact H]|].
    destruct (N.eqb_spec 92 x) as [E|_]; [apply (Hs 92 92 E); try reflexivity; try lia; try (unfold ScalarValue; lia); [constructor|exact H]|].
    destruct (N.eqb_spec 34 x) as [E|_]; [apply (Hs 34 34 E); try reflexivity; try lia; try (unfold ScalarValue; lia); [constructor|exact H]|].
    destruct (N.eqb_spec 63 x) as [E|_]; [apply (Hs 63 63 E); try reflexivity; try lia; try (unfold ScalarValue; lia); [constructor|exact H]|].
    clear Hs. unfold alt at 1 in H.
    destruct (simple_octal_escape (x :: s)) as [(r' & v' & E)|E]; rewrite E in H.
    { injection H as -> ->. apply map_opt_ok in E as (d & E & Hv). apply char_to_string_ok in Hv as [-> Hv].
      apply tw_ok in E as (E & Hl & Hd & HR); [|lia]. apply OctDigits_spec in Hd.
      rewrite radix_val_value in *. exists (value 8 0 d), d. split; [reflexivity|]. split; [exact E|].
      split; [apply Esc_octal; assumption|]. split; [apply Longest_oct; assumption|exact Hv]. }
    unfold hex_to_unicode, return_error, alt in H.
    assert (Hh : forall c, c = 120 \/ c = 117 \/ c = 85 -> hex_escape c (hexmax c) (x :: s) = Ok r v ->
      exists n t, v = [n] /\ x :: s = t ++ r /\ EscShape n t /\ Longest Esc t r /\ ScalarValue n).
    { intros c Hc Hx. apply hex_escape_ok in Hx as (d & E' & -> & Hv & Hl & Hd & HR).
      - exists (value 16 0 d), (c :: d). split; [reflexivity|]. split; [exact E'|].
        split; [apply Esc_hex_intro; assumption|]. split; [apply Longest_hex; assumption|exact Hv].
      - destruct Hc as [->|[->| ->]]; cbn; lia. }
    destruct (simple_hex_escape 120 2 (x :: s)) as [(r' & v' & H1)|H1]; rewrite H1 in H.
    { injection H as -> ->. apply (Hh 120); auto. }
    destruct (simple_hex_escape 117 4 (x :: s)) as [(r' & v' & H2)|H2]; rewrite H2 in H.
    { injection H as -> ->. apply (Hh 117); auto. }
    destruct (simple_hex_escape 85 8 (x :: s)) as [(r' & v' & H3)|H3]; rewrite H3 in H; [|discriminate].
    injection H as -> ->. apply (Hh 85); auto.
  - intros (n & t & -> & -> & HE & HL & Hv). destruct HE as
      [ | | | | | | | | | |d Hl Hd|d Hl Hd|d Hl Hd|d Hl Hd];
      try (cbn [lit app]; rewrite unescape_cases; reflexivity).
    + destruct d as [|c d]; [cbn in Hl; lia|]. cbn [app]. rewrite unescape_cases.
      assert (Hc : 48 <= c <= 55) by (apply Hd; left; reflexivity).
      destruct (N.eqb_spec 97 c); [lia|]. destruct (N.eqb_spec 98 c); [lia|]. destruct (N.eqb_spec 102 c); [lia|].
      destruct (N.eqb_spec 110 c); [lia|]. destruct (N.eqb_spec 114 c); [lia|]. destruct (N.eqb_spec 116 c); [lia|].
      destruct (N.eqb_spec 118 c); [lia|]. destruct (N.eqb_spec 92 c); [lia|]. destruct (N.eqb_spec 34 c); [lia|].
      destruct (N.eqb_spec 63 c); [lia|].
      assert (E : octal_escape ((c :: d) ++ r) = Ok r [value 8 0 (c :: d)]).
      { apply map_opt_ok. exists (c :: d). split.
        - apply tw_eq; [assumption|apply OctDigits_spec, Hd|]. apply Longest_oct; assumption.
        - rewrite radix_val_value. apply char_to_string_ok. auto. }
      unfold alt. cbn [app] in E. rewrite E. reflexivity.
    + cbn [lit app]. rewrite unescape_cases. cbn [N.eqb Pos.eqb].
      unfold alt at 1. unfold octal_escape, map_opt. rewrite tw_err by reflexivity. cbn [bind].
      unfold hex_to_unicode, return_error, alt.
      change (N_of_ascii "x") with 120.
      rewrite (hex_escape_eq 120 2 d r); try assumption; [reflexivity|].
      apply (Longest_hex 120); auto.
    + cbn [lit app]. rewrite unescape_cases. cbn [N.eqb Pos.eqb].
      unfold alt at 1. unfold octal_escape, map_opt. rewrite tw_err by reflexivity. cbn [bind].
      unfold hex_to_unicode, return_error, alt. rewrite hex_escape_neq by (cbn; discriminate).
      change (N_of_ascii "u") with 117.
      rewrite (hex_escape_eq 117 4 d r); try assumption; [reflexivity|].
      apply (Longest_hex 117); auto.
    + cbn [lit app]. rewrite unescape_cases. cbn [N.eqb Pos.eqb].
      unfold alt at 1. unfold octal_escape, map_opt. rewrite tw_err by reflexivity. cbn [bind].
      unfold hex_to_unicode, return_error, alt. rewrite !hex_escape_neq by (cbn; discriminate).
      change (N_of_ascii "U") with 85.
      rewrite (hex_escape_eq 85 8 d r); try assumption; [reflexivity|].
      apply (Longest_hex 85); auto.
Qed.

(** ** Quoted strings *)
Section Quoted.
Context (normal : char -> bool) (P : char -> Prop).
Context (HP : forall c, normal c = true <-> P c).
Context (Hb : normal 92 = false).

Lemma chars_sound s r v : escaped_transform normal unescape s = Ok r v -> GChars P v s r.
Proof.
  remember (length s) as k eqn:Ek. revert s r v Ek.
  induction k as [k IH] using lt_wf_ind; intros s r v -> H.
  destruct s as [|c s]; [rewrite escaped_transform_nil in H by apply wf_unescape; injection H as <- <-; constructor|].
  destruct (normal c) eqn:Ec.
  - rewrite escaped_transform_normal in H by (apply wf_unescape || exact Ec).
    apply map_res_ok in H as (v' & H & ->). constructor; [apply HP, Ec|].
    apply (IH (length s)); [cbn; lia|reflexivity|exact H].
  - destruct (N.eq_dec c 92) as [->|Hc].
    + rewrite escaped_transform_esc in H by (apply wf_unescape || exact Hb).
      destruct s as [|x s]; [discriminate|].
      apply bind_ok in H as (r1 & o & H1 & H). apply map_res_ok in H as (v' & H & ->).
      apply unescape_ok in H1 as (n & t & -> & E & HE & HL & Hv). rewrite E.
      cbn [app]. apply (GC_esc P n t v' r1 r); try assumption.
      apply (IH (length r1)); [|reflexivity|exact H].
      rewrite E. cbn [length]. rewrite app_length. lia.
    + rewrite escaped_transform_stop in H by (apply wf_unescape || exact Ec || exact Hc).
      injection H as <- <-. constructor.
Qed.

Lemma chars_complete s r v : GChars P v s r ->
  (forall c r', r = c :: r' -> normal c = false /\ c <> 92) ->
  escaped_transform normal unescape s = Ok r v.
Proof.
  intros H Hr. induction H as [r|c v s r Hc H IH|n t v s r HE HL Hv H IH].
  - destruct r as [|c r]; [apply escaped_transform_nil, wf_unescape|].
    destruct (Hr c r eq_refl). apply escaped_transform_stop; [apply wf_unescape|assumption|assumption].
  - rewrite escaped_transform_normal by (apply wf_unescape || apply HP, Hc). rewrite IH by exact Hr. reflexivity.
  - cbn [app]. rewrite escaped_transform_esc by (apply wf_unescape || exact Hb).
    assert (E : unescape (t ++ s) = Ok s [n]).
    { apply unescape_ok. exists n, t. auto 6. }
    destruct (t ++ s) as [|x ts] eqn:Ets.
    + apply app_eq_nil in Ets as [-> _]. exfalso. apply EscShape_nonempty in HE. apply HE; reflexivity.
    + rewrite E. cbn [bind]. rewrite IH by exact Hr. reflexivity.
Qed.

(** A failing escape makes everything fail; nothing panics. *)
Lemma chars_outcome s :
  (exists r v, escaped_transform normal unescape s = Ok r v) \/
  escaped_transform normal unescape s = Err \/ (exists q, escaped_transform normal unescape s = Fail q).
Proof.
  remember (length s) as k eqn:Ek. revert s Ek.
  induction k as [k IH] using lt_wf_ind; intros s ->.
  destruct s as [|c s]; [rewrite escaped_transform_nil by apply wf_unescape; eauto|].
  destruct (normal c) eqn:Ec.
  - rewrite escaped_transform_normal by (apply wf_unescape || exact Ec).
    destruct (IH (length s) ltac:(cbn; lia) s eq_refl) as [(r & v & E)|[E|(q & E)]]; rewrite E; cbn; eauto.
  - destruct (N.eq_dec c 92) as [->|Hc].
    + rewrite escaped_transform_esc by (apply wf_unescape || exact Hb).
      destruct s as [|x s]; [auto|]. pose proof (wf_unescape (x :: s)) as Hw.
      destruct (unescape_outcome (x :: s)) as [(r & v & E)|E]; rewrite E in *; cbn [bind]; [|eauto].
      destruct (IH (length r)) with (s := r) as [(r' & v' & E')|[E'|(q & E')]];
        [|reflexivity|rewrite E'; cbn; eauto|rewrite E'; cbn; eauto|rewrite E'; cbn; eauto].
      apply suffix_len in Hw. cbn [length] in *. lia.
    + rewrite escaped_transform_stop by (apply wf_unescape || exact Ec || exact Hc). eauto.
Qed.

Definition quoted : parser str :=
  delimited (tag [34]) (escaped_transform normal unescape) (tag [34]).

Context (Hq : normal 34 = false).

Lemma quoted_ok s r v : quoted s = Ok r v <-> exists s', s = 34 :: s' /\ GChars P v s' (34 :: r).
Proof.
  unfold quoted, delimited. split.
  - intros H. apply bind_ok in H as (r1 & v1 & H1 & H). apply tag_ok in H1 as [-> _].
    apply bind_ok in H as (r2 & v2 & H2 & H). apply bind_ok in H as (r3 & v3 & H3 & H).
    injection H as <- <-. apply tag_ok in H3 as [-> _]. exists r1. split; [reflexivity|].
    apply chars_sound, H2.
  - intros (s' & -> & H). change (34 :: s') with ([34] ++ s'). rewrite tag_app. cbn [bind].
    rewrite (chars_complete _ _ _ H).
    + cbn [bind]. change (34 :: r) with ([34] ++ r). rewrite tag_app. reflexivity.
    + intros c r' [= <- <-]. split; [exact Hq|discriminate].
Qed.
Lemma wf_quoted : wf quoted.
Proof. apply wf_delimited; [apply wf_tag|apply wf_escaped_transform, wf_unescape|apply wf_tag]. Qed.
Lemma quoted_first c s : c <> 34 -> quoted (c :: s) = Err.
Proof.
  intros H. unfold quoted, delimited, tag at 1. cbn [strip_prefix].
  destruct (N.eqb_spec 34 c); [congruence|]. reflexivity.
Qed.
Lemma quoted_outcome s : (exists r v, quoted s = Ok r v) \/ quoted s = Err \/ (exists q, quoted s = Fail q).
Proof.
  unfold quoted, delimited. destruct (simple_tag [34] s) as [(r & v & E)|E]; rewrite E; cbn [bind]; [|auto].
  destruct (chars_outcome r) as [(r' & v' & E')|[E'|(q & E')]]; rewrite E'; cbn [bind]; eauto.
  destruct (simple_tag [34] r') as [(r2 & v2 & E2)|E2]; rewrite E2; cbn [bind]; eauto.
Qed.
End Quoted.

Lemma legal_spec c : legal_string_literal_character c = true <-> Plain c.
Proof. unfold legal_string_literal_character, Plain. lia. Qed.
Lemma legal_line_spec c : legal_string_literal_single_line_character c = true <-> PlainLine c.
Proof. unfold legal_string_literal_single_line_character, PlainLine. lia. Qed.

Lemma quoted_string_ok s r v :
  quoted_string s = Ok r v <-> exists s', s = 34 :: s' /\ GChars Plain v s' (34 :: r).
Proof. exact (quoted_ok _ _ legal_spec eq_refl eq_refl s r v). Qed.
Lemma string_literal_ok s r v :
  string_literal s = Ok r v <-> exists s', s = 34 :: s' /\ GChars PlainLine v s' (34 :: r).
Proof. exact (quoted_ok _ _ legal_line_spec eq_refl eq_refl s r v). Qed.
Lemma wf_quoted_string : wf quoted_string.
Proof. apply (wf_quoted legal_string_literal_character). Qed.
Lemma wf_string_literal : wf string_literal.
Proof. apply (wf_quoted legal_string_literal_single_line_character). Qed.
Lemma quoted_string_first c s : c <> 34 -> quoted_string (c :: s) = Err.
Proof. apply (quoted_first legal_string_literal_character). Qed.
Lemma string_literal_first c s : c <> 34 -> string_literal (c :: s) = Err.
Proof. apply (quoted_first legal_string_literal_single_line_character). Qed.
Lemma quoted_string_outcome s :
  (exists r v, quoted_string s = Ok r v) \/ quoted_string s = Err \/ (exists q, quoted_string s = Fail q).
Proof. apply (quoted_outcome _ _ legal_spec); reflexivity. Qed.
Lemma string_literal_outcome s :
  (exists r v, string_literal s = Ok r v) \/ string_literal s = Err \/ (exists q, string_literal s = Fail q).
Proof. apply (quoted_outcome _ _ legal_line_spec); reflexivity. Qed.
