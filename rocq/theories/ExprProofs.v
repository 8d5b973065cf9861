(** * ExprProofs: the expression parser accepts exactly the grammar *)
From Verif Require Import Base Nom NomFacts Ast Lex Grammar WsFacts NumFacts StrFacts HeredocFacts Parser ParserFacts.

Lemma tag_first c t x s : x <> c -> tag (c :: t) (x :: s) = Err.
Proof. intros H. unfold tag. cbn [strip_prefix]. destruct (N.eqb_spec c x); [congruence|reflexivity]. Qed.
Lemma tag_nil c t : tag (c :: t) [] = Err.
Proof. reflexivity. Qed.

Definition ws_char (c : char) : bool :=
  (c =? 32) || (c =? 9) || (c =? 10) || (c =? 13) || (c =? 35) || (c =? 47).
Lemma ws_char_false c : ws_char c = false ->
  c <> 32 /\ c <> 9 /\ c <> 10 /\ c <> 13 /\ c <> 35 /\ c <> 47.
Proof. unfold ws_char. lia. Qed.
Lemma ws_rest_nonws c s : ws_char c = false -> ws_rest (c :: s) = c :: s.
Proof. intros H. apply ws_char_false in H. apply ws_rest_stop; tauto. Qed.
Lemma iws_rest_nonws c s : ws_char c = false -> iws_rest (c :: s) = c :: s.
Proof. intros H. apply ws_char_false in H. apply iws_rest_stop; tauto. Qed.

Lemma iws_ws_rest s : iws_rest (ws_rest s) = ws_rest s.
Proof.
  apply suffix_len_eq; [apply iws_rest_suffix|].
  pose proof (suffix_len _ _ (iws_rest_suffix (ws_rest s))).
  pose proof (suffix_len _ _ (ws_rest_suffix (iws_rest (ws_rest s)))) as H1.
  rewrite ws_rest_iws_rest, ws_rest_idem in H1. lia.
Qed.

Section WithTables.
Context (U : ucd).
Local Notation E := (expression U).

(** ** First characters *)
Definition term_first (c : char) : bool :=
  (c =? 110) || (c =? 116) || (c =? 102) || is_dec_digit c || (c =? 46) || (c =? 43) || (c =? 45)
  || (c =? 34) || (c =? 60) || (c =? 91) || (c =? 123) || (c =? 40).

Lemma lit_null : lit "null" = [110; 117; 108; 108]. Proof. reflexivity. Qed.
Lemma lit_true : lit "true" = [116; 114; 117; 101]. Proof. reflexivity. Qed.
Lemma lit_false : lit "false" = [102; 97; 108; 115; 101]. Proof. reflexivity. Qed.

Lemma GTerm_first e s r : GTerm U e s r -> exists c s', s = c :: s' /\ term_first c = true.
Proof.
  intros H. destruct H; try (eexists _, _; split; [reflexivity|reflexivity]).
  - destruct (NumLit_first _ _ H) as (c & t' & -> & Hc). exists c, (t' ++ r). split; [reflexivity|].
    unfold term_first. destruct Hc as [->|[->|[->| ->]]]; [|reflexivity..].
    rewrite !orb_true_r. reflexivity.
  - destruct H. eexists _, _. split; [reflexivity|reflexivity].
Qed.
Lemma term_first_nonws c : term_first c = true -> ws_char c = false.
Proof. unfold term_first, ws_char, is_dec_digit. lia. Qed.
Lemma GTerm_ws e s r : GTerm U e s r -> ws_rest s = s /\ iws_rest s = s.
Proof.
  intros H. apply GTerm_first in H as (c & s' & -> & H). apply term_first_nonws in H.
  split; [apply ws_rest_nonws|apply iws_rest_nonws]; exact H.
Qed.

Lemma id_first_nonws c : id_first U c = true -> ws_char c = false.
Proof.
  intros H. unfold ws_char. destruct (N.ltb_spec c 128) as [Hc|Hc]; [|lia].
  rewrite id_first_ascii in H by exact Hc. unfold is_ascii_alpha in H. lia.
Qed.
Lemma GIdent_ws i s r : GIdent U i s r -> ws_rest s = s /\ iws_rest s = s.
Proof.
  intros H. apply GIdent_first in H as (c & s' & -> & H). apply id_first_nonws in H.
  split; [apply ws_rest_nonws|apply iws_rest_nonws]; exact H.
Qed.
Lemma GKey_ws k s r : GKey U k s r -> ws_rest s = s /\ iws_rest s = s.
Proof. intros [i s' r' H|e t r' H _]; [eapply GIdent_ws, H|eapply GTerm_ws, H]. Qed.

Lemma GExpr_term e s r : GExpr U e s r -> ws_rest s = s -> GTerm U e s r.
Proof.
  intros [e' s' r' H|e' w s' r' Hw Hf H] Hs; [exact H|].
  rewrite ws_rest_ws in Hs by exact Hw. destruct (GTerm_ws _ _ _ H) as [H1 _].
  rewrite H1 in Hs. assert (w = []) as ->; [|exact H].
  apply (f_equal (@length _)) in Hs. rewrite app_length in Hs. destruct w; [reflexivity|cbn in Hs; lia].
Qed.

(** ** Each alternative fails on the wrong first character *)
Lemma null_first c s : c <> 110 -> null (c :: s) = Err.
Proof. intros H. unfold null, pmap. rewrite lit_null, tag_first by exact H. reflexivity. Qed.
Lemma boolean_first c s : c <> 116 -> c <> 102 -> boolean (c :: s) = Err.
Proof.
  intros H1 H2. unfold boolean, alt, pmap. rewrite lit_true, tag_first by exact H1. cbn [map_res bind].
  rewrite lit_false, tag_first by exact H2. reflexivity.
Qed.
Lemma tuple_first p c s : c <> 91 -> tuple p (c :: s) = Err.
Proof. intros H. unfold tuple, preceded. rewrite char_p_neq by exact H. reflexivity. Qed.
Lemma object_first p x c s : ws_rest x = c :: s -> c <> 123 -> object U p x = Err.
Proof.
  intros Hx H. unfold object. rewrite ws_m, wrap_ws, Hx, char_p_neq by exact H. reflexivity.
Qed.
Lemma bracket_first p x c s : ws_rest x = c :: s -> c <> 40 -> bracket_expression p x = Err.
Proof.
  intros Hx H. unfold bracket_expression. rewrite ws_m, wrap_ws, Hx.
  change (lit "(") with [40]. rewrite tag_first by exact H. reflexivity.
Qed.

Lemma alt_err {A} (p q : parser A) s : p s = Err -> alt p q s = q s.
Proof. intros H. unfold alt. rewrite H. reflexivity. Qed.
Lemma alt_ok_l {A} (p q : parser A) s r v : p s = Ok r v -> alt p q s = Ok r v.
Proof. intros H. unfold alt. rewrite H. reflexivity. Qed.
Lemma pmap_err {A B} (f : A -> B) p s : p s = Err -> pmap f p s = Err.
Proof. intros H. unfold pmap. rewrite H. reflexivity. Qed.
Lemma pmap_ok {A B} (f : A -> B) p s r v : p s = Ok r v -> pmap f p s = Ok r (f v).
Proof. intros H. unfold pmap. rewrite H. reflexivity. Qed.
Lemma pmap_inv {A B} (f : A -> B) p s r w : pmap f p s = Ok r w -> exists v, p s = Ok r v /\ w = f v.
Proof. apply map_res_ok. Qed.
Lemma alt_inv {A} (p q : parser A) s r v :
  alt p q s = Ok r v -> p s = Ok r v \/ (p s = Err /\ q s = Ok r v).
Proof. unfold alt. destruct (p s); auto; discriminate. Qed.

(** The alternatives of an expression are selected by the first character *)
Lemma step_compound p x c x' : x = c :: x' -> ws_char c = true \/ c = 123 \/ c = 40 ->
  expression_step U p x =
  alt (pmap EObject (object U p)) (bracket_expression p) x.
Proof.
  intros -> Hc. unfold expression_step.
  assert (Hn : c <> 110 /\ is_dec_digit c = false /\ c <> 46 /\ c <> 43 /\ c <> 45 /\ c <> 116 /\ c <> 102 /\
    c <> 34 /\ c <> 60 /\ c <> 91).
  { unfold ws_char, is_dec_digit in *. lia. }
  rewrite alt_err by (apply pmap_err, null_first; tauto).
  rewrite alt_err by (apply pmap_err, number_first_err; tauto).
  rewrite alt_err by (apply pmap_err, boolean_first; tauto).
  rewrite alt_err by (apply pmap_err, string_p_first; tauto).
  rewrite alt_err by (apply pmap_err, tuple_first; tauto).
  reflexivity.
Qed.

Lemma expression_nil : E [] = Err.
Proof. reflexivity. Qed.

Lemma expression_first_err c s : term_first c = false -> ws_char c = false -> E (c :: s) = Err.
Proof.
  intros H1 H2. rewrite expression_eq. unfold expression_step.
  assert (Hn : c <> 110 /\ is_dec_digit c = false /\ c <> 46 /\ c <> 43 /\ c <> 45 /\ c <> 116 /\ c <> 102 /\
    c <> 34 /\ c <> 60 /\ c <> 91 /\ c <> 123 /\ c <> 40).
  { unfold term_first in *. destruct (is_dec_digit c); lia. }
  rewrite alt_err by (apply pmap_err, null_first; tauto).
  rewrite alt_err by (apply pmap_err, number_first_err; tauto).
  rewrite alt_err by (apply pmap_err, boolean_first; tauto).
  rewrite alt_err by (apply pmap_err, string_p_first; tauto).
  rewrite alt_err by (apply pmap_err, tuple_first; tauto).
  rewrite alt_err by (apply pmap_err; eapply object_first; [apply ws_rest_nonws; exact H2|tauto]).
  eapply bracket_first; [apply ws_rest_nonws; exact H2|tauto].
Qed.

(** ** Soundness *)
Lemma boolean_ok s r b : boolean s = Ok r b -> s = lit (if b then "true" else "false") ++ r.
Proof.
  intros H. apply alt_inv in H as [H|[_ H]]; apply pmap_inv in H as (v & H & ->); apply tag_ok in H as [-> _]; reflexivity.
Qed.
Lemma null_ok s r u : null s = Ok r u -> s = lit "null" ++ r.
Proof. intros H. apply pmap_inv in H as (v & H & _). apply tag_ok in H as [-> _]. reflexivity. Qed.

Lemma ws_split s : exists w, Ws w /\ s = w ++ ws_rest s.
Proof. apply ws_rest_sound. Qed.
Lemma iws_split s : exists w, Iws w /\ s = w ++ iws_rest s.
Proof. apply iws_rest_sound. Qed.

(** The end of a tuple *)
Definition Close (s r : str) : Prop :=
  (exists w, Ws w /\ s = w ++ [93] ++ r) \/
  (exists w w', Ws w /\ Ws w' /\ s = w ++ [44] ++ w' ++ [93] ++ r).

Definition tuple_list (p : parser expr) : parser (list expr) :=
  separated_list (wrap whitespace (char_p c_comma)) (wrap whitespace p).

Lemma tuple_ok p s r l : tuple p s = Ok r l <->
  exists s1 r1, s = 91 :: s1 /\ tuple_list p s1 = Ok r1 l /\ Close r1 r.
Proof.
  unfold tuple, preceded, terminated at 1. split.
  - intros H. apply bind_ok in H as (s1 & v & H1 & H). apply char_p_ok in H1 as [-> _].
    apply bind_ok in H as (r1 & l' & H1 & H). rewrite ws_m in H1. apply bind_ok in H1 as (r2 & l2 & H1 & E1).
    injection E1 as <- <-. apply bind_ok in H as (r3 & u & H2 & H). injection H as <- <-.
    exists s1, r2. split; [reflexivity|]. split; [exact H1|].
    unfold terminated in H2. apply bind_ok in H2 as (r4 & o & H2 & H3).
    apply bind_ok in H3 as (r5 & u' & H3 & H4). injection H4 as <- <-.
    apply char_p_ok in H3 as [-> _]. rewrite ws_m, wrap_ws, ws_rest_idem in H2.
    apply bind_ok in H2 as (r6 & o' & H2 & H4). injection H4 as H4 <-.
    destruct (ws_split r2) as (w & Hw & Ew). destruct (ws_split r6) as (w' & Hw' & Ew').
    unfold opt in H2. destruct (simple_char c_comma (ws_rest r2)) as [(q & c & Ec)|Ec]; rewrite Ec in H2; injection H2 as <- <-.
    + apply char_p_ok in Ec as [Ec _]. right. exists w, w'. split; [exact Hw|]. split; [exact Hw'|].
      rewrite Ew, Ec. cbn [app]. rewrite Ew', H4. reflexivity.
    + left. exists w. split; [exact Hw|]. rewrite ws_rest_idem in H4. rewrite Ew, H4. reflexivity.
  - intros (s1 & r1 & -> & H & HC). rewrite char_p_eq. cbn [bind]. rewrite ws_m.
    unfold tuple_list in H. rewrite H. cbn [bind].
    unfold terminated. rewrite ws_m, wrap_ws, ws_rest_idem.
    destruct HC as [(w & Hw & ->)|(w & w' & Hw & Hw' & ->)]; rewrite ws_rest_ws by exact Hw; cbn [app];
      rewrite ws_rest_stop by lia.
    + unfold opt. rewrite char_p_neq by lia. cbn [bind]. rewrite ws_rest_stop by lia. rewrite char_p_eq. reflexivity.
    + unfold opt. rewrite char_p_eq. cbn [bind]. rewrite ws_rest_ws by exact Hw'. rewrite ws_rest_stop by lia.
      rewrite char_p_eq. reflexivity.
Qed.

Lemma wf_comma : wf (wrap whitespace (char_p c_comma)).
Proof. apply wf_wrap_ws, wf_char. Qed.
Lemma wf_wrap_E : wf (wrap whitespace E).
Proof. apply wf_wrap_ws, wf_expression. Qed.
Lemma sep_rest_unfold s :
  sep_rest (wrap whitespace (char_p c_comma)) (wrap whitespace E) s =
    match char_p c_comma (ws_rest s) with
    | Ok s2 _ =>
        match E (ws_rest s2) with
        | Ok s3 v => if Nat.eqb (length s3) (length s2) then Err
                     else map_res (cons v) (sep_rest (wrap whitespace (char_p c_comma)) (wrap whitespace E) s3)
        | Err => Ok s []
        | Fail q => Fail q
        | Panic => Panic
        | OutOfFuel => OutOfFuel
        end
    | _ => Ok s []
    end.
Proof.
  rewrite sep_rest_eq; [|apply wf_upto_of, wf_comma|apply wf_upto_of, wf_wrap_E].
  rewrite wrap_ws. destruct (simple_char c_comma (ws_rest s)) as [(r & v & Ec)|Ec]; rewrite Ec; [|reflexivity].
  apply char_p_ok in Ec as [Ec _].
  pose proof (suffix_len _ _ (ws_rest_suffix s)) as Hl. rewrite Ec in Hl. cbn in Hl.
  destruct (Nat.eqb_spec (length r) (length s)); [lia|]. rewrite wrap_ws. reflexivity.
Qed.

(** Everything of length below [n] is read soundly. *)
Definition SoundBelow (n : nat) : Prop :=
  forall s r e, (length s < n)%nat -> E s = Ok r e -> GExpr U e s r.

Lemma sep_sound n : SoundBelow n -> forall k s r l, (length s <= k)%nat -> (length s < n)%nat ->
  sep_rest (wrap whitespace (char_p c_comma)) (wrap whitespace E) s = Ok r l ->
  forall e s0 w rr, Ws w -> GExpr U e s0 s -> Close r rr -> GItems U (e :: l) (w ++ s0) rr.
Proof.
  intros HS. induction k as [|k IH]; intros s r l Hk Hn H e s0 w rr Hw He HC;
    rewrite sep_rest_unfold in H.
  - destruct s; [|cbn in Hk; lia]. cbn in H. injection H as <- <-.
    destruct HC as [(w' & _ & E1)|(w' & w'' & _ & _ & E1)]; destruct w'; discriminate.
  - assert (Hstop : Ok s [] = Ok r l -> GItems U (e :: l) (w ++ s0) rr).
    { intros [= <- <-]. destruct HC as [(w' & Hw' & ->)|(w1 & w2 & H1 & H2 & ->)].
      - eapply GI_last; eassumption.
      - eapply GI_last_comma; [exact Hw|exact H1|exact H2|exact He]. }
    destruct (char_p c_comma (ws_rest s)) as [s2 c| | | |] eqn:Ec; auto.
    apply char_p_ok in Ec as [Ec _]. destruct (ws_split s) as (w1 & Hw1 & Es).
    pose proof (suffix_len _ _ (ws_rest_suffix s)) as Hl. rewrite Ec in Hl. cbn in Hl.
    pose proof (suffix_len _ _ (ws_rest_suffix s2)) as Hl2.
    destruct (E (ws_rest s2)) as [s3 v| | | |] eqn:Ev; auto; try discriminate.
    pose proof (wf_expression U (ws_rest s2)) as Hg. rewrite Ev in Hg. cbn in Hg. apply suffix_len in Hg.
    destruct (Nat.eqb _ _); [discriminate|].
    apply map_res_ok in H as (l' & H & ->). destruct (ws_split s2) as (w2 & Hw2 & Es2).
    apply HS in Ev; [|lia].
    assert (HI : GItems U (v :: l') s2 rr).
    { rewrite Es2. eapply IH; [| |exact H|exact Hw2|exact Ev|exact HC]; lia. }
    eapply GI_cons; [exact Hw|exact Hw1| |exact HI].
    rewrite Es, Ec in He. exact He.
Qed.

Lemma tuple_sound n s r l : SoundBelow n -> (length s <= n)%nat -> tuple E s = Ok r l ->
  exists s1, s = 91 :: s1 /\ GItems U l s1 r.
Proof.
  intros HS Hn H. apply tuple_ok in H as (s1 & r1 & -> & H & HC). exists s1. split; [reflexivity|].
  cbn in Hn. unfold tuple_list in H. rewrite separated_list_eq, wrap_ws in H.
  destruct (ws_split s1) as (w & Hw & Es). pose proof (suffix_len _ _ (ws_rest_suffix s1)) as Hl.
  destruct (E (ws_rest s1)) as [r2 v| | | |] eqn:Ev; try discriminate.
  - destruct (Nat.eqb _ _); [discriminate|].
    apply map_res_ok in H as (l' & H & ->).
    pose proof (wf_expression U (ws_rest s1)) as Hg. rewrite Ev in Hg. cbn in Hg. apply suffix_len in Hg.
    apply HS in Ev; [|lia]. rewrite Es.
    eapply (sep_sound n HS (length r2)); [| |exact H|exact Hw|exact Ev|exact HC]; lia.
  - injection H as <- <-. destruct HC as [(w' & Hw' & ->)|(w1 & w2 & H1 & H2 & ->)].
    + apply GI_nil, Hw'.
    + apply GI_comma; assumption.
Qed.

(** ** Objects *)
Lemma GMembers_ws w l s r : Ws w -> GMembers U l s r -> GMembers U l (w ++ s) r.
Proof.
  intros Hw H. destruct H as [w' r Hw'|k e l w' i1 i2 i3 s s' s3 s4 r Hw' H1 H2 H3 Hk He Hs Hl].
  - rewrite app_assoc. apply GM_nil, Ws_app; assumption.
  - rewrite app_assoc. eapply GM_cons; [apply (Ws_app _ _ Hw Hw')|exact H1|exact H2|exact H3|exact Hk|exact He|exact Hs|exact Hl].
Qed.

Lemma object_separator_sound s r v : iws_rest s = s -> object_separator s = Ok r v ->
  (s = [44] ++ r) \/ (exists n w, LineEnd n /\ Ws w /\ s = n ++ w ++ r) \/ (s = r /\ FirstIs 125 s).
Proof.
  intros Hi H. apply alt_inv in H as [H|[_ H]].
  - apply tag_ok in H as [-> _]. left. reflexivity.
  - apply alt_inv in H as [H|[_ H]].
    + apply pmap_inv in H as (x & H & _). apply newline_sound in H; auto.
    + apply pmap_inv in H as (x & H & _). unfold peek in H. apply bind_ok in H as (r1 & v1 & H1 & H).
      injection H as <- <-. apply char_p_ok in H1 as [-> _]. right. right. split; [reflexivity|eexists; reflexivity].
Qed.

Definition member : parser (okey * expr) :=
  wrap whitespace (terminated (object_element U E) object_separator).
Lemma wf_member : wf member.
Proof. apply wf_wrap_ws, wf_terminated; [apply wf_object_element|apply wf_object_separator]. Qed.

Lemma key_sound n s r k : SoundBelow n -> (length s < n)%nat -> ws_rest s = s ->
  object_element_identifier U E s = Ok r k -> GKey U k s r.
Proof.
  intros HS Hn Hw H. apply alt_inv in H as [H|[H0 H]]; apply pmap_inv in H as (v & H & ->).
  - apply identifier_ok in H. constructor. exact H.
  - unfold recognize in H. apply bind_ok in H as (r' & e & H & E1). injection E1 as <- <-.
    pose proof (wf_expression U s) as Hg. rewrite H in Hg. destruct Hg as [t ->].
    rewrite firstn_consumed. apply HS in H; [|exact Hn]. apply (GK_expr U e).
    + apply GExpr_term; assumption.
    + intros i r1 Hi. apply identifier_ok in Hi. unfold pmap in H0. rewrite Hi in H0. discriminate.
Qed.

Lemma member_sound n s r k e : SoundBelow n -> (length s < n)%nat -> member s = Ok r (k, e) ->
  exists w i1 i2 i3 s0 s' s3 s4 w2, s = w ++ s0 /\ Ws w /\ Iws i1 /\ Iws i2 /\ Iws i3 /\
    GKey U k s0 (i1 ++ [61] ++ i2 ++ s') /\ GExpr U e s' (i3 ++ s3) /\
    (s3 = [44] ++ s4 \/ (exists n, LineEnd n /\ s3 = n ++ s4) \/ (s3 = s4 /\ FirstIs 125 s3)) /\
    Ws w2 /\ s4 = w2 ++ r.
Proof.
  intros HS Hn H. unfold member in H. rewrite wrap_ws in H.
  destruct (ws_split s) as (w & Hw & Es). pose proof (suffix_len _ _ (ws_rest_suffix s)) as Hl0.
  unfold terminated in H. apply bind_ok in H as (r1 & [k1 e1] & H & H9). apply bind_ok in H9 as (r2 & v2 & H2 & H9).
  injection H9 as <- <- <-.
  unfold object_element in H. rewrite iws_m in H. apply bind_ok in H as (r3 & ke & H & H9). injection H9 as <- ->.
  apply bind_ok in H as (q1 & k2 & Hk & H). rewrite wrap_iws, iws_ws_rest in Hk.
  apply bind_ok in H as (q2 & c & Hc & H). rewrite wrap_iws in Hc. apply char_p_ok in Hc as [Hc _].
  apply bind_ok in H as (q3 & e2 & He & H). rewrite wrap_iws in He. injection H as -> -> ->.
  pose proof (object_element_identifier_below U E n (wf_below_of _ _ (wf_expression U)) (ws_rest s) ltac:(lia)) as Hg.
  rewrite Hk in Hg. cbn in Hg. apply suffix_len in Hg.
  apply (key_sound n) in Hk; [|exact HS|lia|apply ws_rest_idem].
  pose proof (suffix_len _ _ (iws_rest_suffix q1)) as Hl1. rewrite Hc in Hl1. cbn in Hl1.
  pose proof (suffix_len _ _ (iws_rest_suffix q2)) as Hl2.
  apply HS in He; [|lia].
  destruct (iws_split q1) as (i1 & Hi1 & E1). destruct (iws_split q2) as (i2 & Hi2 & E2).
  destruct (iws_split r3) as (i3 & Hi3 & E3).
  apply object_separator_sound in H2; [|apply iws_rest_idem].
  rewrite Hc in E1. rewrite E1 in Hk. rewrite E2 in Hk. rewrite E3 in He.
  exists w, i1, i2, i3, (ws_rest s), (iws_rest q2), (iws_rest r3).
  destruct H2 as [H2|[(n0 & w2 & Hn0 & Hw2 & H2)|[H2 Hf]]].
  - exists r2, []. repeat (split; [assumption|]). split; [left; exact H2|]. split; [constructor|reflexivity].
  - exists (w2 ++ r2), w2. repeat (split; [assumption|]). split; [right; left; exists n0; auto|]. auto.
  - exists r2, []. repeat (split; [assumption|]). split; [right; right; auto|]. split; [constructor|reflexivity].
Qed.

Lemma members_sound n : SoundBelow n -> forall k s r l rr, (length s <= k)%nat -> (length s < n)%nat ->
  many0 member s = Ok r l -> ws_rest r = 125 :: rr -> GMembers U l s rr.
Proof.
  intros HS. induction k as [|k IH]; intros s r l rr Hk Hn H Hr;
    rewrite many0_eq in H by apply wf_upto_of, wf_member.
  - destruct s; [|cbn in Hk; lia]. cbn in H. injection H as <- <-. discriminate.
  - assert (Hstop : Ok s [] = Ok r l -> GMembers U l s rr).
    { intros [= <- <-]. destruct (ws_split s) as (w & Hw & Es). rewrite Es, Hr. apply GM_nil, Hw. }
    pose proof (wf_member s) as Hg.
    destruct (member s) as [r1 [k1 e1]| | | |] eqn:Em; auto; try discriminate.
    destruct (str_eqb r1 s) eqn:Eq; auto. apply str_eqb_neq in Eq.
    cbn in Hg. pose proof (suffix_neq_len _ _ Hg Eq) as Hl.
    apply map_res_ok in H as (l' & H & ->).
    apply (member_sound n) in Em; [|exact HS|exact Hn].
    destruct Em as (w & i1 & i2 & i3 & s0 & s' & s3 & s4 & w2 & -> & Hw & Hi1 & Hi2 & Hi3 & Hkey & He & Hs & Hw2 & ->).
    eapply GM_cons; [exact Hw|exact Hi1|exact Hi2|exact Hi3|exact Hkey|exact He|exact Hs|].
    apply GMembers_ws; [exact Hw2|]. eapply IH; [| |exact H|exact Hr]; lia.
Qed.

Lemma object_ok s r l : object U E s = Ok r l <->
  exists s1 r1, ws_rest s = 123 :: s1 /\ many0 member (ws_rest s1) = Ok r1 l /\ ws_rest r1 = 125 :: r.
Proof.
  unfold object. split.
  - intros H. rewrite ws_m, wrap_ws in H. apply bind_ok in H as (r1 & v1 & H1 & H).
    apply bind_ok in H1 as (s1 & c & H1 & H9). injection H9 as <- <-. apply char_p_ok in H1 as [H1 _].
    rewrite ws_m, wrap_ws, ws_rest_idem in H. apply bind_ok in H as (r2 & l2 & H2 & H).
    apply bind_ok in H as (r3 & c3 & H3 & H). injection H as -> ->.
    apply bind_ok in H2 as (r4 & l4 & H2 & H9). injection H9 as <- <-.
    unfold object_body in H2. rewrite ws_m in H2. apply bind_ok in H2 as (r5 & l5 & H2 & H9).
    injection H9 as <- <-. rewrite ws_rest_idem in H3. apply char_p_ok in H3 as [H3 _].
    exists s1, r5. auto.
  - intros (s1 & r1 & H1 & H2 & H3). rewrite ws_m, wrap_ws, H1, char_p_eq. cbn [bind].
    rewrite ws_m, wrap_ws, ws_rest_idem. unfold object_body. rewrite ws_m.
    unfold member in H2. rewrite H2. cbn [bind]. rewrite ws_rest_idem, H3, char_p_eq. reflexivity.
Qed.

Lemma bracket_ok p s r e : bracket_expression p s = Ok r e <->
  exists s1 r1, ws_rest s = 40 :: s1 /\ p (ws_rest s1) = Ok r1 e /\ ws_rest r1 = 41 :: r.
Proof.
  unfold bracket_expression. change (lit "(") with [40]. change (lit ")") with [41]. split.
  - intros H. rewrite ws_m, wrap_ws in H. apply bind_ok in H as (r1 & v1 & H1 & H).
    apply bind_ok in H1 as (s1 & c & H1 & H9). injection H9 as <- <-. apply tag_ok in H1 as [H1 _].
    rewrite ws_m, wrap_ws, ws_rest_idem in H. apply bind_ok in H as (r2 & l2 & H2 & H).
    apply bind_ok in H as (r3 & c3 & H3 & H). injection H as -> ->.
    apply bind_ok in H2 as (r4 & l4 & H2 & H9). injection H9 as <- <-.
    apply tag_ok in H3 as [H3 _]. exists s1, r4. auto.
  - intros (s1 & r1 & H1 & H2 & H3). rewrite ws_m, wrap_ws, H1. change (40 :: s1) with ([40] ++ s1).
    rewrite tag_app. cbn [bind]. rewrite ws_m, wrap_ws, ws_rest_idem, H2. cbn [bind].
    rewrite H3. change (41 :: r) with ([41] ++ r). rewrite tag_app. reflexivity.
Qed.

Lemma sound_step n : SoundBelow n -> SoundBelow (S n).
Proof.
  intros HS s r e Hs H. rewrite expression_eq in H. unfold expression_step in H.
  apply alt_inv in H as [H|[_ H]].
  { apply pmap_inv in H as (u & H & ->). apply null_ok in H as ->. apply GE_term, GT_null. }
  apply alt_inv in H as [H|[_ H]].
  { apply pmap_inv in H as (x & H & ->). apply number_spec in H as (t & -> & H1 & H2).
    apply GE_term, GT_number; assumption. }
  apply alt_inv in H as [H|[_ H]].
  { apply pmap_inv in H as (b & H & ->). apply boolean_ok in H as ->. apply GE_term. destruct b; constructor. }
  apply alt_inv in H as [H|[_ H]].
  { apply pmap_inv in H as (v & H & ->). apply string_p_ok in H as [(w & s' & -> & -> & H)|H].
    - apply GE_term. apply (GT_quoted U w s' r). exact H.
    - apply GE_term, GT_heredoc, H. }
  apply alt_inv in H as [H|[_ H]].
  { apply pmap_inv in H as (l & H & ->). apply (tuple_sound n) in H as (s1 & -> & H); [|exact HS|lia].
    apply GE_term, (GT_tuple U l s1 r), H. }
  destruct (ws_split s) as (w & Hw & Es). pose proof (suffix_len _ _ (ws_rest_suffix s)) as Hl.
  apply alt_inv in H as [H|[_ H]].
  { apply pmap_inv in H as (l & H & ->). apply object_ok in H as (s1 & r1 & H1 & H2 & H3).
    rewrite H1 in Hl. cbn in Hl. pose proof (suffix_len _ _ (ws_rest_suffix s1)) as Hl1.
    destruct (ws_split s1) as (w1 & Hw1 & Es1). rewrite Es, H1.
    apply GE_lead; [exact Hw|left; eexists; reflexivity|]. apply (GT_object U l s1 r).
    rewrite Es1. apply GMembers_ws; [exact Hw1|].
    eapply (members_sound n HS (length (ws_rest s1))); [| |exact H2|exact H3]; lia. }
  apply bracket_ok in H as (s1 & r1 & H1 & H2 & H3).
  rewrite H1 in Hl. cbn in Hl. pose proof (suffix_len _ _ (ws_rest_suffix s1)) as Hl1.
  destruct (ws_split s1) as (w1 & Hw1 & Es1). destruct (ws_split r1) as (w2 & Hw2 & Er1). rewrite Es, H1.
  apply GE_lead; [exact Hw|right; eexists; reflexivity|]. rewrite Es1. apply HS in H2; [|lia].
  rewrite Er1, H3 in H2. exact (GT_paren U e w1 w2 _ r Hw1 H2 Hw2).
Qed.

Theorem expression_sound s r e : E s = Ok r e -> GExpr U e s r.
Proof.
  assert (H : forall n, SoundBelow n).
  { induction n as [|n IH]; [intros ? ? ? H; lia|apply sound_step, IH]. }
  apply (H (S (length s))). lia.
Qed.

(** ** Completeness *)
Lemma GExpr_shape e s r : GExpr U e s r ->
  exists w s0, Ws w /\ s = w ++ s0 /\ GTerm U e s0 r.
Proof.
  intros [e' s' r' H|e' w s' r' Hw Hf H]; [exists [], s'; split; [constructor|]; auto|eauto].
Qed.

(** [E x] for [x] with white space before an object or a parenthesis *)
Lemma lead_char x c s : ws_rest x = c :: s -> c = 123 \/ c = 40 ->
  exists c0 x', x = c0 :: x' /\ (ws_char c0 = true \/ c0 = 123 \/ c0 = 40).
Proof.
  intros H Hc. destruct x as [|c0 x']; [discriminate|]. exists c0, x'. split; [reflexivity|].
  destruct (ws_char c0) eqn:E0; [auto|]. rewrite ws_rest_nonws in H by exact E0. injection H as -> _. auto.
Qed.

(** What completeness gives for an expression: also when leading white
    space has already been skipped *)
Definition Reads (e : expr) (s r : str) : Prop :=
  (length r < length s)%nat /\ E s = Ok r e /\
  (FirstIs 123 s \/ FirstIs 40 s -> forall x, ws_rest x = s -> E x = Ok r e).
Definition ReadsLead (e : expr) (s r : str) : Prop :=
  (length r < length s)%nat /\ E s = Ok r e /\ E (iws_rest s) = Ok r e /\ E (ws_rest s) = Ok r e /\
  (length r < length (ws_rest s))%nat.
Definition ReadsItems (l : list expr) (s r : str) : Prop :=
  exists r1, tuple_list E s = Ok r1 l /\ Close r1 r /\ (length r < length s)%nat.
Definition ReadsMembers (l : list (okey * expr)) (s r : str) : Prop :=
  (length r < length s)%nat /\
  forall x, ws_rest x = ws_rest s -> exists r1, many0 member x = Ok r1 l /\ ws_rest r1 = 125 :: r.
Definition ReadsKey (k : okey) (s r : str) : Prop :=
  (length r < length s)%nat /\ object_element_identifier U E s = Ok r k.

Lemma E_simple_alt (s r : str) e :
  expression_step U E s = Ok r e -> E s = Ok r e.
Proof. intros H. rewrite expression_eq. exact H. Qed.

Lemma not_comma_close r1 r : (exists w, Ws w /\ r1 = w ++ [93] ++ r) ->
  sep_rest (wrap whitespace (char_p c_comma)) (wrap whitespace E) r1 = Ok r1 [].
Proof.
  intros (w & Hw & ->). rewrite sep_rest_unfold, ws_rest_ws by exact Hw. cbn [app].
  rewrite ws_rest_stop by lia. rewrite char_p_neq by lia. reflexivity.
Qed.
Lemma comma_close r1 r : (exists w w', Ws w /\ Ws w' /\ r1 = w ++ [44] ++ w' ++ [93] ++ r) ->
  sep_rest (wrap whitespace (char_p c_comma)) (wrap whitespace E) r1 = Ok r1 [].
Proof.
  intros (w & w' & Hw & Hw' & ->). rewrite sep_rest_unfold, ws_rest_ws by exact Hw. cbn [app].
  rewrite ws_rest_stop by lia. rewrite char_p_eq. rewrite ws_rest_ws by exact Hw'.
  rewrite ws_rest_stop by lia. rewrite expression_first_err by reflexivity. reflexivity.
Qed.

Lemma tuple_list_cons e w s r1 l r2 : Ws w -> ReadsLead e s r1 ->
  sep_rest (wrap whitespace (char_p c_comma)) (wrap whitespace E) r1 = Ok r2 l ->
  tuple_list E (w ++ s) = Ok r2 (e :: l).
Proof.
  intros Hw (Hl & _ & _ & He & _) Hs. unfold tuple_list. rewrite separated_list_eq, wrap_ws.
  rewrite ws_rest_ws by exact Hw. rewrite He. rewrite app_length.
  destruct (Nat.eqb_spec (length r1) (length w + length s)); [lia|]. rewrite Hs. reflexivity.
Qed.
Lemma tuple_list_inv s r2 e l : tuple_list E s = Ok r2 (e :: l) ->
  exists r1, E (ws_rest s) = Ok r1 e /\ length r1 <> length s /\
    sep_rest (wrap whitespace (char_p c_comma)) (wrap whitespace E) r1 = Ok r2 l.
Proof.
  unfold tuple_list. rewrite separated_list_eq, wrap_ws.
  destruct (E (ws_rest s)) as [r1 v| | | |]; try discriminate.
  destruct (Nat.eqb_spec (length r1) (length s)); [discriminate|].
  intros H. apply map_res_ok in H as (l' & H & E1). injection E1 as -> ->. eauto.
Qed.

Lemma iws_to_eq i s : Iws i -> iws_rest (i ++ 61 :: s) = 61 :: s.
Proof. intros H. rewrite iws_rest_iws by exact H. apply iws_rest_stop; lia. Qed.

Lemma member_complete k e w i1 i2 i3 s0 s' s3 s4 x :
  ReadsKey k s0 (i1 ++ [61] ++ i2 ++ s') -> ws_rest s0 = s0 -> iws_rest s0 = s0 ->
  ReadsLead e s' (i3 ++ s3) -> Iws i1 -> Iws i2 -> Iws i3 ->
  (s3 = [44] ++ s4 \/ (exists n, LineEnd n /\ s3 = n ++ s4) \/ (s3 = s4 /\ FirstIs 125 s3)) ->
  Ws w -> ws_rest x = ws_rest (w ++ s0) ->
  exists r1, member x = Ok r1 (k, e) /\ ws_rest r1 = ws_rest s4 /\ r1 <> x.
Proof.
  intros [Hkl Hk] Hw0 Hi0 (Hl & He & Hei & _) Hi1 Hi2 Hi3 Hs Hw Hx.
  rewrite ws_rest_ws, Hw0 in Hx by exact Hw.
  assert (Hel : object_element U E s0 = Ok s3 (k, e)).
  { unfold object_element. rewrite iws_m. rewrite wrap_iws, Hi0, Hk. cbn [bind]. rewrite wrap_iws.
    cbn [app]. rewrite iws_to_eq by exact Hi1. rewrite char_p_eq. cbn [bind]. rewrite wrap_iws.
    rewrite iws_rest_iws by exact Hi2. rewrite Hei. cbn [bind]. rewrite iws_rest_iws by exact Hi3.
    f_equal. destruct Hs as [->|[(n & Hn & ->)|[-> [q ->]]]].
    - apply iws_rest_stop; lia.
    - apply iws_rest_LineEnd, Hn.
    - apply iws_rest_stop; lia. }
  assert (Hsep : exists r1 v, object_separator s3 = Ok r1 v /\ ws_rest r1 = ws_rest s4).
  { unfold object_separator. change (lit ",") with [44]. destruct Hs as [->|[(n & Hn & ->)|[-> [q ->]]]].
    - exists s4, [44]. split; [apply alt_ok_l, tag_app|reflexivity].
    - destruct (newline_complete n s4 Hn) as (r1 & v & H1 & H2).
      exists r1, []. split; [|exact H2]. rewrite alt_err.
      + apply alt_ok_l. apply (pmap_ok (fun _ => @nil char)) in H1. exact H1.
      + destruct Hn as [e0 [|]|c [t e0 Ht He0|t e0 Ht He0]]; reflexivity.
    - exists (125 :: q), []. split; [|reflexivity]. rewrite alt_err by reflexivity.
      rewrite alt_err by (apply pmap_err, newline_first_err; lia). reflexivity. }
  destruct Hsep as (r1 & v & Hsep & Hr1). exists r1.
  assert (Hm : member x = Ok r1 (k, e)).
  { unfold member. rewrite wrap_ws, Hx. unfold terminated. rewrite Hel. cbn [bind]. rewrite Hsep. reflexivity. }
  split; [exact Hm|]. split; [exact Hr1|].
  intros ->. pose proof (wf_object_separator s3) as Hg. rewrite Hsep in Hg. cbn in Hg. apply suffix_len in Hg.
  pose proof (suffix_len _ _ (ws_rest_suffix x)) as Hxx. rewrite Hx in Hxx.
  rewrite app_length in Hl. rewrite !app_length in Hkl. cbn [length] in *. lia.
Qed.

Lemma expression_complete_mut :
  (forall e s r, GTerm U e s r -> Reads e s r) /\
  (forall e s r, GExpr U e s r -> ReadsLead e s r) /\
  (forall l s r, GItems U l s r -> ReadsItems l s r) /\
  (forall l s r, GMembers U l s r -> ReadsMembers l s r) /\
  (forall k s r, GKey U k s r -> ReadsKey k s r).
Proof.
  assert (Hnolead : forall c s', c <> 123 -> c <> 40 -> ~ (FirstIs 123 (c :: s') \/ FirstIs 40 (c :: s'))).
  { intros c s' H1 H2 [[q [= E1 _]]|[q [= E1 _]]]; congruence. }
  apply grammar_mut.
  - (* null *) intros r. split; [rewrite app_length; cbn; lia|]. split.
    + apply E_simple_alt. unfold expression_step. apply alt_ok_l.
      apply (pmap_ok (fun _ => ENull) null _ _ tt). apply (pmap_ok (fun _ => tt) _ _ _ (lit "null")). apply tag_app.
    + intros H. exfalso. revert H. apply Hnolead; discriminate.
  - (* true *) intros r. split; [rewrite app_length; cbn; lia|]. split.
    + apply E_simple_alt. unfold expression_step.
      rewrite alt_err by reflexivity.
      rewrite alt_err by (cbn [lit app]; apply pmap_err, number_first_err; [reflexivity|discriminate..]).
      rewrite (alt_ok_l _ _ _ r (EBool true)); [reflexivity|].
      apply (pmap_ok EBool). apply alt_ok_l.
      apply (pmap_ok (fun _ => true) _ _ _ (lit "true")). apply tag_app.
    + intros H. exfalso. revert H. apply Hnolead; discriminate.
  - (* false *) intros r. split; [rewrite app_length; cbn; lia|]. split.
    + apply E_simple_alt. unfold expression_step.
      rewrite alt_err by reflexivity.
      rewrite alt_err by (cbn [lit app]; apply pmap_err, number_first_err; [reflexivity|discriminate..]).
      rewrite (alt_ok_l _ _ _ r (EBool false)); [reflexivity|].
      apply (pmap_ok EBool). unfold boolean. rewrite alt_err by reflexivity.
      apply (pmap_ok (fun _ => false) _ _ _ (lit "false")). apply tag_app.
    + intros H. exfalso. revert H. apply Hnolead; discriminate.
  - (* number *) intros n t r Hn HL. destruct (NumLit_first _ _ Hn) as (c & t' & Et & Hc).
    assert (Hc' : c <> 110 /\ c <> 123 /\ c <> 40) by (unfold is_dec_digit in Hc; lia).
    split; [rewrite app_length, Et; cbn [length]; lia|]. split.
    + apply E_simple_alt. unfold expression_step.
      rewrite alt_err by (rewrite Et; cbn [app]; apply pmap_err, null_first; tauto).
      apply alt_ok_l. apply pmap_ok. apply number_spec. eauto.
    + intros H. exfalso. revert H. rewrite Et. apply Hnolead; tauto.
  - (* quoted *) intros v s r H. 
    assert (Hq : string_p U ([34] ++ s) = Ok r (Owned v)).
    { apply string_p_ok. left. exists v, s. auto. }
    split.
    { pose proof (wf_string_p U ([34] ++ s)) as Hg. rewrite Hq in Hg. cbn in Hg.
      destruct (Nat.eq_dec (length r) (length ([34] ++ s))) as [El|El].
      - exfalso. apply suffix_len_eq in Hg; [|exact El].
        assert (Hgc : forall P v s r, GChars P v s r -> (length r <= length s)%nat).
        { clear. induction 1; cbn [length] in *; [lia|lia|]. cbn [app length]. rewrite app_length. lia. }
        apply Hgc in H. rewrite Hg in H. cbn [app length] in H. lia.
      - apply suffix_len in Hg. cbn [app length] in *. lia. }
    split.
    + apply E_simple_alt. unfold expression_step. cbn [app] in *.
      rewrite alt_err by reflexivity.
      rewrite alt_err by (apply pmap_err, number_first_err; [reflexivity|discriminate..]).
      rewrite alt_err by reflexivity. apply alt_ok_l. apply pmap_ok. exact Hq.
    + intros H'. exfalso. revert H'. apply Hnolead; discriminate.
  - (* heredoc *) intros v s r H.
    assert (Hq : string_p U s = Ok r v) by (apply string_p_ok; right; exact H).
    assert (Hs : exists s', s = 60 :: s') by (destruct H; eexists; reflexivity). destruct Hs as [s' ->].
    split.
    { destruct H as [d m p b t r v Hm Hd Hc _ _]. destruct Hc as (e1 & e2 & r' & _ & _ & _ & -> & ->).
      rewrite !app_length. cbn [length]. lia. }
    split.
    + apply E_simple_alt. unfold expression_step.
      rewrite alt_err by reflexivity.
      rewrite alt_err by (apply pmap_err, number_first_err; [reflexivity|discriminate..]).
      rewrite alt_err by reflexivity. apply alt_ok_l. apply pmap_ok. exact Hq.
    + intros H'. exfalso. revert H'. apply Hnolead; discriminate.
  - (* tuple *) intros l s r _ (r1 & H1 & H2 & H3). split; [cbn [app length]; lia|]. split.
    + apply E_simple_alt. unfold expression_step. cbn [app].
      rewrite alt_err by reflexivity.
      rewrite alt_err by (apply pmap_err, number_first_err; [reflexivity|discriminate..]).
      rewrite alt_err by reflexivity.
      rewrite alt_err by (apply pmap_err, string_p_first; discriminate).
      apply alt_ok_l. apply pmap_ok. apply tuple_ok. eauto.
    + intros H'. exfalso. revert H'. apply Hnolead; discriminate.
  - (* object *) intros l s r _ [Hl H].
    assert (Hx : forall x, ws_rest x = 123 :: s -> E x = Ok r (EObject l)).
    { intros x Hx. destruct (lead_char x 123 s Hx (or_introl eq_refl)) as (c0 & x' & Ex & Hc0).
      apply E_simple_alt. rewrite (step_compound E x c0 x' Ex Hc0).
      apply alt_ok_l. apply pmap_ok. apply object_ok.
      destruct (H (ws_rest s) (ws_rest_idem s)) as (r1 & H1 & H2). exists s, r1. auto. }
    split; [cbn [app length]; lia|]. split; [|intros _; exact Hx].
    apply Hx. apply ws_rest_stop; lia.
  - (* parentheses *) intros e w1 w2 s r Hw1 _ (Hl & _ & _ & He & _) Hw2.
    assert (Hx : forall x, ws_rest x = 40 :: w1 ++ s -> E x = Ok r e).
    { intros x Hx. destruct (lead_char x 40 _ Hx (or_intror eq_refl)) as (c0 & x' & Ex & Hc0).
      apply E_simple_alt. rewrite (step_compound E x c0 x' Ex Hc0).
      rewrite alt_err by (apply pmap_err; eapply object_first; [exact Hx|discriminate]).
      apply bracket_ok. exists (w1 ++ s), (w2 ++ [41] ++ r). split; [exact Hx|].
      rewrite ws_rest_ws by exact Hw1. split; [exact He|].
      rewrite ws_rest_ws by exact Hw2. apply ws_rest_stop; lia. }
    split; [cbn [app length]; rewrite !app_length in *; cbn [length] in *; lia|].
    split; [|intros _; exact Hx]. apply Hx. apply ws_rest_stop; lia.
  - (* GE_term *) intros e s r Ht (Hl & He & _). destruct (GTerm_ws _ _ _ Ht) as [H1 H2].
    split; [exact Hl|]. split; [exact He|]. rewrite H1, H2. auto.
  - (* GE_lead *) intros e w s r Hw Hf Ht (Hl & He & Hx). destruct (GTerm_ws _ _ _ Ht) as [H1 H2].
    assert (Hws : ws_rest (w ++ s) = s) by (rewrite ws_rest_ws by exact Hw; exact H1).
    split; [rewrite app_length; lia|]. split; [apply (Hx Hf); exact Hws|].
    split; [apply (Hx Hf); rewrite ws_rest_iws_rest; exact Hws|]. rewrite Hws. auto.
  - (* GI_nil *) intros w r Hw. exists (w ++ [93] ++ r). split.
    + unfold tuple_list. rewrite separated_list_eq, wrap_ws, ws_rest_ws by exact Hw. cbn [app].
      rewrite ws_rest_stop by lia. rewrite expression_first_err by reflexivity. reflexivity.
    + split; [left; eauto|]. rewrite !app_length. cbn. lia.
  - (* GI_comma *) intros w1 w2 r Hw1 Hw2. exists (w1 ++ [44] ++ w2 ++ [93] ++ r). split.
    + unfold tuple_list. rewrite separated_list_eq, wrap_ws, ws_rest_ws by exact Hw1. cbn [app].
      rewrite ws_rest_stop by lia. rewrite expression_first_err by reflexivity. reflexivity.
    + split; [right; eauto|]. rewrite !app_length. cbn [length]. lia.
  - (* GI_last *) intros e w1 w2 s r Hw1 Hw2 _ He. exists (w2 ++ [93] ++ r). split.
    + eapply tuple_list_cons; [exact Hw1|exact He|]. eapply not_comma_close. eauto.
    + split; [left; eauto|]. destruct He as [Hl _]. rewrite !app_length in *. cbn [length] in *. lia.
  - (* GI_last_comma *) intros e w1 w2 w3 s r Hw1 Hw2 Hw3 _ He. exists (w2 ++ [44] ++ w3 ++ [93] ++ r). split.
    + eapply tuple_list_cons; [exact Hw1|exact He|]. eapply comma_close. eauto.
    + split; [right; eauto|]. destruct He as [Hl _]. rewrite !app_length in *. cbn [length] in *.
      lia.
  - (* GI_cons *) intros e e' l w1 w2 s s' r Hw1 Hw2 _ He _ (r1 & H1 & H2 & H3). exists r1. split.
    + eapply tuple_list_cons; [exact Hw1|exact He|].
      apply tuple_list_inv in H1 as (r2 & H4 & H5 & H6).
      rewrite sep_rest_unfold, ws_rest_ws by exact Hw2. cbn [app]. rewrite ws_rest_stop by lia.
      rewrite char_p_eq, H4. destruct (Nat.eqb_spec (length r2) (length s')); [contradiction|].
      rewrite H6. reflexivity.
    + split; [exact H2|]. destruct He as [Hl _]. rewrite !app_length in *. cbn [length] in *. lia.
  - (* GM_nil *) intros w r Hw. split; [rewrite !app_length; cbn; lia|].
    intros x Hx. rewrite ws_rest_ws in Hx by exact Hw. cbn [app] in Hx. rewrite ws_rest_stop in Hx by lia.
    exists x. split; [|exact Hx]. rewrite many0_eq by apply wf_upto_of, wf_member.
    assert (Em : member x = Err).
    { unfold member. rewrite wrap_ws, Hx. unfold terminated, object_element. rewrite iws_m.
      rewrite wrap_iws, iws_rest_stop by lia.
      assert (Ek : object_element_identifier U E (125 :: r) = Err).
      { unfold object_element_identifier. rewrite alt_err.
        - unfold recognize, pmap. rewrite expression_first_err by reflexivity. reflexivity.
        - apply pmap_err, identifier_first_err. rewrite id_first_ascii by lia. reflexivity. }
      rewrite Ek. reflexivity. }
    rewrite Em. reflexivity.
  - (* GM_cons *) intros k e l w i1 i2 i3 s s' s3 s4 r Hw Hi1 Hi2 Hi3 Hk HRk He HRe Hs _ [Hl HRl].
    destruct (GKey_ws _ _ _ Hk) as [Hk1 Hk2]. split.
    + destruct HRk as [Hkl _]. destruct HRe as [Hel _]. rewrite !app_length in *. cbn [length] in *.
      assert (length s4 <= length s3)%nat.
      { destruct Hs as [->|[(n & Hn & ->)|[-> _]]]; [cbn; lia|rewrite app_length; lia|lia]. }
      lia.
    + intros x Hx.
      destruct (member_complete k e w i1 i2 i3 s s' s3 s4 x HRk Hk1 Hk2 HRe Hi1 Hi2 Hi3 Hs Hw Hx) as (r1 & Hm & Hr1 & Hne).
      destruct (HRl r1 Hr1) as (r2 & Hr2 & Hr3). exists r2. split; [|exact Hr3].
      rewrite many0_eq by apply wf_upto_of, wf_member. rewrite Hm.
      apply str_eqb_neq in Hne. rewrite Hne, Hr2. reflexivity.
  - (* GK_ident *) intros i s r H. split.
    + destruct H as (t & _ & -> & (c & cs & -> & _) & _). rewrite app_length. cbn [length]. lia.
    + apply identifier_ok in H. unfold object_element_identifier. apply alt_ok_l, pmap_ok. exact H.
  - (* GK_expr *) intros e t r Ht (Hl & He & _) Hno. split; [exact Hl|].
    unfold object_element_identifier. rewrite alt_err by (apply pmap_err, identifier_err; exact Hno).
    apply (pmap_ok (fun t => KExpr (Borrowed t))). unfold recognize. rewrite He. cbn [bind].
    rewrite firstn_consumed. reflexivity.
Qed.

Theorem expression_complete s r e : GExpr U e s r -> E s = Ok r e.
Proof. intros H. apply expression_complete_mut in H as (_ & H & _). exact H. Qed.
Lemma expression_reads s r e : GExpr U e s r -> ReadsLead e s r.
Proof. apply expression_complete_mut. Qed.

Theorem expression_spec s r e : E s = Ok r e <-> GExpr U e s r.
Proof. split; [apply expression_sound|apply expression_complete]. Qed.
End WithTables.
