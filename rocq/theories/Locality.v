(** * Locality: what follows a syntactic construct can be exchanged

    If [s] is a text of [e] followed by [r], the text consumed does not depend on
    [r] except through its first character (is it a delimiter) and through
    whether it starts with a line end (needed by a heredoc). *)
From Verif Require Import Base Nom NomFacts Ast Lex Grammar WsFacts NumFacts StrFacts HeredocFacts
  Parser ParserFacts ExprProofs BodyProofs.

Lemma app_prefix_le (t r t' r' : str) :
  t ++ r = t' ++ r' -> (length t <= length t')%nat -> exists z, t' = t ++ z /\ r = z ++ r'.
Proof.
  intros E H. destruct (Nat.eq_dec (length t) (length t')) as [Hl|Hl].
  - apply app_same_len in E as [-> ->]; [|exact Hl]. exists []. rewrite app_nil_r. auto.
  - apply app_prefix in E as (c & y & -> & ->); [|lia]. exists (c :: y). auto.
Qed.

Definition delim_char (c : char) : bool :=
  (c <? 128) && negb (is_ascii_alpha c || is_dec_digit c || (c =? 95) || (c =? 45) || (c =? 46)).
Definition Delim (r : str) : Prop := match r with [] => True | c :: _ => delim_char c = true end.
Definition EolAt (r : str) : Prop := exists e r', Eol e /\ r = e ++ r'.

Lemma EolAt_cons c r : EolAt (c :: r) -> c = 10 \/ (c = 13 /\ FirstIs 10 r).
Proof.
  intros (e & r' & [|] & E); cbn [app] in E; injection E as -> ->; [left|right]; [reflexivity|].
  split; [reflexivity|eexists; reflexivity].
Qed.
Lemma EolAt_lf r : EolAt (10 :: r).
Proof. exists [10], r. split; [constructor|reflexivity]. Qed.
Lemma EolAt_crlf r : EolAt (13 :: 10 :: r).
Proof. exists [13; 10], r. split; [constructor|reflexivity]. Qed.
Lemma EolAt_mid x c y y' : c <> 13 -> EolAt (x ++ c :: y) -> EolAt (x ++ c :: y').
Proof.
  intros Hc H. destruct x as [|a [|a' x]]; cbn [app] in *; apply EolAt_cons in H as [->|[-> [q E]]]; try apply EolAt_lf.
  - congruence.
  - injection E as -> _. apply EolAt_crlf.
  - injection E as -> _. apply EolAt_crlf.
Qed.
Lemma EolAt_LineEnd x n y y' : LineEnd n -> EolAt (x ++ n ++ y) -> EolAt (x ++ n ++ y').
Proof.
  intros [e [|]|c [t e Ht He|t e Ht He]] H; cbn [app] in *.
  - eapply EolAt_mid; [|exact H]. lia.
  - replace (x ++ 13 :: 10 :: y) with ((x ++ [13]) ++ 10 :: y) in H by (rewrite <- app_assoc; reflexivity).
    replace (x ++ 13 :: 10 :: y') with ((x ++ [13]) ++ 10 :: y') by (rewrite <- app_assoc; reflexivity).
    eapply EolAt_mid; [|exact H]. lia.
  - eapply EolAt_mid; [|exact H]. lia.
  - eapply EolAt_mid; [|exact H]. lia.
Qed.

Lemma Delim_ws w r : Ws w -> Delim r -> Delim (w ++ r).
Proof.
  intros Hw Hr. destruct Hw as [|c w' Hc Hw|c w' [t Ht] Hw|c w' [t e Ht He|t e Ht He] Hw]; cbn; try reflexivity; [exact Hr|].
  destruct Hc as [->|[->|[->| ->]]]; reflexivity.
Qed.
Lemma Delim_iws w r : Iws w -> Delim r -> Delim (w ++ r).
Proof. intros H. apply Delim_ws, Iws_Ws, H. Qed.
Lemma Delim_LineEnd n r : LineEnd n -> Delim (n ++ r).
Proof. intros [e [|]|c [t e Ht He|t e Ht He]]; reflexivity. Qed.

Section WithTables.
Context (U : ucd).

Lemma delim_not_id c : delim_char c = true -> id_char U c = false.
Proof.
  intros H. unfold delim_char in H. apply andb_true_iff in H as [H1 H2]. rewrite id_char_ascii by lia.
  destruct (is_ascii_alpha c), (is_dec_digit c), (c =? 95), (c =? 45); try discriminate; reflexivity.
Qed.
Lemma Delim_stops r : Delim r -> stops (id_char U) r.
Proof. destruct r as [|c r]; [intros; exact I|]. apply delim_not_id. Qed.
Lemma Delim_follow n r : Delim r -> Follow n r.
Proof.
  intros H. destruct r as [|c r].
  - split; [exact I|]. split; [intros _ (? & ? & ? & ? & ? & ? & _ & _ & [=])|intros _ _ [q [=]]].
  - cbn in H. unfold delim_char in H. apply andb_true_iff in H as [H1 H2].
    split; [|split].
    + cbn. destruct (is_dec_digit c); [|reflexivity]. rewrite orb_true_r in H2. discriminate.
    + intros _ (e & b & sg & c' & r' & He & _ & _ & [= -> _]). destruct He as [->| ->]; discriminate.
    + intros _ _ [q [= -> _]]. discriminate.
Qed.

Lemma GIdent_replace i s r : GIdent U i s r -> exists t, s = t ++ r /\ t <> [] /\
  forall r', Delim r' -> GIdent U i (t ++ r') r'.
Proof.
  intros (t & -> & -> & H). exists t. split; [reflexivity|].
  apply Longest_ident in H as [H1 H2]. split; [destruct H1 as (? & ? & -> & _); discriminate|].
  intros r' Hr. exists t. split; [reflexivity|]. split; [reflexivity|]. apply Longest_ident.
  split; [exact H1|apply Delim_stops, Hr].
Qed.

(** ** Strings *)
Lemma GChars_replace P v s q r : GChars P v s (34 :: q) -> exists t, s = t ++ 34 :: q /\
  GChars P v (t ++ 34 :: r) (34 :: r).
Proof.
  intros H. remember (34 :: q) as R eqn:ER. induction H as [R'|c v s R' Hc H IH|n t v s R' He Hl Hv H IH].
  - subst. exists []. split; [reflexivity|constructor].
  - destruct (IH ER) as (t & -> & IH'). exists (c :: t). split; [reflexivity|]. cbn [app]. apply GC_char; assumption.
  - destruct (IH ER) as (t' & -> & IH'). exists ([92] ++ t ++ t'). split; [rewrite <- !app_assoc; reflexivity|].
    rewrite <- !app_assoc. apply GC_esc; try assumption.
    subst R'. destruct Hl as [HT Hm]. split; [exact HT|].
    intros x y E (n' & Hx).
    (* an escape is at most as long as before: it contains no double quote except alone *)
    destruct (Nat.le_gt_cases (length x) (length t)) as [Hle|Hgt]; [exact Hle|]. exfalso.
    assert (Hin : exists z, x = t ++ z /\ z <> []).
    { apply app_prefix_le in E; [|lia]. destruct E as (z & -> & _). exists z. split; [reflexivity|]. intros ->.
      rewrite app_nil_r in Hgt. lia. }
    destruct Hin as (z & -> & Hz). rewrite <- app_assoc in E. apply app_inv_head in E.
    assert (Hq : ~ In 34 z).
    { intros Hi. destruct t as [|t0 t1]; [apply EscShape_nonempty in He; congruence|]. cbn [app] in Hx.
      clear - Hx Hi. assert (H34 : In 34 (t1 ++ z)) by (apply in_or_app; auto).
      inversion Hx; subst; try (cbn in H34; destruct (t1 ++ z); [contradiction|discriminate]);
      try (match goal with H : [] = t1 ++ z |- _ => rewrite <- H in H34; contradiction end).
      - match goal with H : OctDigits _ |- _ => specialize (H 34 (or_intror H34)) end. lia.
      - match goal with H : HexDigits _ |- _ => specialize (H 34 H34) end. lia.
      - match goal with H : HexDigits _ |- _ => specialize (H 34 H34) end. lia.
      - match goal with H : HexDigits _ |- _ => specialize (H 34 H34) end. lia. }
    assert (Hz' : exists z', t' = z ++ z').
    { destruct (Nat.le_gt_cases (length z) (length t')) as [Hlz|Hgz].
      - symmetry in E. apply app_prefix_le in E; [|lia]. destruct E as (z' & -> & _). eauto.
      - exfalso. apply Hq. apply app_prefix_le in E; [|lia]. destruct E as (z' & -> & E').
        apply in_or_app. right. destruct z' as [|c z']; [rewrite app_nil_r in Hgz; lia|]. cbn in E'. injection E' as <- _. left; reflexivity. }
    destruct Hz' as (z' & ->).
    specialize (Hm (t ++ z) (z' ++ 34 :: q)). rewrite <- !app_assoc in Hm.
    specialize (Hm eq_refl (ex_intro _ n' Hx)). rewrite app_length in *. destruct z; [congruence|]. cbn [length] in *. lia.
Qed.

(** ** Heredocs *)
Definition eolchar (c : char) : bool := (c =? 10) || (c =? 13).

(** The first line-end character of a text is where it is. *)
Lemma first_eol a x b y : forallb (fun c => negb (eolchar c)) a = true ->
  (exists c q, x = c :: q /\ eolchar c = true) -> (exists c q, y = c :: q /\ eolchar c = true) ->
  a ++ x = b ++ y -> exists z, b = a ++ z /\ x = z ++ y.
Proof.
  intros Ha (c & q & -> & Hc) (c' & q' & -> & Hc') E.
  destruct (Nat.le_gt_cases (length a) (length b)) as [Hl|Hl]; [apply app_prefix_le; assumption|].
  exfalso. symmetry in E. apply app_prefix in E as (d & z & -> & E); [|exact Hl]. injection E as -> _.
  rewrite forallb_app in Ha. cbn in Ha. rewrite Hc' in Ha. rewrite andb_false_r in Ha. discriminate.
Qed.

Lemma EolAt_front y e r r' : Eol e -> EolAt (y ++ e ++ r) -> EolAt (y ++ e ++ r').
Proof. intros He. apply EolAt_LineEnd. constructor. exact He. Qed.

Lemma no_eol_blanks b : Blanks b -> forallb (fun c => negb (eolchar c)) b = true.
Proof.
  intros H. apply forallb_forall. intros c Hc. apply H in Hc. unfold eolchar. lia.
Qed.
Lemma no_eol_marker m : MarkerText U m -> forallb (fun c => negb (eolchar c)) m = true.
Proof.
  intros [_ H]. apply forallb_forall. intros c Hc. apply H, marker_spec, marker_not in Hc. unfold eolchar. lia.
Qed.
Lemma Eol_head e r : Eol e -> exists c q, e ++ r = c :: q /\ eolchar c = true.
Proof. intros [|]; eexists _, _; (split; [reflexivity|reflexivity]). Qed.

Lemma Closing_replace m b e y b' r r' R : MarkerText U m -> Blanks b -> Eol e -> y <> [] ->
  EolAt r -> Closing m b' (y ++ e ++ b ++ m ++ r') R ->
  exists b2 R2, Closing m b2 (y ++ e ++ b ++ m ++ r) R2.
Proof.
  intros Hm Hb He Hy Hr (e1 & e1' & R' & He1 & Hb' & He1' & -> & E).
  assert (Hrest : forall y1, b' ++ m ++ e1' ++ R' = y1 ++ e ++ b ++ m ++ r' ->
    exists R2, y1 ++ e ++ b ++ m ++ r = b' ++ m ++ R2 /\ EolAt R2).
  { intros y1 E1. rewrite app_assoc in E1. apply first_eol in E1 as (z & Ez & Ez').
    - exists (z ++ e ++ b ++ m ++ r). split; [subst y1; rewrite <- !app_assoc; reflexivity|].
      eapply EolAt_front; [exact He|]. rewrite <- Ez'. exists e1', R'. auto.
    - rewrite forallb_app, no_eol_blanks, no_eol_marker by assumption. reflexivity.
    - apply Eol_head, He1'.
    - apply Eol_head, He. }
  assert (Hdone : forall e0 y1, Eol e0 -> y = e0 ++ y1 -> b' ++ m ++ e1' ++ R' = y1 ++ e ++ b ++ m ++ r' ->
    exists b2 R2, Closing m b2 (y ++ e ++ b ++ m ++ r) R2).
  { intros e0 y1 He0 -> E1. destruct (Hrest y1 E1) as (R2 & E2 & (e2 & R3 & He2 & ->)).
    exists b', (e2 ++ R3), e0, e2, R3. split; [exact He0|]. split; [exact Hb'|]. split; [exact He2|]. split; [reflexivity|].
    rewrite <- app_assoc, E2. reflexivity. }
  destruct He1; cbn [app] in E.
  - destruct y as [|y0 y]; [congruence|]. cbn [app] in E. injection E as -> E.
    apply (Hdone [10] y); [constructor|reflexivity|auto].
  - destruct y as [|y0 [|y1 y]]; [congruence| |].
    + cbn [app] in E. injection E as -> E. destruct He; cbn [app] in E; [|injection E as ? _; discriminate].
      destruct Hr as (er & rr & Her & ->). exists b, (er ++ rr), [13; 10], er, rr.
      split; [constructor|]. split; [exact Hb|]. split; [exact Her|]. split; [reflexivity|]. reflexivity.
    + cbn [app] in E. injection E as -> -> E. apply (Hdone [13; 10] y); [constructor|reflexivity|auto].
Qed.

Lemma GHeredoc_replace v s r : GHeredoc U v s r -> exists t, s = t ++ r /\ t <> [] /\
  forall r', EolAt r' -> GHeredoc U v (t ++ r') r'.
Proof.
  intros [d m p b t r0 v' Hm Hd Hc Hn Hv].
  destruct Hc as (e & e' & q & He & Hb & He' & -> & ->).
  exists ([60; 60] ++ d ++ m ++ p ++ e ++ b ++ m). split; [rewrite <- !app_assoc; reflexivity|]. split; [discriminate|].
  intros r' Hr'. rewrite <- !app_assoc. eapply GH; [exact Hm|exact Hd| | |exact Hv].
  - destruct Hr' as (e2 & q2 & He2 & ->). exists e, e2, q2. auto.
  - intros x y b' R Hp Hy HC.
    apply (Closing_replace m b e y b' (e' ++ q) r' R Hm Hb He Hy) in HC; [|exists e', q; auto].
    destruct HC as (b2 & R2 & HC). exact (Hn x y b2 R2 Hp Hy HC).
Qed.
Lemma GHeredoc_EolAt v s r : GHeredoc U v s r -> EolAt r.
Proof. intros [d m p b t r0 v' Hm Hd (e & e' & q & He & Hb & He' & -> & ->) Hn Hv]. exists e', q. auto. Qed.

(** ** Expressions *)
Definition Repl (G : str -> str -> Prop) (s r : str) : Prop :=
  exists t, s = t ++ r /\ t <> [] /\
    forall r', Delim r' -> (EolAt r -> EolAt r') -> G (t ++ r') r'.
Definition ReplAll (G : str -> str -> Prop) (s r : str) : Prop :=
  exists t, s = t ++ r /\ t <> [] /\ forall r', G (t ++ r') r'.

Lemma FirstIs_app c t r r' : t <> [] -> FirstIs c (t ++ r) -> FirstIs c (t ++ r').
Proof. intros Ht [q E]. destruct t as [|x t]; [congruence|]. cbn in *. injection E as -> _. eexists; reflexivity. Qed.

Lemma cons_app_inv (c : char) x y r : y <> [] -> c :: x = y ++ r -> exists z, y = c :: z /\ x = z ++ r.
Proof. intros Hy E. destruct y as [|y0 y]; [congruence|]. cbn in E. injection E as -> ->. eauto. Qed.

Ltac split_repl t Hr :=
  exists t; split; [rewrite <- ?app_assoc; cbn [app]; rewrite <- ?app_assoc; reflexivity|split;
    [let E := fresh in intros E; repeat (apply app_eq_nil in E as [? E]); try discriminate; congruence|intros r' ]].

Lemma grammar_replace :
  (forall e s r, GTerm U e s r -> Repl (GTerm U e) s r) /\
  (forall e s r, GExpr U e s r -> Repl (GExpr U e) s r) /\
  (forall l s r, GItems U l s r -> ReplAll (GItems U l) s r) /\
  (forall l s r, GMembers U l s r -> ReplAll (GMembers U l) s r) /\
  (forall k s r, GKey U k s r -> Repl (GKey U k) s r).
Proof.
  apply (grammar_mut U
    (fun e s r _ => Repl (GTerm U e) s r) (fun e s r _ => Repl (GExpr U e) s r)
    (fun e s r _ => ReplAll (GItems U e) s r) (fun e s r _ => ReplAll (GMembers U e) s r)
    (fun e s r _ => Repl (GKey U e) s r)).
  - intros r. exists (lit "null"). repeat split; [discriminate|]. constructor.
  - intros r. exists (lit "true"). repeat split; [discriminate|]. constructor.
  - intros r. exists (lit "false"). repeat split; [discriminate|]. constructor.
  - intros n t r H Hl. exists t. split; [reflexivity|]. split.
    + apply NumLit_first in H as (c & t' & -> & _). discriminate.
    + intros r' Hr _. constructor; [exact H|]. apply (Longest_number n); [exact H|apply Delim_follow, Hr].
  - intros v s r H. destruct (GChars_replace _ _ _ _ r H) as (t & -> & _).
    exists ([34] ++ t ++ [34]). split; [rewrite <- !app_assoc; reflexivity|]. split; [discriminate|].
    intros r' _ _. destruct (GChars_replace _ _ _ _ r' H) as (t' & E & H').
    apply app_inv_tail in E as <-. rewrite <- !app_assoc. constructor. exact H'.
  - intros v s r H. pose proof (GHeredoc_EolAt _ _ _ H) as HE.
    apply GHeredoc_replace in H as (t & -> & Ht & H). exists t. repeat split; [exact Ht|].
    intros r' _ Hr'. constructor. apply H, Hr', HE.
  - intros l s r _ (t & -> & Ht & H). exists ([91] ++ t). repeat split; [discriminate|].
    intros r' _ _. rewrite <- app_assoc. constructor. apply H.
  - intros l s r _ (t & -> & Ht & H). exists ([123] ++ t). repeat split; [discriminate|].
    intros r' _ _. rewrite <- app_assoc. constructor. apply H.
  - intros e w1 w2 s r Hw1 _ (t & -> & Ht & H) Hw2. exists ([40] ++ w1 ++ t ++ w2 ++ [41]).
    split; [rewrite <- !app_assoc; reflexivity|]. split; [discriminate|].
    intros r' _ _. rewrite <- !app_assoc. eapply GT_paren; [exact Hw1| |exact Hw2].
    apply H; [apply Delim_ws; [exact Hw2|reflexivity]|]. apply EolAt_mid. lia.
  - intros e s r _ (t & -> & Ht & H). exists t. repeat split; [exact Ht|]. intros r' H1 H2.
    apply GE_term. apply H; assumption.
  - intros e w s r Hw Hf _ (t & -> & Ht & H). exists (w ++ t). split; [rewrite <- app_assoc; reflexivity|].
    split; [intros E; apply app_eq_nil in E as [_ ->]; congruence|]. intros r' H1 H2.
    rewrite <- app_assoc. apply GE_lead; [exact Hw| |apply H; assumption].
    destruct Hf as [Hf|Hf]; [left|right]; eapply FirstIs_app; eassumption.
  - intros w r Hw. exists (w ++ [93]). split; [rewrite <- app_assoc; reflexivity|].
    split; [destruct w; discriminate|]. intros r'. rewrite <- app_assoc. constructor. exact Hw.
  - intros w1 w2 r Hw1 Hw2. exists (w1 ++ [44] ++ w2 ++ [93]). split; [rewrite <- !app_assoc; reflexivity|].
    split; [destruct w1; discriminate|]. intros r'. rewrite <- !app_assoc. constructor; assumption.
  - intros e w1 w2 s r Hw1 Hw2 _ (t & -> & Ht & H). exists (w1 ++ t ++ w2 ++ [93]).
    split; [rewrite <- !app_assoc; reflexivity|].
    split; [destruct w1, t; discriminate || congruence|]. intros r'. rewrite <- !app_assoc.
    eapply GI_last; [exact Hw1|exact Hw2|]. apply H; [apply Delim_ws; [exact Hw2|reflexivity]|]. apply EolAt_mid. lia.
  - intros e w1 w2 w3 s r Hw1 Hw2 Hw3 _ (t & -> & Ht & H). exists (w1 ++ t ++ w2 ++ [44] ++ w3 ++ [93]).
    split; [rewrite <- !app_assoc; reflexivity|].
    split; [destruct w1, t; discriminate || congruence|]. intros r'. rewrite <- !app_assoc.
    eapply GI_last_comma; [exact Hw1|exact Hw2|exact Hw3|].
    apply H; [apply Delim_ws; [exact Hw2|reflexivity]|]. apply EolAt_mid. lia.
  - intros e e' l w1 w2 s s' r Hw1 Hw2 _ (t & -> & Ht & H) _ (t' & -> & Ht' & H').
    exists (w1 ++ t ++ w2 ++ [44] ++ t').
    split; [rewrite <- !app_assoc; reflexivity|].
    split; [destruct w1, t; discriminate || congruence|]. intros r'. rewrite <- !app_assoc.
    eapply GI_cons; [exact Hw1|exact Hw2| |apply H'].
    apply H; [apply Delim_ws; [exact Hw2|reflexivity]|]. apply EolAt_mid. lia.
  - intros w r Hw. exists (w ++ [125]). split; [rewrite <- app_assoc; reflexivity|].
    split; [destruct w; discriminate|]. intros r'. rewrite <- app_assoc. constructor. exact Hw.
  - intros k e l w i1 i2 i3 s s' s3 s4 r Hw Hi1 Hi2 Hi3 _ (tk & -> & Htk & Hk) _ (te & -> & Hte & He) Hsep _ (tm & -> & Htm & Hm).
    assert (Hs : exists n, s3 = n ++ tm ++ r /\ forall r',
      (n ++ tm ++ r' = [44] ++ tm ++ r' \/ (exists n', LineEnd n' /\ n ++ tm ++ r' = n' ++ tm ++ r') \/ (n ++ tm ++ r' = tm ++ r' /\ FirstIs 125 (n ++ tm ++ r')))
      /\ Delim (n ++ tm ++ r') /\ (EolAt (i3 ++ n ++ tm ++ r) -> EolAt (i3 ++ n ++ tm ++ r'))).
    { destruct Hsep as [->|[(n & Hn & ->)|[-> Hf]]].
      - exists [44]. split; [reflexivity|]. intros r'. split; [auto|]. split; [reflexivity|]. apply EolAt_mid. lia.
      - exists n. split; [reflexivity|]. intros r'. split; [right; left; exists n; auto|]. split; [apply Delim_LineEnd, Hn|].
        apply EolAt_LineEnd, Hn.
      - exists []. split; [reflexivity|]. intros r'. cbn [app].
        destruct tm as [|c tm]; [congruence|]. destruct Hf as [q Hf]. cbn in Hf. injection Hf as -> _.
        split; [right; right; split; [reflexivity|eexists; reflexivity]|]. split; [reflexivity|]. cbn [app]. apply EolAt_mid. lia. }
    destruct Hs as (n & -> & Hs).
    exists (w ++ tk ++ i1 ++ [61] ++ i2 ++ te ++ i3 ++ n ++ tm).
    split; [rewrite <- !app_assoc; reflexivity|]. split; [destruct w, tk; discriminate || congruence|].
    intros r'. rewrite <- !app_assoc. destruct (Hs r') as (Hs1 & Hs2 & Hs3).
    eapply (GM_cons U k e l w i1 i2 i3 _ _ _ _ r' Hw Hi1 Hi2 Hi3); [| |exact Hs1|apply Hm].
    + apply Hk; [apply Delim_iws; [exact Hi1|reflexivity]|]. apply EolAt_mid. lia.
    + apply He; [apply Delim_iws; [exact Hi3|exact Hs2]|exact Hs3].
  - intros i s r H. apply GIdent_replace in H as (t & -> & Ht & H). exists t. repeat split; [exact Ht|].
    intros r' Hr _. constructor. apply H, Hr.
  - intros e t r H (t' & E & Ht & HR) Hn. apply app_inv_tail in E as <-. exists t. split; [reflexivity|]. split; [exact Ht|].
    intros r' Hr1 Hr2. eapply GK_expr; [apply HR; assumption|].
    intros i r0 Hi. apply GIdent_first in Hi as (c & q & Ec & Hc).
    destruct t as [|c' t]; [congruence|]. cbn in Ec. injection Ec as -> _. cbn [app] in Hn.
    destruct (identifier_exists U c (t ++ r) Hc) as (i' & r1 & Hi). exact (Hn _ _ Hi).
Qed.

Lemma GTerm_replace e s r : GTerm U e s r -> Repl (GTerm U e) s r.
Proof. apply grammar_replace. Qed.
Lemma GExpr_replace e s r : GExpr U e s r -> Repl (GExpr U e) s r.
Proof. apply grammar_replace. Qed.
Lemma GKey_replace e s r : GKey U e s r -> Repl (GKey U e) s r.
Proof. apply grammar_replace. Qed.
Lemma GItems_replace e s r : GItems U e s r -> ReplAll (GItems U e) s r.
Proof. apply grammar_replace. Qed.
Lemma GMembers_replace e s r : GMembers U e s r -> ReplAll (GMembers U e) s r.
Proof. apply grammar_replace. Qed.

(** ** Body elements *)
Lemma GAttr_replace i e s r : GAttr U i e s r -> Repl (GAttr U i e) s r.
Proof.
  intros [i' e' i1 i2 s0 s' r0 Hi1 Hi2 Hi He]. apply GIdent_replace in Hi as (ti & -> & Hti & Hi).
  apply GExpr_replace in He as (te & -> & Hte & He).
  exists (ti ++ i1 ++ [61] ++ i2 ++ te). split; [rewrite <- !app_assoc; reflexivity|].
  split; [destruct ti; discriminate || congruence|]. intros r' H1 H2. rewrite <- !app_assoc.
  eapply (GA U _ _ i1 i2); [exact Hi1|exact Hi2| |apply He; assumption].
  apply Hi. apply Delim_iws; [exact Hi1|reflexivity].
Qed.

Lemma stops_head p t c q q' : stops p (t ++ c :: q) -> stops p (t ++ c :: q').
Proof. destruct t; exact (fun H => H). Qed.

(** After labels only the opening brace matters. *)
Lemma GLabels_replace ls s q : GLabels U ls s (123 :: q) -> exists t, s = t ++ 123 :: q /\
  forall q', GLabels U ls (t ++ 123 :: q') (123 :: q').
Proof.
  intros H. remember (123 :: q) as R eqn:ER. induction H as [i r Hi|l ls i s s' r Hi Hl HL IH].
  - subst. exists i. split; [reflexivity|]. intros q'. constructor. exact Hi.
  - destruct (IH ER) as (t & Es' & Ht). subst r. clear IH HL.
    assert (HL' : exists tl, s = tl ++ t ++ 123 :: q /\ tl <> [] /\ forall q', GLabel U l (tl ++ t ++ 123 :: q') (t ++ 123 :: q')).
    { destruct Hl as [i0 s0 r0 Hi0|v s0 r0 Hv]; subst r0.
      - destruct Hi0 as (t0 & -> & -> & Hi0). apply Longest_ident in Hi0 as [H1 H2].
        exists t0. split; [reflexivity|]. split; [destruct H1 as (? & ? & -> & _); discriminate|].
        intros q'. constructor. exists t0. split; [reflexivity|]. split; [reflexivity|]. apply Longest_ident.
        split; [exact H1|]. eapply stops_head, H2.
      - destruct (GChars_replace _ _ _ _ [] Hv) as (t0 & -> & _).
        exists ([34] ++ t0 ++ [34]). split; [rewrite <- !app_assoc; reflexivity|]. split; [discriminate|].
        intros q'. destruct (GChars_replace _ _ _ _ (t ++ 123 :: q') Hv) as (t' & E & H').
        apply app_inv_tail in E as <-. rewrite <- !app_assoc. constructor. exact H'. }
    subst s'. destruct HL' as (tl & -> & Htl & HL'). exists (i ++ tl ++ t). split; [rewrite <- !app_assoc; reflexivity|].
    intros q'. rewrite <- !app_assoc. econstructor; [exact Hi|apply HL'|apply Ht].
Qed.
Lemma GIdentLabels_replace i ls s s' q : GIdent U i s s' -> GLabels U ls s' (123 :: q) ->
  exists ti tl, s = ti ++ tl ++ 123 :: q /\ ti <> [] /\
    forall q', GIdent U i (ti ++ tl ++ 123 :: q') (tl ++ 123 :: q') /\ GLabels U ls (tl ++ 123 :: q') (123 :: q').
Proof.
  intros (ti & -> & -> & Hi) HL. apply GLabels_replace in HL as (tl & -> & HL).
  apply Longest_ident in Hi as [H1 H2]. exists ti, tl. split; [reflexivity|].
  split; [destruct H1 as (? & ? & -> & _); discriminate|]. intros q'. split; [|apply HL].
  exists ti. split; [reflexivity|]. split; [reflexivity|]. apply Longest_ident. split; [exact H1|eapply stops_head, H2].
Qed.

(** Elements and bodies.  Body texts end at the end of input or at a closing brace. *)
Definition ReplElem (el : element) (s r : str) : Prop := Repl (GElem U el) s r.
Definition ReplBody (b : body_t) (s r : str) : Prop :=
  FirstIs 125 r -> exists t, s = t ++ r /\ forall r', FirstIs 125 r' -> GBody U b (t ++ r') r'.

Lemma body_replace :
  (forall el s r, GElem U el s r -> ReplElem el s r) /\
  (forall b s r, GBody U b s r -> ReplBody b s r).
Proof.
  apply (body_mut U (fun el s r _ => ReplElem el s r) (fun b s r _ => ReplBody b s r)).
  - intros i e s r H. apply GAttr_replace in H as (t & -> & Ht & H). exists t. repeat split; [exact Ht|].
    intros r' H1 H2. constructor. apply H; assumption.
  - intros t ls i1 s s' r Hi1 Ht HL. destruct (GIdentLabels_replace _ _ _ _ _ Ht HL) as (ti & tl & -> & Hti & H).
    exists (ti ++ tl ++ [123] ++ i1 ++ [125]). split; [rewrite <- !app_assoc; reflexivity|].
    split; [destruct ti; discriminate || congruence|]. intros r' _ _. rewrite <- !app_assoc.
    destruct (H (i1 ++ 125 :: r')) as [Ha Hb]. eapply GE_one_line_empty; [exact Hi1|exact Ha|exact Hb].
  - intros t ls n v i1 i2 s s' s2 r Hi1 Hi2 Ht HL Ha.
    destruct (GIdentLabels_replace _ _ _ _ _ Ht HL) as (ti & tl & -> & Hti & H).
    apply GAttr_replace in Ha as (ta & -> & Hta & Ha).
    exists (ti ++ tl ++ [123] ++ i1 ++ ta ++ i2 ++ [125]). split; [rewrite <- !app_assoc; reflexivity|].
    split; [destruct ti; discriminate || congruence|]. intros r' _ _. rewrite <- !app_assoc.
    destruct (H (i1 ++ ta ++ i2 ++ 125 :: r')) as [H1 H2].
    eapply (GE_one_line U _ _ _ _ i1 i2); [exact Hi1|exact Hi2|exact H1|exact H2|].
    apply Ha; [apply Delim_iws; [exact Hi2|reflexivity]|apply EolAt_mid; lia].
  - intros t ls b i1 n s s' s2 r Hi1 Hn Ht HL _ HB.
    destruct (GIdentLabels_replace _ _ _ _ _ Ht HL) as (ti & tl & -> & Hti & H).
    destruct (HB (ex_intro _ r eq_refl)) as (tb & -> & HB').
    exists (ti ++ tl ++ [123] ++ i1 ++ n ++ tb ++ [125]). split; [rewrite <- !app_assoc; reflexivity|].
    split; [destruct ti; discriminate || congruence|]. intros r' _ _. rewrite <- !app_assoc.
    destruct (H (i1 ++ n ++ tb ++ 125 :: r')) as [H1 H2].
    eapply (GE_block U _ _ _ i1 n); [exact Hi1|exact Hn|exact H1|exact H2|]. apply HB'. eexists; reflexivity.
  - intros w r Hw _. exists w. split; [reflexivity|]. intros r' _. constructor. exact Hw.
  - intros el b w i s s1 s2 r Hw Hi _ (te & -> & Hte & He) Hsep Hb HB Hr.
    destruct (HB Hr) as (tb & -> & HB').
    destruct Hsep as [(n & Hn & ->)|[-> E]].
    + exists (w ++ te ++ i ++ n ++ tb). split; [rewrite <- !app_assoc; reflexivity|].
      intros r' Hr'. rewrite <- !app_assoc. eapply (GB_cons U el b w i); [exact Hw|exact Hi| | |apply HB', Hr'].
      * apply He; [apply Delim_iws; [exact Hi|apply Delim_LineEnd, Hn]|apply EolAt_LineEnd, Hn].
      * left. exists n. auto.
    + destruct Hr as [q ->]. destruct tb; discriminate.
Qed.
Lemma GElem_replace el s r : GElem U el s r -> Repl (GElem U el) s r.
Proof. apply body_replace. Qed.

Lemma GBody_nil_inv b s r : GBody U b s r -> s = [] -> b = [] /\ r = [].
Proof.
  intros [w r0 Hw|el b' w i s0 s1 s2 r0 Hw Hi He Hsep Hb] E; apply app_eq_nil in E as [-> ->]; [auto|].
  apply GElem_replace in He as (t & E & Ht & _). destruct t; [congruence|discriminate].
Qed.

(** ** Concatenation and splitting of documents *)
Lemma EolAt_iws i : Iws i -> ~ EolAt i.
Proof.
  intros Hi HE. destruct Hi as [|c w Hc Hi|c w [t Ht] Hi].
  - destruct HE as (e & r' & [|] & E); discriminate.
  - apply EolAt_cons in HE. lia.
  - apply EolAt_cons in HE. lia.
Qed.
Lemma GBody_app b1 b2 d1 r n d2 r2 : GBody U b1 d1 r -> r = [] -> LineEnd n -> GBody U b2 d2 r2 ->
  GBody U (b1 ++ b2) (d1 ++ n ++ d2) r2.
Proof.
  intros H1 ER Hn0 H2.
  induction H1 as [w r Hw|el b w i s s1 s2 r Hw Hi He Hsep Hb IH].
  - subst. rewrite app_nil_r. cbn [app]. apply (GBody_ws U); [exact Hw|].
    apply (GBody_ws U); [apply Ws_LineEnd, Hn0|exact H2].
  - specialize (IH ER). subst r. apply GElem_replace in He as (te & -> & Hte & He).
    cbn [app]. rewrite <- !app_assoc.
    destruct Hsep as [(n' & Hn & ->)|[-> ->]].
    + rewrite <- !app_assoc. eapply (GB_cons U el (b ++ b2) w i); [exact Hw|exact Hi| | |exact IH].
      * apply He; [apply Delim_iws; [exact Hi|apply Delim_LineEnd, Hn]|apply EolAt_LineEnd, Hn].
      * left. exists n'. auto.
    + cbn [app] in *. eapply (GB_cons U el (b ++ b2) w i _ (n ++ d2) d2); [exact Hw|exact Hi| | |].
      * apply He; [apply Delim_iws; [exact Hi|apply Delim_LineEnd, Hn0]|].
        rewrite app_nil_r. intros HE. apply EolAt_iws in HE; [contradiction|exact Hi].
      * left. exists n. auto.
      * apply GBody_nil_inv in Hb as [-> _]; [|reflexivity]. exact H2.
Qed.
Lemma GConfig_app b1 b2 d1 n d2 : GConfig U b1 d1 -> LineEnd n -> GConfig U b2 d2 ->
  GConfig U (b1 ++ b2) (d1 ++ n ++ d2).
Proof. intros H1. eapply GBody_app; [exact H1|reflexivity]. Qed.

(** Every split of the body is a split of the text. *)
Lemma GConfig_split b1 b2 d : GConfig U (b1 ++ b2) d ->
  exists d1 d2, d = d1 ++ d2 /\ GConfig U b1 d1 /\ GConfig U b2 d2.
Proof.
  unfold GConfig. revert d; induction b1 as [|el b1 IH]; intros d H.
  - exists [], d. split; [reflexivity|]. split; [apply (GB_nil U [] []); constructor|exact H].
  - cbn [app] in H. inversion H as [|el' b' w i s s1 s2 r Hw Hi He Hsep Hb E1 E2 E3]; subst.
    apply IH in Hb as (d1 & d2 & -> & H1 & H2).
    apply GElem_replace in He as (te & -> & Hte & He).
    destruct Hsep as [(n & Hn & ->)|[-> E]].
    + exists (w ++ te ++ i ++ n ++ d1), d2. split; [rewrite <- !app_assoc; reflexivity|]. split; [|exact H2].
      eapply (GB_cons U el b1 w i); [exact Hw|exact Hi| |left; exists n; split; [exact Hn|reflexivity]|exact H1].
      apply He; [apply Delim_iws; [exact Hi|apply Delim_LineEnd, Hn]|apply EolAt_LineEnd, Hn].
    + apply app_eq_nil in E as [-> ->].
      exists (w ++ te ++ i), []. split; [rewrite !app_nil_r, <- ?app_assoc; reflexivity|]. split; [|exact H2].
      eapply (GB_cons U el b1 w i _ [] []); [exact Hw|exact Hi| |right; auto|exact H1].
      rewrite app_nil_r in *. apply He; [|auto]. rewrite <- (app_nil_r i). apply Delim_iws; [exact Hi|exact I].
Qed.
End WithTables.
