(** * DocProofs: consequences of the grammar theorem for whole documents *)
From Verif Require Import Base Nom NomFacts Ast Lex Grammar WsFacts NumFacts StrFacts HeredocFacts
  Parser ParserFacts ExprProofs BodyProofs Locality.

Section WithTables.
Context (U : ucd).

(** ** Outcomes *)
Lemma parse_str_total s : parse_str U s <> Diverges.
Proof.
  unfold parse_str, config_file, exact, terminated. pose proof (body_no_fuel U s) as H.
  destruct (body U s) as [[|c r] v| | | |]; cbn [bind eof]; try discriminate. congruence.
Qed.
Lemma parse_str_no_bug s : parse_str U s <> ErrR RBug.
Proof.
  unfold parse_str, config_file, exact, terminated.
  destruct (body U s) as [[|c r] v| | | |]; cbn [bind eof]; discriminate.
Qed.
Lemma expression_parse_total s : expression_parse U s <> Diverges.
Proof.
  unfold expression_parse. pose proof (expression_no_fuel U s) as H.
  destruct (expression U s) as [[|c r] v| | | |]; try discriminate. congruence.
Qed.

(** ** White space around documents *)
Lemma body_ws s s' : ws_rest s = ws_rest s' -> body U s = body U s'.
Proof.
  intros H. rewrite !body_unfold. rewrite !many0_eq by apply wf_upto_of, wf_body_item.
  unfold body_item at 1. unfold body_item at 2. rewrite !wrap_ws, H.
  set (T := terminated _ _). pose proof (wf_body_item U (ws_rest s')) as Hg.
  unfold body_item in Hg. rewrite wrap_ws, ws_rest_idem in Hg. fold T in Hg.
  destruct (T (ws_rest s')) as [r v| | | |] eqn:E; cbn [bind]; try reflexivity; [|rewrite H; reflexivity].
  assert (Hr : forall x, ws_rest x = ws_rest s' -> r <> x).
  { intros x Hx ->.
    assert (Hb : body_item U (ws_rest s') = Ok x v) by (unfold body_item; rewrite wrap_ws, ws_rest_idem; exact E).
    apply (item_sound U (S (length (ws_rest s')))) in Hb as (w & i & s0 & s1 & s2 & w2 & E0 & Hw & Hi & He & Hs & Hw2 & E2).
    - apply GElem_replace in He as (te & -> & Hte & _).
      assert (Hlen : (length x < length (ws_rest s'))%nat).
      { rewrite E0, !app_length. assert (length s1 >= length x)%nat.
        { destruct Hs as [(n & Hn & ->)|[-> ->]]; [subst; rewrite !app_length; lia|]. symmetry in E2; apply app_eq_nil in E2 as [_ ->]. cbn; lia. }
        destruct te; [congruence|]. cbn [length]. lia. }
      cbn in Hg. (* x is shorter than [ws_rest s'] yet has it as a rest *)
      pose proof (suffix_len _ _ (ws_rest_suffix x)) as Hl. rewrite Hx in Hl. lia.
    - intros ? ? ? _. apply body_sound.
    - lia. }
  pose proof (Hr s H) as H1. pose proof (Hr s' eq_refl) as H2.
  apply str_eqb_neq in H1, H2. rewrite H1, H2. reflexivity.
Qed.
Lemma parse_str_ws w s : Ws w -> parse_str U (w ++ s) = parse_str U s.
Proof.
  intros H. unfold parse_str, config_file, exact, terminated, eof_rest. rewrite (body_ws (w ++ s) s); [reflexivity|].
  apply ws_rest_ws, H.
Qed.

Lemma GBody_trail b d r i : GBody U b d r -> r = [] -> Iws i -> GConfig U b (d ++ i).
Proof.
  intros H ER Hi0. unfold GConfig. induction H as [w r Hw|el b w i' s s1 s2 r Hw Hi He Hsep Hb IH].
  - subst. rewrite app_nil_r, <- (app_nil_r (w ++ i)). apply GB_nil, Ws_app; [exact Hw|apply Iws_Ws, Hi0].
  - specialize (IH ER). subst r. apply GElem_replace in He as (te & -> & Hte & He).
    destruct Hsep as [(n' & Hn & ->)|[-> ->]]; rewrite <- !app_assoc.
    + eapply (GB_cons U el b w i'); [exact Hw|exact Hi| |left; exists n'; split; [exact Hn|reflexivity]|exact IH].
      apply He; [apply Delim_iws; [exact Hi|apply Delim_LineEnd, Hn]|apply EolAt_LineEnd, Hn].
    + rewrite app_nil_r in He. cbn [app].
      eapply (GB_cons U el b w (i' ++ i) _ [] []); [exact Hw|apply Iws_app; assumption| |right; auto|exact Hb].
      rewrite app_nil_r. apply He; [|intros HE; apply EolAt_iws in HE; [contradiction|exact Hi]].
      rewrite <- (app_nil_r (i' ++ i)). apply Delim_iws; [apply Iws_app; assumption|exact I].
Qed.

(** ** Building documents *)
Lemma GIdent_intro n r : IdentText U n -> Delim r -> GIdent U (Borrowed n) (n ++ r) r.
Proof.
  intros H Hr. exists n. split; [reflexivity|]. split; [reflexivity|]. apply Longest_ident.
  split; [exact H|apply Delim_stops, Hr].
Qed.

Lemma attr_doc n e t i1 i2 : IdentText U n -> Iws i1 -> Iws i2 -> GWholeExpr U e t ->
  GConfig U [Attr (Borrowed n) e] (n ++ i1 ++ [61] ++ i2 ++ t).
Proof.
  intros Hn Hi1 Hi2 He. apply (GB_cons U _ [] [] [] _ [] []); [constructor|constructor| |right; auto|apply (GB_nil U [] []); constructor].
  constructor. eapply (GA U _ _ i1 i2); [exact Hi1|exact Hi2| |exact He].
  apply GIdent_intro; [exact Hn|]. apply Delim_iws; [exact Hi1|reflexivity].
Qed.

Inductive LabelText : label -> str -> Prop :=
| LT_ident i : IdentText U i -> LabelText (LIdent (Borrowed i)) i
| LT_string v s : GChars PlainLine v (s ++ [34]) [34] -> LabelText (LString v) ([34] ++ s ++ [34]).

Lemma LabelText_spec l t r : LabelText l t -> Delim r -> GLabel U l (t ++ r) r.
Proof.
  intros [i Hi|v s Hv] Hr.
  - constructor. apply GIdent_intro; assumption.
  - rewrite <- app_assoc. constructor. destruct (GChars_replace _ _ _ _ r Hv) as (t0 & E & H).
    apply app_inj_tail in E as [<- _]. rewrite <- app_assoc. exact H.
Qed.

Lemma Iws_space : Iws [32].
Proof. apply Iws_blank; [auto|constructor]. Qed.
Lemma labels_text ls ts i r : Forall2 LabelText ls ts -> Iws i ->
  GLabels U ls (flat_map (fun t => 32 :: t) ts ++ i ++ 123 :: r) (123 :: r).
Proof.
  intros H Hi. induction H as [|l t ls ts Hl H IH]; cbn [flat_map app].
  - constructor. exact Hi.
  - rewrite <- app_assoc. change (32 :: t ++ ?x) with ([32] ++ t ++ x). eapply GLs_cons; [exact Iws_space| |exact IH].
    apply LabelText_spec; [exact Hl|]. destruct ts; [cbn [flat_map app]; apply Delim_iws; [exact Hi|reflexivity]|reflexivity].
Qed.

Lemma block_doc t ls ts b d i n : IdentText U t -> Forall2 LabelText ls ts -> Iws i -> LineEnd n -> GConfig U b d ->
  GConfig U [Blk (Borrowed t) ls b]
    (t ++ flat_map (fun t => 32 :: t) ts ++ [32; 123] ++ i ++ n ++ d ++ [10; 125]).
Proof.
  intros Ht Hls Hi Hn Hb.
  apply (GB_cons U _ [] [] [] _ [] []); [constructor|constructor| |right; auto|apply (GB_nil U [] []); constructor].
  cbn [app].
  assert (HL := labels_text ls ts [32] (i ++ n ++ d ++ [10; 125]) Hls (Iws_blank 32 [] (or_introl eq_refl) Iws_nil)).
  eapply (GE_block U _ _ _ i n _ _ (d ++ [10; 125])); [exact Hi|exact Hn| |exact HL|].
  - apply GIdent_intro; [exact Ht|]. destruct ts; reflexivity.
  - change (d ++ [10; 125]) with (d ++ [10] ++ [125]). rewrite <- (app_nil_r b).
    eapply GBody_app; [exact Hb|reflexivity|repeat constructor|]. apply (GB_nil U [] [125]). constructor.
Qed.

(** ** Parentheses *)
Lemma paren_intro e s w1 w2 : Ws w1 -> Ws w2 -> GWholeExpr U e s -> GWholeExpr U e ([40] ++ w1 ++ s ++ w2 ++ [41]).
Proof.
  intros Hw1 Hw2 H. apply GE_term. eapply GT_paren; [exact Hw1| |exact Hw2].
  apply GExpr_replace in H as (t & -> & Ht & H). rewrite app_nil_r. apply H.
  - apply Delim_ws; [exact Hw2|reflexivity].
  - intros (e0 & r' & [|] & E); discriminate.
Qed.
Ltac term_head H :=
  inversion H; subst;
  try match goal with
  | Hn : NumLit _ ?t, E : ?t ++ _ = _ :: _ |- _ =>
      exfalso; apply NumLit_first in Hn as (? & ? & -> & Hn); cbn in E; injection E as -> _;
      destruct Hn as [Hn|[Hn|[Hn|Hn]]]; discriminate
  | Hh : GHeredoc _ _ (_ :: _) _ |- _ => exfalso; inversion Hh
  end.
Lemma paren_term_inv e t r : GTerm U e (40 :: t) r -> exists w1 w2 s, Ws w1 /\ Ws w2 /\ t = w1 ++ s /\
  GExpr U e s (w2 ++ [41] ++ r).
Proof.
  intros H. term_head H. exists w1, w2, s. auto.
Qed.
Lemma paren_inv e t : GWholeExpr U e (40 :: t ++ [41]) -> exists w1 te w2, Ws w1 /\ Ws w2 /\ t = w1 ++ te ++ w2 /\
  te <> [] /\ forall q, Delim q -> GExpr U e (te ++ w2 ++ q) (w2 ++ q).
Proof.
  intros H.
  assert (HT : GTerm U e (40 :: t ++ [41]) []).
  { inversion H as [e0 s r HT E1|e0 w s r Hw Hf HT E1 E2]; subst; [exact HT|].
    destruct Hw as [|c w Hc Hw|c w [x Hx] Hw|c w [x y Hx Hy|x y Hx Hy] Hw]; cbn in E2; try discriminate.
    - subst. exact HT.
    - injection E2 as -> _. lia. }
  apply paren_term_inv in HT as (w1 & w2 & s & Hw1 & Hw2 & E & He).
  apply GExpr_replace in He as (te & -> & Hte & He). exists w1, te, w2.
  split; [exact Hw1|]. split; [exact Hw2|].
  split; [rewrite app_nil_r, !app_assoc in E; apply app_inj_tail in E as [-> _]; rewrite <- app_assoc; reflexivity|].
  split; [exact Hte|]. intros q Hq. apply He.
  - apply Delim_ws; assumption.
  - intros HE. cbn [app] in HE. clear - HE.
    destruct w2 as [|a [|a' w]]; cbn [app] in *; apply EolAt_cons in HE as [E0|[E0 [q' E]]]; try discriminate;
      subst a; try apply EolAt_lf.
    injection E as -> _. apply EolAt_crlf.
Qed.
Lemma EolAt_swap w c y q : c <> 10 -> c <> 13 -> EolAt (w ++ c :: y) -> EolAt (w ++ q).
Proof.
  intros H1 H2 HE. destruct w as [|a [|a' w]]; cbn [app] in *; apply EolAt_cons in HE as [E0|[E0 [q' E]]]; try congruence;
      subst a; try apply EolAt_lf.
  injection E as -> _. apply EolAt_crlf.
Qed.
Lemma paren_make e w1 te w2 q : Ws w1 -> Ws w2 -> te <> [] -> GExpr U e (te ++ w2 ++ q) (w2 ++ q) ->
  (EolAt (w2 ++ q) -> EolAt (w2 ++ [41])) -> GWholeExpr U e (40 :: (w1 ++ te ++ w2) ++ [41]).
Proof.
  intros Hw1 Hw2 Hte H HE. apply GE_term. apply GExpr_replace in H as (t & E & Ht & H).
  apply app_inv_tail in E as <-. rewrite <- !app_assoc. eapply (GT_paren U e w1 w2); [exact Hw1| |exact Hw2].
  apply H; [apply Delim_ws; [exact Hw2|reflexivity]|exact HE].
Qed.

(** ** Tuples *)
Fixpoint join (sep : str) (l : list str) : str :=
  match l with
  | [] => []
  | [x] => x
  | x :: l' => x ++ sep ++ join sep l'
  end.

(** [t] is the text of the single expression [e] with white space around it. *)
Definition Item (t : str) (e : expr) : Prop := GWholeExpr U e ([40] ++ t ++ [41]).

Lemma items_intro ts es tail r : Forall2 Item ts es -> es <> [] ->
  (Ws tail \/ exists w, Ws w /\ tail = [44] ++ w) ->
  GItems U es (join [44] ts ++ tail ++ [93] ++ r) r.
Proof.
  intros H Hne Ht. induction H as [|t e ts es Hi H IH]; [congruence|].
  apply paren_inv in Hi as (w1 & te & w2 & Hw1 & Hw2 & -> & Hte & He).
  destruct H as [|t' e' ts es Hi' H].
  - cbn [join]. rewrite <- !app_assoc. destruct Ht as [Ht|(w & Hw & ->)].
    + apply (GI_last U e w1 (w2 ++ tail)); [exact Hw1|apply Ws_app; assumption|]. rewrite <- app_assoc.
      apply He. apply Delim_ws; [exact Ht|reflexivity].
    + rewrite <- app_assoc. apply (GI_last_comma U e w1 w2 w); [exact Hw1|exact Hw2|exact Hw|]. apply He. reflexivity.
  - change (join [44] ((w1 ++ te ++ w2) :: t' :: ts)) with ((w1 ++ te ++ w2) ++ [44] ++ join [44] (t' :: ts)).
    rewrite <- !app_assoc. apply (GI_cons U e e' es w1 w2 _ (join [44] (t' :: ts) ++ tail ++ [93] ++ r)); [exact Hw1|exact Hw2| |].
    + apply He. reflexivity.
    + apply IH. discriminate.
Qed.

Lemma items_inv l s r : GItems U l s r -> l <> [] -> exists ts tail,
  s = join [44] ts ++ tail ++ [93] ++ r /\ Forall2 Item ts l /\ (Ws tail \/ exists w, Ws w /\ tail = [44] ++ w).
Proof.
  intros H. induction H as [w r Hw|w1 w2 r Hw1 Hw2|e w1 w2 s r Hw1 Hw2 He|e w1 w2 w3 s r Hw1 Hw2 Hw3 He|e e' l w1 w2 s s' r Hw1 Hw2 He H IH];
    intros Hne; try congruence.
  - pose proof He as HR. apply GExpr_replace in HR as (te & -> & Hte & _).
    exists [w1 ++ te ++ w2], []. cbn [join]. split; [rewrite <- !app_assoc; reflexivity|]. split; [|left; constructor].
    constructor; [|constructor]. eapply paren_make; [exact Hw1|exact Hw2|exact Hte|exact He|apply EolAt_swap; lia].
  - pose proof He as HR. apply GExpr_replace in HR as (te & -> & Hte & _).
    exists [w1 ++ te ++ w2], ([44] ++ w3). cbn [join]. split; [rewrite <- !app_assoc; reflexivity|]. split; [|right; eauto].
    constructor; [|constructor]. eapply paren_make; [exact Hw1|exact Hw2|exact Hte|exact He|apply EolAt_swap; lia].
  - destruct IH as (ts & tail & -> & Hts & Ht); [discriminate|].
    pose proof He as HR. apply GExpr_replace in HR as (te & -> & Hte & _).
    exists ((w1 ++ te ++ w2) :: ts), tail. split.
    + inversion Hts; subst. change (join [44] ((w1 ++ te ++ w2) :: x :: l0)) with ((w1 ++ te ++ w2) ++ [44] ++ join [44] (x :: l0)).
      rewrite <- !app_assoc. reflexivity.
    + split; [|exact Ht]. constructor; [|exact Hts].
      eapply paren_make; [exact Hw1|exact Hw2|exact Hte|exact He|apply EolAt_swap; lia].
Qed.

Lemma tuple_term_inv l s r : GTerm U (ETuple l) (91 :: s) r -> GItems U l s r.
Proof.
  intros H. term_head H. assumption.
Qed.

(** The exact set of texts starting with "[" *)
Lemma tuple_texts s e : GWholeExpr U e (91 :: s) <->
  exists l, e = ETuple l /\
  ((exists ts tail, s = join [44] ts ++ tail ++ [93] /\ ts <> [] /\ Forall2 Item ts l /\
      (Ws tail \/ exists w, Ws w /\ tail = [44] ++ w))
   \/ (l = [] /\ exists w, Ws w /\ s = w ++ [93])
   \/ (l = [] /\ exists w1 w2, Ws w1 /\ Ws w2 /\ s = w1 ++ [44] ++ w2 ++ [93])).
Proof.
  split.
  - intros H.
    assert (HT : GTerm U e (91 :: s) []).
    { inversion H as [e0 s0 r HT E1|e0 w s0 r Hw Hf HT E1 E2]; subst; [exact HT|].
      destruct Hw as [|c w Hc Hw|c w [x Hx] Hw|c w [x y Hx Hy|x y Hx Hy] Hw]; cbn in E2; try discriminate.
      - subst. exact HT.
      - injection E2 as -> _. lia. }
    term_head HT. rename l into l'.
    match goal with H : GItems _ _ _ _ |- _ => rename H into Hi end.
    exists l'. split; [reflexivity|]. destruct l' as [|e l].
    + right. inversion Hi; subst; [left|right]; split; eauto.
    + left. apply items_inv in Hi as (ts & tail & -> & Hts & Ht); [|discriminate].
        exists ts, tail. cbn [app]. split; [reflexivity|]. split; [inversion Hts; discriminate|]. auto.
  - intros (l & -> & [(ts & tail & -> & Hne & Hts & Ht)|[(-> & w & Hw & ->)|(-> & w1 & w2 & Hw1 & Hw2 & ->)]]); apply GE_term, (GT_tuple U _ _ []).
    + apply items_intro; [exact Hts| |exact Ht]. destruct Hts; congruence.
    + apply (GI_nil U w []), Hw.
    + apply (GI_comma U w1 w2 []); assumption.
Qed.

(** ** Objects *)
Lemma GKey_first k s r : GKey U k s r -> exists c s', s = c :: s' /\ (id_first U c = true \/ term_first c = true).
Proof.
  intros [i s0 r0 Hi|e t r0 Ht Hn].
  - apply GIdent_first in Hi as (c & y & -> & Hc). eauto.
  - apply GTerm_first in Ht as (c & y & -> & Hc). eauto.
Qed.
Lemma object_split s m m2 l r : GMembers U (m :: m2 :: l) s r ->
  exists t sep s', s = t ++ sep ++ s' /\ (sep = [44] \/ LineEnd sep) /\
    (forall r', GMembers U [m] (t ++ sep ++ 125 :: r') r') /\ GMembers U (m2 :: l) s' r.
Proof.
  intros H. inversion H as [|k e l' w i1 i2 i3 s0 s' s3 s4 r0 Hw Hi1 Hi2 Hi3 Hk He Hsep Hm E1 E2 E3]; subst.
  assert (Hs : exists sep, s3 = sep ++ s4 /\ (sep = [44] \/ LineEnd sep)).
  { destruct Hsep as [->|[(n & Hn & ->)|[-> [q ->]]]]; [exists [44]; auto|exists n; auto|].
    exfalso. inversion Hm as [|k' e' l'' w' j1 j2 j3 x0 x1 x3 x4 r0' Hw' Hj1 Hj2 Hj3 Hk' He' Hsep' Hm' F1 F2 F3]; subst.
    assert (Hx : FirstIs 125 x0).
    { destruct Hw' as [|c w0 Hc Hw'|c w0 [x Hx] Hw'|c w0 [x y Hx Hy|x y Hx Hy] Hw']; cbn in F2; try discriminate.
      - subst. eexists; reflexivity.
      - injection F2 as -> _. lia. }
    destruct Hx as [q' ->]. apply GKey_first in Hk' as (c & y & [= <- _] & [Hc|Hc]); [|discriminate].
    rewrite id_first_ascii in Hc by lia. discriminate. }
  destruct Hs as (sep & -> & Hs).
  apply GKey_replace in Hk as (tk & -> & Htk & Hk). apply GExpr_replace in He as (te & -> & Hte & He).
  exists (w ++ tk ++ i1 ++ [61] ++ i2 ++ te ++ i3), sep, s4.
  split; [rewrite <- !app_assoc; reflexivity|]. split; [exact Hs|]. split; [|exact Hm].
  intros r'. rewrite <- !app_assoc.
  eapply (GM_cons U k e [] w i1 i2 i3 _ _ (sep ++ 125 :: r') (125 :: r') r' Hw Hi1 Hi2 Hi3).
  - apply Hk; [apply Delim_iws; [exact Hi1|reflexivity]|apply EolAt_mid; lia].
  - apply He.
    + apply Delim_iws; [exact Hi3|]. destruct Hs as [->|Hs]; [reflexivity|apply Delim_LineEnd, Hs].
    + destruct Hs as [->|Hs]; [apply EolAt_mid; lia|apply EolAt_LineEnd, Hs].
  - destruct Hs as [->|Hs]; [left; reflexivity|right; left; exists sep; auto].
  - apply (GM_nil U [] r'). constructor.
Qed.
Lemma object_whole l s : GWholeExpr U (EObject l) (123 :: s) <-> GMembers U l s [].
Proof.
  split.
  - intros H.
    assert (HT : GTerm U (EObject l) (123 :: s) []).
    { inversion H as [e0 s0 r HT E1|e0 w s0 r Hw Hf HT E1 E2]; subst; [exact HT|].
      destruct Hw as [|c w Hc Hw|c w [x Hx] Hw|c w [x y Hx Hy|x y Hx Hy] Hw]; cbn in E2; try discriminate.
      - subst. exact HT.
      - injection E2 as -> _. lia. }
    term_head HT; assumption.
  - intros H. apply GE_term, (GT_object U _ _ []), H.
Qed.

(** Members given by their texts *)
Inductive KeyText : okey -> str -> Prop :=
| KT_ident i : IdentText U i -> KeyText (KIdent (Borrowed i)) i
| KT_expr e t c t' : GTerm U e t [] -> t = c :: t' -> id_first U c = false -> KeyText (KExpr (Borrowed t)) t.
Lemma KeyText_spec k t r : KeyText k t -> Delim r -> GKey U k (t ++ r) r.
Proof.
  intros [i Hi|e t0 c t' Ht -> Hc] Hr.
  - constructor. apply GIdent_intro; assumption.
  - apply GTerm_replace in Ht as (x & E & Hx & Ht). rewrite app_nil_r in E. subst x. eapply GK_expr.
    + apply Ht; [exact Hr|]. intros (e0 & r' & [|] & E); discriminate.
    + intros i r' Hi. apply GIdent_first in Hi as (c' & q & [= <- _] & Hc'). congruence.
Qed.

(** ** Every element but the last takes a line of its own *)
Lemma count_app (c : char) a b : count_occ N.eq_dec (a ++ b) c = (count_occ N.eq_dec a c + count_occ N.eq_dec b c)%nat.
Proof. apply count_occ_app. Qed.
Lemma LineEnd_lf n : LineEnd n -> (1 <= count_occ N.eq_dec n 10%N)%nat.
Proof.
  assert (He : forall e, Eol e -> (1 <= count_occ N.eq_dec e 10%N)%nat) by (intros e [|]; cbn; lia).
  intros [e H|c [t e Ht H|t e Ht H]]; [apply He, H| |]; rewrite !count_app; apply He in H; lia.
Qed.
Lemma lines_bound b s r : GBody U b s r -> r = [] -> (length b <= 1 + count_occ N.eq_dec s 10%N)%nat.
Proof.
  intros H. induction H as [w r Hw|el b w i s s1 s2 r Hw Hi He Hsep Hb IH]; intros ->; [cbn; lia|].
  specialize (IH eq_refl). apply GElem_replace in He as (te & -> & _ & _).
  destruct Hsep as [(n & Hn & ->)|[-> ->]].
  - apply LineEnd_lf in Hn. rewrite !count_app. cbn [length]. lia.
  - apply GBody_nil_inv in Hb as [-> _]; [|reflexivity]. cbn. lia.
Qed.
Lemma element_own_line el el2 b d : GConfig U (el :: el2 :: b) d ->
  exists t i n d2, d = t ++ i ++ n ++ d2 /\ Iws i /\ LineEnd n /\
    GConfig U [el] (t ++ i ++ n) /\ GConfig U (el2 :: b) d2.
Proof.
  unfold GConfig. intros H. inversion H as [|el' b' w i s s1 s2 r Hw Hi He Hsep Hb E1 E2 E3]; subst.
  destruct Hsep as [(n & Hn & ->)|[-> ->]].
  - apply GElem_replace in He as (te & -> & _ & He). exists (w ++ te), i, n, s2.
    split; [rewrite <- !app_assoc; reflexivity|]. split; [exact Hi|]. split; [exact Hn|]. split; [|exact Hb].
    rewrite <- app_assoc. eapply (GB_cons U el [] w i _ n []); [exact Hw|exact Hi| |left; exists n; rewrite app_nil_r; auto|apply (GB_nil U [] []); constructor].
    rewrite <- (app_nil_r n). apply He; [apply Delim_iws; [exact Hi|apply Delim_LineEnd, Hn]|apply EolAt_LineEnd, Hn].
  - apply GBody_nil_inv in Hb as [E _]; [discriminate|reflexivity].
Qed.
End WithTables.
