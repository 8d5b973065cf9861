(** * PropLayout: C07 for every document, and C119 - documents as tokens and gaps *)
From Verif Require Import Base Nom NomFacts Ast Lex Grammar WsFacts NumFacts StrFacts HeredocFacts
  Parser ParserFacts ExprProofs BodyProofs Locality DocProofs LayoutSpec LayoutProofs Blocks NumConv Serde.
Close Scope Z_scope.
Open Scope N_scope.

(** ** C119 *)
(** A text is accepted with the tree [b] exactly when it is a layout of [b] with its gaps filled. *)
Theorem C119_exact : forall U s b, parse_str U s = OkR b <-> exists ps, LDoc U b ps /\ Filled ps s.
Proof.
  intros U s b. rewrite parse_str_spec. split; [apply doc_complete|]. intros (ps & H & Hs). eapply doc_sound; eassumption.
Qed.
Print Assumptions C119_exact.
(** The smallest filling of a layout: no comments, no blanks but between two identifiers, and one
    line feed where the line must end *)
Definition least_gap (g : gap) : str :=
  match g with GapWs | GapInline => [] | GapInline1 => [32] | GapLine | GapNl | GapNlWs => [10] end.
Definition least (ps : list item) : str := flat_map (fun p => match p with Tok t => t | Gap g => least_gap g end) ps.
Lemma least_filled ps : Filled ps (least ps).
Proof.
  induction ps as [|[t|g] ps IH]; [constructor|constructor; exact IH|]. cbn [least flat_map]. constructor; [|exact IH].
  assert (H1 : LineEnd [10]) by repeat constructor.
  destruct g; cbn [least_gap].
  - constructor. constructor.
  - constructor. constructor.
  - constructor; [|discriminate]. apply Iws_blank; [auto|constructor].
  - constructor. exact H1.
  - constructor. constructor.
  - apply (IG_nlws [10] []); constructor.
Qed.
(** So every accepted document can be minified (all comments removed) without changing
    what it means, and no other filling of its layout is shorter. *)
Theorem C119_minify : forall U s b, parse_str U s = OkR b ->
  exists ps, LDoc U b ps /\ Filled ps s /\ parse_str U (least ps) = OkR b /\ (length (least ps) <= length s)%nat.
Proof.
  intros U s b H. apply C119_exact in H as (ps & HL & Hs). exists ps. split; [exact HL|]. split; [exact Hs|]. split; [apply C119_exact; eexists; split; [exact HL|apply least_filled]|].
  clear HL. induction Hs as [|t ps s Hs IH|g w ps s Hg Hs IH]; cbn [least flat_map]; [cbn; lia| |]; rewrite !app_length; fold (least ps).
  - lia.
  - enough (length (least_gap g) <= length w)%nat by lia. destruct Hg as [w Hw|w Hw|w Hw Hn|n [e [|]|c [t e Ht He|t e Ht He]]|e [|]|e w [|] Hw]; cbn [least_gap length app]; try lia.
    destruct w; [congruence|cbn; lia].
Qed.
Print Assumptions C119_minify.
(** And it makes no difference to [serde::de::from_str] either, for any target type *)
Theorem C119_serde : forall U b ps s s', LDoc U b ps -> Filled ps s -> Filled ps s' ->
  forall ord t, from_str U ord t s = from_str U ord t s'.
Proof.
  intros U b ps s s' HL Hs Hs' ord t. unfold from_str.
  rewrite (proj2 (C119_exact U s b) (ex_intro _ ps (conj HL Hs))), (proj2 (C119_exact U s' b) (ex_intro _ ps (conj HL Hs'))). reflexivity.
Qed.
Print Assumptions C119_serde.

(** ** C07, for every accepted document: it falls into tokens and gaps, and whatever else is put
    into the gaps, the result is the same. *)
Theorem C07_refill : forall U s b, parse_str U s = OkR b ->
  exists ps, LDoc U b ps /\ Filled ps s /\ forall s', Filled ps s' -> parse_str U s' = OkR b.
Proof.
  intros U s b H. apply C119_exact in H as (ps & HL & Hs). exists ps. split; [exact HL|]. split; [exact Hs|]. intros s' Hs'. apply C119_exact. eauto.
Qed.
Print Assumptions C07_refill.

(** A case: a heredoc, a trailing comma, a one-line block, with comments in the gaps *)
Definition ex_items : list item :=
  [Gap GapWs] ++ [Tok (lit "a"); Gap GapInline; Tok [61]; Gap GapInline; Tok ([60; 60] ++ lit "E" ++ [10] ++ lit "x" ++ [10] ++ lit "E")] ++ [Gap GapNl] ++
  [Gap GapWs] ++ [Tok (lit "b"); Gap GapInline; Tok [61]; Gap GapInline; Tok [91]; Gap GapWs; Tok (lit "true"); Gap GapWs; Tok [44]; Gap GapWs; Tok [93]] ++ [Gap GapInline; Gap GapLine] ++
  [Gap GapWs] ++ [Tok (lit "r"); Gap GapInline1; Tok (lit "x"); Gap GapInline; Tok [34; 121; 34]; Gap GapInline; Tok [123]; Gap GapInline; Tok [125]] ++ [Gap GapInline].
Definition ex_tree : body_t :=
  [Attr (Borrowed (lit "a")) (EString (Borrowed (lit "x"))); Attr (Borrowed (lit "b")) (ETuple [EBool true]);
   Blk (Borrowed (lit "r")) [LIdent (Borrowed (lit "x")); LString (lit "y")] []].
Lemma ident1 c : is_ascii_alpha c = true -> IdentText ascii_ucd [c].
Proof. intros H. exists c, (@nil N). split; [reflexivity|]. split; [left; left; unfold is_ascii_alpha in H; unfold Letter; lia|intros d []]. Qed.
Lemma ex_heredoc : GHeredoc ascii_ucd (Borrowed (lit "x")) ([60; 60] ++ lit "E" ++ [10] ++ lit "x" ++ [10] ++ lit "E" ++ [10]) [10].
Proof.
  apply (GH ascii_ucd [] (lit "E") ([10] ++ lit "x") [] ([10] ++ lit "E" ++ [10]) [10] (Borrowed (lit "x"))).
  - split; [discriminate|]. intros c [<-|[]]. left. left. unfold Letter. cbn. lia.
  - left. reflexivity.
  - exists [10], [10], (@nil N). split; [constructor|]. split; [intros d []|]. split; [constructor|]. split; reflexivity.
  - intros x y b' r' E Hy (e & e' & q & He & Hb & He' & -> & E2).
    assert (Hy' : y = [120] \/ y = [10; 120]).
    { destruct x as [|x0 [|x1 x]]; cbn in E; [right; congruence|left; congruence|]. exfalso.
      assert (E' : x ++ y = []) by congruence. apply app_eq_nil in E' as [_ E']. congruence. }
    destruct Hy' as [-> | ->]; destruct He; cbn in E2; try discriminate.
    injection E2 as E2. destruct b' as [|b0 b']; cbn in E2; [discriminate|]. assert (E3 : b0 = 120) by congruence. subst b0.
    specialize (Hb 120 (or_introl eq_refl)). lia.
  - cbn. exists [10], (lit "x"). repeat split. constructor.
Qed.
(** Filling with given texts, checked *)
Fixpoint fill_with (ps : list item) (gs : list str) : str :=
  match ps, gs with
  | [], _ => []
  | Tok t :: ps', _ => t ++ fill_with ps' gs
  | Gap _ :: ps', g :: gs' => g ++ fill_with ps' gs'
  | Gap _ :: ps', [] => fill_with ps' []
  end.
Definition nilb (s : str) : bool := match s with [] => true | _ => false end.
Fixpoint to_eol (s : str) : str :=
  match s with [] => [] | c :: s' => if (c =? 10) || (c =? 13) then s else to_eol s' end.
Lemma to_eol_spec s : exists x, NoEol x /\ s = x ++ to_eol s.
Proof.
  induction s as [|c s (x & Hx & E)]; cbn [to_eol]; [exists []; split; [intros c []|reflexivity]|].
  destruct ((c =? 10) || (c =? 13)) eqn:Ec; [exists []; split; [intros d []|reflexivity]|]. exists (c :: x). split; [|cbn; congruence].
  intros d [<-|Hd]; [lia|apply Hx, Hd].
Qed.
Definition gap_ok (g : gap) (w : str) : bool :=
  match g with
  | GapWs => nilb (ws_rest w)
  | GapInline => nilb (iws_rest w)
  | GapInline1 => nilb (iws_rest w) && negb (nilb w)
  | GapLine => str_eqb w [10] || str_eqb w [13; 10] || match w with c :: t => (c =? 35) && str_eqb (to_eol t) [10] | [] => false end
  | GapNl => str_eqb w [10] || str_eqb w [13; 10]
  | GapNlWs => match w with 10 :: w' => nilb (ws_rest w') | 13 :: 10 :: w' => nilb (ws_rest w') | _ => false end
  end.
Fixpoint gaps_ok (ps : list item) (gs : list str) : bool :=
  match ps, gs with
  | [], [] => true
  | Tok _ :: ps', _ => gaps_ok ps' gs
  | Gap g :: ps', w :: gs' => gap_ok g w && gaps_ok ps' gs'
  | _, _ => false
  end.
Lemma gap_ok_sound g w : gap_ok g w = true -> InGap g w.
Proof.
  assert (W : forall s, nilb (ws_rest s) = true -> Ws s).
  { intros s H. destruct (ws_rest_sound s) as (x & Hx & E). destruct (ws_rest s); [|discriminate]. rewrite app_nil_r in E. congruence. }
  assert (I : forall s, nilb (iws_rest s) = true -> Iws s).
  { intros s H. destruct (iws_rest_sound s) as (x & Hx & E). destruct (iws_rest s); [|discriminate]. rewrite app_nil_r in E. congruence. }
  assert (EO : str_eqb w [10] || str_eqb w [13; 10] = true -> Eol w).
  { intros H. apply orb_true_iff in H as [H|H]; apply str_eqb_eq in H; subst; constructor. }
  destruct g; cbn [gap_ok].
  - intros H. constructor. apply W, H.
  - intros H. constructor. apply I, H.
  - intros H. apply andb_true_iff in H as [H1 H2]. constructor; [apply I, H1|]. intros ->. discriminate.
  - intros H. constructor. apply orb_true_iff in H as [H|H]; [constructor; apply EO, H|]. apply LE_comment.
    destruct w as [|c t]; [discriminate|]. apply andb_true_iff in H as [H1 H2]. apply N.eqb_eq in H1 as ->. apply str_eqb_eq in H2.
    destruct (to_eol_spec t) as (x & Hx & ->). rewrite H2. apply (LC_hash x [10] Hx). constructor.
  - intros H. constructor. apply EO, H.
  - intros H. destruct w as [|c w]; [discriminate|]. destruct (N.eq_dec c 10) as [->|H1].
    + apply (IG_nlws [10] w); [constructor|]. apply W, H.
    + destruct (N.eq_dec c 13) as [->|H2].
      * destruct w as [|d w]; [discriminate|]. destruct (N.eq_dec d 10) as [->|H3]; [apply (IG_nlws [13; 10] w); [constructor|apply W, H]|].
        exfalso. revert H. clear -H3. intros H. destruct d as [|d]; [discriminate|]. repeat (destruct d as [d|d|]; try discriminate H). congruence.
      * exfalso. revert H. clear -H1 H2. intros H. destruct c as [|c]; [discriminate|]. repeat (destruct c as [c|c|]; try discriminate H); congruence.
Qed.
Lemma gaps_ok_sound ps : forall gs, gaps_ok ps gs = true -> Filled ps (fill_with ps gs).
Proof.
  induction ps as [|[t|g] ps IH]; intros gs H.
  - constructor.
  - cbn. constructor. apply IH. destruct gs; exact H.
  - destruct gs as [|w gs]; [discriminate|]. cbn in H. apply andb_true_iff in H as [H1 H2]. cbn. constructor; [apply gap_ok_sound, H1|apply IH, H2].
Qed.
Example C119_case : LDoc ascii_ucd ex_tree ex_items /\
  Filled ex_items (lit "a=<<E" ++ [10] ++ lit "x" ++ [10] ++ lit "E" ++ [10] ++ lit "b=[true,]" ++ [10] ++ lit "r x""y""{}") /\
  Filled ex_items (lit "# first" ++ [10] ++ lit "a = /* here */ <<E" ++ [10] ++ lit "x" ++ [10] ++ lit "E" ++ [13; 10] ++ [13; 10] ++
    lit "b = [ // yes" ++ [10] ++ lit "  true" ++ [10] ++ lit ", ] # end" ++ [10] ++ lit "r  x ""y"" { } ").
Proof.
  split.
  { apply (LD_cons ascii_ucd (Attr (Borrowed (lit "a")) (EString (Borrowed (lit "x")))) _ _ true).
    { apply LE_attr. apply (LA ascii_ucd (lit "a") _ _ true); [apply ident1; reflexivity|]. apply LX_term. apply LT_heredoc. exact ex_heredoc. }
    apply (LD_cons ascii_ucd (Attr (Borrowed (lit "b")) (ETuple [EBool true])) _ [Tok (lit "b"); Gap GapInline; Tok [61]; Gap GapInline; Tok [91]; Gap GapWs; Tok (lit "true"); Gap GapWs; Tok [44]; Gap GapWs; Tok [93]] false).
    { apply LE_attr. apply (LA ascii_ucd (lit "b") _ _ false); [apply ident1; reflexivity|]. apply LX_term, LT_tuple.
      apply (LI_last_comma ascii_ucd (EBool true) [Tok (lit "true")] false). constructor. constructor. }
    apply (LD_last ascii_ucd). apply (LE_one_line_empty ascii_ucd (lit "r") _ [Gap GapInline1; Tok (lit "x"); Gap GapInline; Tok [34; 121; 34]; Gap GapInline]); [apply ident1; reflexivity|].
    apply (LL_ident ascii_ucd true (lit "x")); [apply ident1; reflexivity|]. apply (LL_string ascii_ucd true (lit "y") [121; 34]); [|constructor].
    apply GC_char; [repeat split; discriminate|]. constructor. }
  split.
  - assert (H : Filled ex_items (fill_with ex_items [[]; []; []; [10]; []; []; []; []; []; []; []; [10]; []; [32]; []; []; []; []])) by (apply gaps_ok_sound; vm_compute; reflexivity).
    exact H.
  - assert (H : Filled ex_items (fill_with ex_items [lit "# first" ++ [10]; [32]; lit " /* here */ "; [13; 10]; [13; 10]; [32]; [32]; lit " // yes" ++ [10] ++ lit "  "; [10]; [32]; [32]; lit "# end" ++ [10];
      []; lit "  "; lit " "; lit " "; lit " "; lit " "])) by (apply gaps_ok_sound; vm_compute; reflexivity).
    exact H.
Qed.

(** ** C08: the order of a block's labels.  The text between the type and the brace falls into one
    piece per label, in the order of the labels; and any selection of these pieces, in
    any order, reads as the labels of the pieces in that order. *)
Definition LText (U : ucd) (x : str) (l : label) : Prop :=
  exists w t, x = w ++ t /\ Iws w /\
    ((IdentText U t /\ l = LIdent (Borrowed t)) \/ (exists v q, GChars PlainLine v q [34] /\ t = [34] ++ q /\ l = LString v)).
Lemma label_pieces U id ls ps : LLabels U id ls ps -> forall s, Filled ps s ->
  exists lts i, s = concat lts ++ i /\ Iws i /\ Forall2 (LText U) lts ls.
Proof.
  induction 1 as [id|id i ls ps Hi _ IH|id v t ls ps Hv _ IH]; intros s H.
  - apply Filled_gap in H as (w & s' & -> & Hg & H). apply Filled_nil in H as ->. apply InGap_inline in Hg. exists [], w. rewrite app_nil_r. auto.
  - apply Filled_gap in H as (w & s' & -> & Hg & H). apply Filled_tok in H as (s0 & -> & H). destruct (IH s0 H) as (lts & j & -> & Hj & HF).
    assert (Hw : Iws w) by (destruct id; [apply InGap_inline1 in Hg; tauto|apply InGap_inline in Hg; exact Hg]).
    exists ((w ++ i) :: lts), j. cbn [concat]. rewrite <- !app_assoc. split; [reflexivity|]. split; [exact Hj|]. constructor; [|exact HF].
    exists w, i. split; [reflexivity|]. split; [exact Hw|]. left. auto.
  - apply Filled_gap in H as (w & s' & -> & Hg & H). apply InGap_inline in Hg. apply Filled_tok in H as (s0 & -> & H). destruct (IH s0 H) as (lts & j & -> & Hj & HF).
    exists ((w ++ [34] ++ t) :: lts), j. cbn [concat]. rewrite <- !app_assoc. split; [reflexivity|]. split; [exact Hj|]. constructor; [|exact HF].
    exists w, ([34] ++ t). split; [reflexivity|]. split; [exact Hg|]. right. eauto.
Qed.
Lemma pieces_label U prs : Forall (fun p : str * label => LText U (fst p) (snd p)) prs -> forall id,
  exists ps, LLabels U id (map snd prs) ps /\ Filled ps (concat (map (fun p => 32 :: fst p) prs)).
Proof.
  induction 1 as [|[x l] prs (w & t & E & Hw & Ht) _ IH]; intros id.
  - exists [Gap GapInline]. split; [constructor|]. cbn. apply (FL_gap GapInline [] []); [constructor; constructor|constructor].
  - cbn [fst snd map concat] in *. subst x. assert (Hw' : Iws (32 :: w)) by (apply Iws_blank; [auto|exact Hw]). rewrite app_comm_cons, <- app_assoc.
    destruct Ht as [[Hi ->]|(v & q & Hv & -> & ->)].
    + destruct (IH true) as (ps & HL & Hf). eexists. split; [apply (LL_ident U id t _ _ Hi HL)|]. apply (FL_gap _ (32 :: w)); [|apply (FL_tok t); exact Hf].
      destruct id; constructor; try exact Hw'. discriminate.
    + destruct (IH false) as (ps & HL & Hf). eexists. split; [apply (LL_string U id v q _ _ Hv HL)|]. apply (FL_gap _ (32 :: w)); [constructor; exact Hw'|]. apply (FL_tok ([34] ++ q)). exact Hf.
Qed.
Lemma LText_doc U t prs : IdentText U t -> Forall (fun p : str * label => LText U (fst p) (snd p)) prs ->
  parse_str U (t ++ concat (map (fun p => 32 :: fst p) prs) ++ lit "{}") = OkR [Blk (Borrowed t) (map snd prs) []].
Proof.
  intros Ht H. destruct (pieces_label U prs H true) as (ps & HL & Hf). apply C119_exact. eexists. split; [apply LD_last; apply LE_one_line_empty; [exact Ht|exact HL]|].
  apply (FL_gap GapWs []); [repeat constructor|]. cbn [app]. apply (FL_tok t). rewrite <- app_assoc. apply Filled_app; [exact Hf|]. cbn [app].
  apply (FL_tok [123]). apply (FL_gap GapInline []); [repeat constructor|]. apply (FL_tok [125]). apply (FL_gap GapInline [] []); [repeat constructor|constructor].
Qed.
Ltac flat H := repeat (progress (repeat rewrite <- app_assoc in H; cbn [app] in H)); repeat (progress (repeat rewrite <- app_assoc; cbn [app])); exact H.
Theorem C08_label_order : forall U s t ls b, parse_str U s = OkR [Blk t ls b] ->
  exists w tt lts i rest, t = Borrowed tt /\ s = w ++ tt ++ concat lts ++ i ++ lit "{" ++ rest /\ Ws w /\ Iws i /\ length lts = length ls /\
    parse_str U (tt ++ i ++ lit "{" ++ rest) = OkR [Blk t [] b] /\
    forall prs : list (str * label), incl prs (combine lts ls) ->
      parse_str U (tt ++ concat (map (fun p => 32 :: fst p) prs) ++ lit "{}") = OkR [Blk t (map snd prs) []].
Proof.
  intros U s t ls b H. apply C119_exact in H as (ps & HL & Hs).
  assert (K : exists tt w i rest lts, t = Borrowed tt /\ s = w ++ tt ++ concat lts ++ i ++ lit "{" ++ rest /\ Ws w /\ Iws i /\ IdentText U tt /\ Forall2 (LText U) lts ls /\
    parse_str U (tt ++ i ++ lit "{" ++ rest) = OkR [Blk t [] b]).
  { assert (G : forall ps' qs tt, IdentText U tt -> LLabels U true ls ps' -> Filled ([Gap GapWs] ++ ([Tok tt] ++ ps' ++ [Tok [123]] ++ qs)) s ->
      (LDoc U [Blk (Borrowed tt) [] b] ([Gap GapWs] ++ ([Tok tt] ++ [Gap GapInline] ++ [Tok [123]] ++ qs))) -> t = Borrowed tt ->
      exists tt w i rest lts, t = Borrowed tt /\ s = w ++ tt ++ concat lts ++ i ++ lit "{" ++ rest /\ Ws w /\ Iws i /\ IdentText U tt /\ Forall2 (LText U) lts ls /\
        parse_str U (tt ++ i ++ lit "{" ++ rest) = OkR [Blk t [] b]).
    { intros ps' qs tt Ht HLs Hf HD ->. apply Filled_gap in Hf as (w & s1 & -> & Hw & Hf). apply InGap_ws in Hw. apply Filled_tok in Hf as (s2 & -> & Hf).
      apply Filled_app_inv in Hf as (x & y & -> & Hx & Hy). apply Filled_tok in Hy as (rest & -> & Hy).
      destruct (label_pieces U _ _ _ HLs x Hx) as (lts & i & -> & Hi & HF). exists tt, w, i, rest, lts. split; [reflexivity|]. split; [rewrite <- !app_assoc; reflexivity|].
      split; [exact Hw|]. split; [exact Hi|]. split; [exact Ht|]. split; [exact HF|]. apply C119_exact. eexists. split; [exact HD|].
      apply (FL_gap GapWs []); [repeat constructor|]. constructor. apply (FL_gap GapInline); [constructor; exact Hi|]. apply (FL_tok [123]). exact Hy. }
    inversion HL as [|el ps1 HE|el b' ps1 h qs1 HE HB]; subst.
    - inversion HE as [|t0 ls0 ps0 Ht HLs|t0 ls0 ps0 n v qs Ht HLs HA|t0 ls0 ps0 b0 qs Ht HLs HB]; subst.
      + assert (D := LD_last U _ _ (LE_one_line_empty U t0 [] [Gap GapInline] Ht (LL_nil U true))).
        refine (G ps0 ([Gap GapInline; Tok [125]] ++ [Gap GapInline]) t0 Ht HLs _ _ eq_refl); [flat Hs|flat D].
      + assert (D := LD_last U _ _ (LE_one_line U t0 [] [Gap GapInline] n v qs Ht (LL_nil U true) HA)).
        refine (G ps0 (([Gap GapInline] ++ qs ++ [Gap GapInline; Tok [125]]) ++ [Gap GapInline]) t0 Ht HLs _ _ eq_refl); [flat Hs|flat D].
      + assert (D := LD_last U _ _ (LE_block U t0 [] [Gap GapInline] b qs Ht (LL_nil U true) HB)).
        refine (G ps0 (([Gap GapInline; Gap GapLine] ++ qs ++ [Tok [125]]) ++ [Gap GapInline]) t0 Ht HLs _ _ eq_refl); [flat Hs|flat D].
    - inversion HE as [|t0 ls0 ps0 Ht HLs|t0 ls0 ps0 n v qs Ht HLs HA|t0 ls0 ps0 b0 qs Ht HLs HB']; subst.
      + assert (D := LD_cons U _ _ _ _ _ (LE_one_line_empty U t0 [] [Gap GapInline] Ht (LL_nil U true)) HB).
        refine (G ps0 ([Gap GapInline; Tok [125]] ++ end_after false ++ qs1) t0 Ht HLs _ _ eq_refl); [flat Hs|flat D].
      + assert (D := LD_cons U _ _ _ _ _ (LE_one_line U t0 [] [Gap GapInline] n v qs Ht (LL_nil U true) HA) HB).
        refine (G ps0 (([Gap GapInline] ++ qs ++ [Gap GapInline; Tok [125]]) ++ end_after false ++ qs1) t0 Ht HLs _ _ eq_refl); [flat Hs|flat D].
      + assert (D := LD_cons U _ _ _ _ _ (LE_block U t0 [] [Gap GapInline] b qs Ht (LL_nil U true) HB') HB).
        refine (G ps0 (([Gap GapInline; Gap GapLine] ++ qs ++ [Tok [125]]) ++ end_after false ++ qs1) t0 Ht HLs _ _ eq_refl); [flat Hs|flat D]. }
  destruct K as (tt & w & i & rest & lts & -> & Es & Hw & Hi & Ht & HF & HD). exists w, tt, lts, i, rest. split; [reflexivity|]. split; [exact Es|]. split; [exact Hw|]. split; [exact Hi|].
  split; [clear -HF; induction HF; cbn; congruence|]. split; [exact HD|]. intros prs Hp. apply LText_doc; [exact Ht|]. apply Forall_forall. intros [x l] Hx. apply Hp in Hx. cbn.
  clear -HF Hx. induction HF as [|x' l' lts ls Hxl HF IH]; [destruct Hx|]. destruct Hx as [E|Hx]; [injection E as -> ->; exact Hxl|apply IH, Hx].
Qed.
Print Assumptions C08_label_order.
(** A case: the two pieces swapped *)
Example C08_label_order_case :
  parse_str ascii_ucd (lit "r x ""y"" {" ++ [10] ++ lit "a = true" ++ [10] ++ lit "}") = OkR [Blk (Borrowed (lit "r")) [LIdent (Borrowed (lit "x")); LString (lit "y")] [Attr (Borrowed (lit "a")) (EBool true)]] /\
  parse_str ascii_ucd (lit "r" ++ concat (map (fun p : str * label => 32 :: fst p) [(lit " ""y""", LString (lit "y")); (lit " x", LIdent (Borrowed (lit "x")))]) ++ lit "{}") =
    OkR [Blk (Borrowed (lit "r")) [LString (lit "y"); LIdent (Borrowed (lit "x"))] []].
Proof. split; vm_compute; reflexivity. Qed.
