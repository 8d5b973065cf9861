(** * AppendProofs: what more text after a document can change *)
From Verif Require Import Base Ast Grammar Nom NomFacts WsFacts NumFacts StrFacts HeredocFacts Lex Parser ParserFacts ExprProofs
  BodyProofs Locality DocProofs MoreProofs MeetsSpec MeetsProofs.

Section WithTables.
Context (U : ucd).

(** ** A document followed by a line end and more *)
Lemma body_item_shorter x r el : body_item U x = Ok r el -> (length r < length (ws_rest x))%nat.
Proof.
  intros H. unfold body_item in H. rewrite wrap_ws in H. unfold terminated in H.
  apply bind_ok in H as (r1 & el' & H1 & H). apply bind_ok in H as (r2 & v & H2 & H). injection H as -> ->.
  apply (element_sound U (length (ws_rest x))) in H1 as (r0 & H1 & ->);
    [|intros s r' b Hs Hb; apply body_sound, Hb|lia].
  rewrite iws_ws_rest in H1.
  destruct (proj1 (body_complete_mut U) _ _ _ H1) as (Hl & _).
  pose proof (wf_body_end (iws_rest r0)) as Hg. rewrite H2 in Hg. apply suffix_len in Hg.
  pose proof (suffix_len _ _ (iws_rest_suffix r0)). lia.
Qed.
Lemma body_ws_eq x y : ws_rest x = ws_rest y -> body U x = body U y.
Proof.
  intros H. assert (HE : body_item U x = body_item U y) by (unfold body_item; rewrite !wrap_ws, H; reflexivity).
  rewrite !body_unfold, !many0_eq by apply wf_upto_of, wf_body_item. rewrite <- HE.
  destruct (body_item U x) as [r el| | | |] eqn:E; cbn [bind]; try reflexivity; [|rewrite H; reflexivity].
  pose proof (body_item_shorter _ _ _ E) as Hl.
  assert (H1 : str_eqb r x = false).
  { apply str_eqb_neq. intros ->. pose proof (suffix_len _ _ (ws_rest_suffix x)). lia. }
  assert (H2 : str_eqb r y = false).
  { apply str_eqb_neq. intros ->. pose proof (suffix_len _ _ (ws_rest_suffix y)). rewrite H in Hl. lia. }
  rewrite H1, H2. reflexivity.
Qed.
Lemma body_cons el w i s n s2 : Ws w -> Iws i -> GElem U el s (i ++ n ++ s2) -> LineEnd n ->
  body U (w ++ s) = map_res (cons el) (body U s2).
Proof.
  intros Hw Hi He Hn. destruct (proj1 (body_complete_mut U) _ _ _ He) as (Hl & Hs & HRe).
  destruct (newline_complete n s2 Hn) as (r1 & v & H1 & H2).
  assert (Hit : body_item U (w ++ s) = Ok r1 el).
  { unfold body_item. rewrite wrap_ws, ws_rest_ws, Hs by exact Hw. unfold terminated. rewrite HRe. cbn [bind].
    rewrite iws_rest_iws, iws_rest_LineEnd by assumption.
    apply (pmap_ok (fun _ => @nil char)) in H1. rewrite (alt_ok_l _ _ _ _ _ H1). reflexivity. }
  rewrite <- (body_ws_eq r1 s2 H2). rewrite !body_unfold.
  rewrite (many0_eq (body_item U) (w ++ s)) by apply wf_upto_of, wf_body_item. rewrite Hit.
  assert (Hne : str_eqb r1 (w ++ s) = false).
  { apply str_eqb_neq. intros ->. pose proof (body_item_shorter _ _ _ Hit) as H3.
    pose proof (suffix_len _ _ (ws_rest_suffix (w ++ s))). lia. }
  rewrite Hne. destruct (many0 (body_item U) r1); reflexivity.
Qed.
Lemma map_res_app {A} (a b : list A) (x : res (list A)) : map_res (app a) (map_res (app b) x) = map_res (app (a ++ b)) x.
Proof. destruct x; cbn; rewrite ?app_assoc; reflexivity. Qed.
Lemma body_append b1 d1 r n d2 : GBody U b1 d1 r -> r = [] -> LineEnd n ->
  body U (d1 ++ n ++ d2) = map_res (app b1) (body U d2).
Proof.
  intros H1 ER Hn0.
  induction H1 as [w r Hw|el b w i s s1 s2 r Hw Hi He Hsep Hb IH].
  - subst. rewrite app_nil_r. rewrite (body_ws_eq (w ++ n ++ d2) d2).
    + destruct (body U d2); reflexivity.
    + rewrite ws_rest_ws by exact Hw. apply ws_rest_ws, Ws_LineEnd, Hn0.
  - specialize (IH ER). subst r. apply GElem_replace in He as (te & -> & Hte & He).
    rewrite <- !app_assoc. destruct Hsep as [(n' & Hn & ->)|[-> ->]].
    + rewrite <- !app_assoc. rewrite (body_cons el w i (te ++ i ++ n' ++ s2 ++ n ++ d2) n' (s2 ++ n ++ d2)); [|exact Hw|exact Hi| |exact Hn].
      * rewrite IH. apply (map_res_app [el]).
      * apply He; [apply Delim_iws; [exact Hi|apply Delim_LineEnd, Hn]|apply EolAt_LineEnd, Hn].
    + cbn [app]. rewrite (body_cons el w i (te ++ i ++ n ++ d2) n d2); [|exact Hw|exact Hi| |exact Hn0].
      * apply GBody_nil_inv in Hb as [-> _]; reflexivity.
      * apply He; [apply Delim_iws; [exact Hi|apply Delim_LineEnd, Hn0]|].
        rewrite app_nil_r. intros HE. apply EolAt_iws in HE; [contradiction|exact Hi].
Qed.
Lemma config_append b1 d1 n d2 : GConfig U b1 d1 -> LineEnd n ->
  config_file U (d1 ++ n ++ d2) = map_res (app b1) (config_file U d2).
Proof.
  intros H Hn. unfold config_file, exact, terminated. rewrite (body_append _ _ _ _ d2 H eq_refl Hn).
  destruct (body U d2) as [[|]| | | |]; reflexivity.
Qed.

(** ** What the reader met stays met *)
Definition HexDigit (c : char) : Prop := 48 <= c <= 57 \/ 65 <= c <= 70 \/ 97 <= c <= 102.
Lemma esc_tail n c t : EscShape n (c :: t) -> forall d, In d t -> HexDigit d.
Proof.
  intros H d Hd. inversion H; subst; try contradiction; unfold HexDigit;
  match goal with
  | H : OctDigits _ |- _ => specialize (H d (or_intror Hd)); lia
  | H : HexDigits _ |- _ => specialize (H d Hd); lia
  end.
Qed.
Lemma esc_longest_app n t a c b x : EscShape n t -> Longest (fun t' => exists n', EscShape n' t') t (a ++ c :: b) -> ~ HexDigit c ->
  Longest (fun t' => exists n', EscShape n' t') t (a ++ c :: b ++ x).
Proof.
  intros He [HT Hm] Hc. split; [exact HT|]. intros y z E (n' & Hy).
  destruct (Nat.le_gt_cases (length y) (length t)) as [Hle|Hgt]; [exact Hle|]. exfalso.
  apply app_prefix_le in E; [|lia]. destruct E as (k & -> & E).
  destruct t as [|t0 t]; [apply EscShape_nonempty in He; congruence|].
  assert (Hk : forall d, In d k -> HexDigit d) by (intros d Hd; eapply esc_tail; [exact Hy|apply in_or_app; auto]).
  assert (Ha : exists a', a = k ++ a').
  { destruct (Nat.le_gt_cases (length k) (length a)) as [Hl|Hg].
    - symmetry in E. apply app_prefix_le in E; [|lia]. destruct E as (z' & -> & _). eauto.
    - exfalso. apply Hc, Hk. apply app_prefix_le in E; [|lia]. destruct E as (z' & -> & E').
      destruct z' as [|d z']; [rewrite app_nil_r in Hg; lia|]. cbn in E'. injection E' as <- _. apply in_or_app. right. left; reflexivity. }
  destruct Ha as (a' & ->). specialize (Hm ((t0 :: t) ++ k) (a' ++ c :: b)). rewrite <- !app_assoc in Hm.
  specialize (Hm eq_refl (ex_intro _ n' Hy)). rewrite app_length in *. lia.
Qed.
Lemma chars_append P v s c q x : GChars P v s (c :: q) -> ~ HexDigit c -> GChars P v (s ++ x) (c :: q ++ x).
Proof.
  intros H Hc. assert (HS : exists a, s = a ++ c :: q /\ GChars P v (a ++ c :: q ++ x) (c :: q ++ x)).
  { remember (c :: q) as R eqn:ER. induction H as [R'|d v s R' Hd H IH|n t v s R' He Hl Hv H IH].
    - subst. exists []. split; [reflexivity|constructor].
    - destruct (IH ER) as (a & -> & IH'). exists (d :: a). split; [reflexivity|]. cbn [app]. apply GC_char; assumption.
    - destruct (IH ER) as (a & -> & IH'). subst R'. exists ([92] ++ t ++ a). split; [rewrite <- !app_assoc; reflexivity|].
      rewrite <- !app_assoc. apply GC_esc; try assumption. eapply esc_longest_app; eassumption. }
  destruct HS as (a & -> & HS). rewrite <- app_assoc. exact HS.
Qed.
(** Text that does not lengthen a number in an escape sequence *)
Definition NotHex (x : str) : Prop := match x with [] => True | c :: _ => ~ HexDigit c end.
Lemma bad_escape_append P p s x : NotHex x -> BadEscape P p s -> BadEscape P (p ++ x) (s ++ x).
Proof.
  intros Hx (v & s' & -> & Hc & Hp & Hb). exists v, (s' ++ x). split; [rewrite <- app_assoc; reflexivity|].
  split; [apply (chars_append P v s' 92 p x Hc); unfold HexDigit; lia|]. split; [destruct p; [congruence|discriminate]|].
  intros (n & t & r & E & He & Hl & Hv). apply Hb.
  assert (Ht : exists z, p = t ++ z).
  { destruct (Nat.le_gt_cases (length t) (length p)) as [Hle|Hgt].
    - symmetry in E. apply app_prefix_le in E; [|lia]. destruct E as (z & -> & _). eauto.
    - exfalso. apply app_prefix_le in E; [|lia]. destruct E as (z & -> & E).
      destruct z as [|d z]; [rewrite app_nil_r in Hgt; lia|]. destruct x as [|d' x]; [discriminate|]. injection E as -> ->.
      apply Hx. destruct p as [|p0 p]; [congruence|]. eapply esc_tail; [exact He|]. apply in_or_app. right. left. reflexivity. }
  destruct Ht as (z & ->). exists n, t, z. split; [reflexivity|]. split; [exact He|]. split; [|exact Hv].
  destruct Hl as [HT Hm]. split; [exact HT|]. intros y y' Ey Hy. apply (Hm y (y' ++ x)); [|exact Hy].
  rewrite <- E, Ey, <- app_assoc. reflexivity.
Qed.
Lemma bad_heredoc_append s x : BadHeredoc U s -> BadHeredoc U (s ++ x).
Proof.
  intros (m & e & content & b & t & r & -> & Hm & He & Hc & Hb & Hf & Hu).
  destruct Hc as (e1 & e1' & r1 & He1 & Hbb & He1' & -> & ->).
  exists m, e, content, b, (e1 ++ b ++ m ++ e1' ++ r1 ++ x), (e1' ++ r1 ++ x).
  split; [rewrite <- !app_assoc; reflexivity|]. split; [exact Hm|]. split; [exact He|].
  split; [exists e1, e1', (r1 ++ x); auto|]. split; [exact Hb|]. split; [|exact Hu].
  intros y z b' r' E Hz HC. apply (Closing_replace U m b e1 z b' (e1' ++ r1)) in HC; try assumption; [|exists e1', r1; auto].
  destruct HC as (b2 & R2 & HC). exact (Hf y z b2 R2 E Hz HC).
Qed.

Lemma delim_app r x : r <> [] -> Delim r -> Delim (r ++ x).
Proof. destruct r; [congruence|intros _ H; exact H]. Qed.
Lemma ident_append i s c q x : GIdent U i s (c :: q) -> GIdent U i (s ++ x) (c :: q ++ x).
Proof.
  intros (t & -> & -> & H). exists t. split; [reflexivity|]. rewrite <- app_assoc. split; [reflexivity|].
  apply Longest_ident in H as [H1 H2]. apply Longest_ident. split; [exact H1|exact H2].
Qed.
Lemma ident_append_ne i s r x : r <> [] -> GIdent U i s r -> GIdent U i (s ++ x) (r ++ x).
Proof. destruct r as [|c q]; [congruence|]. intros _. apply ident_append. Qed.
Lemma GExpr_append e s i c q x : Ws i -> delim_char c = true -> c <> 13 -> GExpr U e s (i ++ c :: q) -> GExpr U e (s ++ x) (i ++ c :: q ++ x).
Proof.
  intros Hi Hc Hc' H. apply GExpr_replace in H as (t & -> & _ & H). rewrite <- !app_assoc.
  apply H; [apply Delim_ws; [exact Hi|exact Hc]|apply EolAt_mid, Hc'].
Qed.
Lemma GKey_append k s i c q x : Ws i -> delim_char c = true -> c <> 13 -> GKey U k s (i ++ c :: q) -> GKey U k (s ++ x) (i ++ c :: q ++ x).
Proof.
  intros Hi Hc Hc' H. apply GKey_replace in H as (t & -> & _ & H). rewrite <- !app_assoc.
  apply H; [apply Delim_ws; [exact Hi|exact Hc]|apply EolAt_mid, Hc'].
Qed.
Lemma GLabels_append ls s r x : GLabels U ls s r -> r <> [] -> GLabels U ls (s ++ x) (r ++ x).
Proof.
  intros H Hr. induction H as [i r Hi|l ls i s s' r Hi Hl HL IH]; rewrite <- app_assoc; [constructor; exact Hi|].
  specialize (IH Hr). assert (Hs' : s' <> []).
  { intros ->. apply (GLabels_len U) in HL. destruct r; [congruence|cbn in HL; lia]. }
  econstructor; [exact Hi| |exact IH]. destruct Hl as [i0 s0 r0 Hi0|v s0 r0 Hv].
  - apply GL_ident, ident_append_ne; assumption.
  - apply (GL_string U v (s0 ++ x)). apply (chars_append _ _ _ 34 r0 x Hv). unfold HexDigit. lia.
Qed.
Section Meets.
Context (T T' : str -> Prop) (x : str) (HT : forall s, T s -> T' (s ++ x)).
Lemma meets_append :
  (forall s, MeetsTerm U T s -> MeetsTerm U T' (s ++ x)) /\ (forall s, MeetsExpr U T s -> MeetsExpr U T' (s ++ x)) /\
  (forall s, MeetsItems U T s -> MeetsItems U T' (s ++ x)) /\ (forall s, MeetsMembers U T s -> MeetsMembers U T' (s ++ x)).
Proof.
  apply meets_mut.
  - intros s H. apply MT_here, HT, H.
  - intros s _ IH. rewrite <- app_assoc. apply MT_tuple, IH.
  - intros s _ IH. rewrite <- app_assoc. apply MT_object, IH.
  - intros w s Hw _ IH. rewrite <- !app_assoc. apply MT_paren; assumption.
  - intros s _ IH. apply ME_term, IH.
  - intros w s Hw Hf _ IH. rewrite <- app_assoc. apply ME_lead; [exact Hw| |exact IH].
    destruct Hf as [[q ->]|[q ->]]; [left|right]; eexists; reflexivity.
  - intros w s Hw _ IH. rewrite <- app_assoc. apply MI_here; assumption.
  - intros e w1 w2 s s' Hw1 Hw2 He _ IH. rewrite <- app_assoc.
    eapply MI_next; [exact Hw1|exact Hw2|apply (GExpr_append e s w2 44 s' x Hw2 eq_refl); [lia|exact He]|exact IH].
  - intros w s Hw _ IH. rewrite <- app_assoc. apply MM_key; assumption.
  - intros k w i1 i2 s s' Hw Hi1 Hi2 Hk _ IH. rewrite <- app_assoc.
    eapply (MM_value U T' k w i1 i2 _ (s' ++ x)); [exact Hw|exact Hi1|exact Hi2| |exact IH].
    apply (GKey_append k s i1 61 (i2 ++ s') x) in Hk; [|apply Iws_Ws, Hi1|reflexivity|lia]. rewrite <- app_assoc in Hk. exact Hk.
  - intros k e w i1 i2 i3 s s' s3 s4 Hw Hi1 Hi2 Hi3 Hk He Hs _ IH. rewrite <- app_assoc.
    eapply (MM_next U T' k e w i1 i2 i3 _ (s' ++ x) (s3 ++ x) (s4 ++ x)); [exact Hw|exact Hi1|exact Hi2|exact Hi3| | | |exact IH].
    + apply (GKey_append k s i1 61 (i2 ++ s') x) in Hk; [|apply Iws_Ws, Hi1|reflexivity|lia]. rewrite <- app_assoc in Hk. exact Hk.
    + destruct Hs as [->|[(n & Hn & ->)|[-> [q ->]]]].
      * apply (GExpr_append e s' i3 44 s4 x); [apply Iws_Ws, Hi3|reflexivity|lia|exact He].
      * apply GExpr_replace in He as (t & -> & _ & He). rewrite <- !app_assoc. apply He.
        -- apply Delim_iws; [exact Hi3|apply Delim_LineEnd, Hn].
        -- apply EolAt_LineEnd, Hn.
      * apply (GExpr_append e s' i3 125 q x); [apply Iws_Ws, Hi3|reflexivity|lia|exact He].
    + destruct Hs as [->|[(n & Hn & ->)|[-> [q ->]]]].
      * left. reflexivity.
      * right. left. exists n. split; [exact Hn|rewrite <- app_assoc; reflexivity].
      * right. right. split; [reflexivity|eexists; reflexivity].
Qed.
Lemma meets_attr_append s : MeetsAttr U T s -> MeetsAttr U T' (s ++ x).
Proof.
  intros [i i1 i2 s0 s' Hi1 Hi2 Hi He]. eapply (MA U T' i i1 i2 _ (s' ++ x)); [exact Hi1|exact Hi2| |apply meets_append, He].
  apply (ident_append_ne _ _ _ x) in Hi; [|destruct i1; discriminate]. rewrite <- !app_assoc in Hi. exact Hi.
Qed.
Lemma GIdentLabels_append t ls s s' r : GIdent U t s s' -> GLabels U ls s' r -> r <> [] ->
  GIdent U t (s ++ x) (s' ++ x) /\ GLabels U ls (s' ++ x) (r ++ x).
Proof.
  intros Ht Hls Hr. split; [|apply GLabels_append; assumption]. apply ident_append_ne; [|exact Ht].
  intros ->. apply (GLabels_len U) in Hls. destruct r; [congruence|cbn in Hls; lia].
Qed.
Context (L L' : str -> Prop) (HL : forall s, L s -> L' (s ++ x)) (HLne : forall s, L s -> s <> []).
Lemma meets_body_append :
  (forall s, MeetsElem U T L s -> MeetsElem U T' L' (s ++ x)) /\ (forall s, MeetsBody U T L s -> MeetsBody U T' L' (s ++ x)).
Proof.
  apply meets_body_mut.
  - intros s H. apply MEl_attr, meets_attr_append, H.
  - intros t ls s s' s2 Ht Hls Hl. destruct (GIdentLabels_append _ _ _ _ _ Ht Hls (HLne _ Hl)) as [H1 H2].
    eapply MEl_label; [exact H1|exact H2|apply HL, Hl].
  - intros t ls i1 s s' s2 Hi1 Ht Hls Ha. destruct (GIdentLabels_append _ _ _ _ _ Ht Hls) as [H1 H2]; [discriminate|].
    rewrite <- !app_assoc in H2. eapply MEl_one_line; [exact Hi1|exact H1|exact H2|apply meets_attr_append, Ha].
  - intros t ls i1 n s s' s2 Hi1 Hn Ht Hls _ IH. destruct (GIdentLabels_append _ _ _ _ _ Ht Hls) as [H1 H2]; [discriminate|].
    rewrite <- !app_assoc in H2. eapply MEl_block; [exact Hi1|exact Hn|exact H1|exact H2|exact IH].
  - intros w s Hw _ IH. rewrite <- app_assoc. apply MB_here; assumption.
  - intros el w i n s s2 Hw Hi He Hn _ IH. rewrite <- app_assoc.
    eapply (MB_next U T' L' el w i n _ (s2 ++ x)); [exact Hw|exact Hi| |exact Hn|exact IH].
    apply GElem_replace in He as (t & -> & _ & He). rewrite <- !app_assoc. apply He.
    + apply Delim_iws; [exact Hi|apply Delim_LineEnd, Hn].
    + apply EolAt_LineEnd, Hn.
Qed.
End Meets.
Lemma bad_escape_ne P p s : BadEscape P p s -> s <> [].
Proof. intros (v & s' & -> & _). discriminate. Qed.
Lemma meets_heredoc_append s x : MeetsHeredoc U s -> MeetsHeredoc U (s ++ x).
Proof.
  apply meets_body_append; [intros; apply bad_heredoc_append; assumption|intros ? []|intros ? []].
Qed.
Lemma expr_meets_heredoc_append s x : ExprMeetsHeredoc U s -> ExprMeetsHeredoc U (s ++ x).
Proof. apply (meets_append (BadHeredoc U) (BadHeredoc U) x). intros s0 H. apply bad_heredoc_append, H. Qed.
Lemma meets_escape_append p s x : NotHex x -> MeetsEscape U p s -> MeetsEscape U (p ++ x) (s ++ x).
Proof.
  intros Hx. apply meets_body_append.
  - intros s0 H. apply bad_escape_append; assumption.
  - intros s0 H. apply bad_escape_append; assumption.
  - intros s0 H. eapply bad_escape_ne, H.
Qed.
Lemma expr_meets_escape_append p s x : NotHex x -> ExprMeetsEscape U p s -> ExprMeetsEscape U (p ++ x) (s ++ x).
Proof. intros Hx. apply (meets_append (BadEscape Plain p) (BadEscape Plain (p ++ x)) x). intros s0 H. apply bad_escape_append; assumption. Qed.
End WithTables.
