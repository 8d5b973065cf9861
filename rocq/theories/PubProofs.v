(** * PubProofs: what each public parser function reads, and how it stops *)
From Verif Require Import Base Nom NomFacts Ast Lex Grammar WsFacts NumFacts StrFacts HeredocFacts
  Parser ParserFacts ExprProofs BodyProofs MeetsSpec MeetsProofs PubSpec.

(** ** Skipping *)
Lemma skip_iws s r : SkipIws s r <-> r = iws_rest s.
Proof.
  split.
  - intros (w & -> & Hw & Hmax). destruct (iws_rest_sound (w ++ r)) as (w' & Hw' & E).
    specialize (Hmax w' _ E Hw').
    rewrite iws_rest_iws in * by exact Hw. pose proof (suffix_len _ _ (iws_rest_suffix r)).
    assert (Hl : length (w ++ r) = length (w' ++ iws_rest r)) by (rewrite <- E; reflexivity). rewrite !app_length in Hl.
    symmetry. apply suffix_len_eq; [apply iws_rest_suffix|lia].
  - intros ->. destruct (iws_rest_sound s) as (w & Hw & E). exists w. split; [exact E|]. split; [exact Hw|].
    intros t' r' E' Ht'. rewrite <- E in E'.
    assert (Hr : iws_rest s = iws_rest r') by (rewrite E'; apply iws_rest_iws, Ht').
    pose proof (suffix_len _ _ (iws_rest_suffix r')). rewrite <- Hr in H.
    assert (Hl : length (w ++ iws_rest s) = length (t' ++ r')) by (rewrite <- E, <- E'; reflexivity). rewrite !app_length in Hl. lia.
Qed.
Lemma skip_ws s r : SkipWs s r <-> r = ws_rest s.
Proof.
  split.
  - intros (w & -> & Hw & Hmax). destruct (ws_rest_sound (w ++ r)) as (w' & Hw' & E).
    specialize (Hmax w' _ E Hw').
    rewrite ws_rest_ws in * by exact Hw. pose proof (suffix_len _ _ (ws_rest_suffix r)).
    assert (Hl : length (w ++ r) = length (w' ++ ws_rest r)) by (rewrite <- E; reflexivity). rewrite !app_length in Hl.
    symmetry. apply suffix_len_eq; [apply ws_rest_suffix|lia].
  - intros ->. destruct (ws_rest_sound s) as (w & Hw & E). exists w. split; [exact E|]. split; [exact Hw|].
    intros t' r' E' Ht'. rewrite <- E in E'.
    assert (Hr : ws_rest s = ws_rest r') by (rewrite E'; apply ws_rest_ws, Ht').
    pose proof (suffix_len _ _ (ws_rest_suffix r')). rewrite <- Hr in H.
    assert (Hl : length (w ++ ws_rest s) = length (t' ++ r')) by (rewrite <- E, <- E'; reflexivity). rewrite !app_length in Hl. lia.
Qed.
Lemma skip_iws_here s : SkipIws s (iws_rest s).
Proof. apply skip_iws. reflexivity. Qed.
Lemma skip_ws_here s : SkipWs s (ws_rest s).
Proof. apply skip_ws. reflexivity. Qed.

(** ** Repetition *)
Lemma many0_run {A} (p : parser A) (item : A -> str -> str -> Prop) (stop : str -> Prop) : wf p ->
  (forall v s r, item v s r <-> p s = Ok r v /\ r <> s) ->
  (forall s, stop s <-> p s = Err \/ exists v, p s = Ok s v) ->
  forall l s r, many0 p s = Ok r l <-> Run item stop l s r.
Proof.
  intros Hp Hi Hs l s. revert l. remember (length s) as n eqn:En. revert s En. induction n as [n IH] using lt_wf_ind. intros s -> l r.
  rewrite many0_eq by apply wf_upto_of, Hp. pose proof (Hp s) as Hg. split.
  - destruct (p s) as [r1 v| | | |] eqn:Es; try discriminate.
    + destruct (str_eqb r1 s) eqn:Eq.
      * apply str_eqb_eq in Eq as ->. intros [= <- <-]. apply Run_stop, Hs. eauto.
      * apply str_eqb_neq in Eq. cbn in Hg. pose proof (suffix_neq_len _ _ Hg Eq) as Hl.
        intros H. apply map_res_ok in H as (l' & H & ->). eapply Run_item; [apply Hi; split; [exact Es|exact Eq]|].
        apply (IH _ Hl r1 eq_refl). exact H.
    + intros [= <- <-]. apply Run_stop, Hs. auto.
  - intros H. destruct H as [s Hst|v l s s' r Hit H].
    + apply Hs in Hst as [E|(v & E)]; rewrite E; [reflexivity|]. rewrite str_eqb_refl. reflexivity.
    + apply Hi in Hit as [E Hne]. rewrite E in *. cbn in Hg. pose proof (suffix_neq_len _ _ Hg Hne) as Hl.
      apply (IH _ Hl s' eq_refl) in H. apply str_eqb_neq in Hne. rewrite Hne, H. reflexivity.
Qed.

(** Tokens that can only succeed or fail *)
Lemma many0_all {A} (p : parser A) (item : A -> str -> str -> Prop) : wf p -> simple p ->
  (forall v s r, item v s r <-> p s = Ok r v /\ r <> s) ->
  forall l s r, many0 p s = Ok r l <-> All item l s r.
Proof.
  intros Hp Hsi Hi. apply many0_run; [exact Hp|exact Hi|]. intros s. split.
  - intros H. destruct (Hsi s) as [(r & v & E)|E]; [|auto]. right. exists v.
    destruct (str_eqb r s) eqn:Eq; [apply str_eqb_eq in Eq; congruence|]. exfalso. apply str_eqb_neq in Eq.
    apply (H v r), Hi. auto.
  - intros [E|(v' & E)] v r Hit; apply Hi in Hit as [E1 E2]; congruence.
Qed.

(** ** White space *)
Lemma inline_comment_exact s r t : inline_comment s = Ok r t <-> NoClose t /\ s = [47; 42] ++ t ++ [42; 47] ++ r.
Proof.
  unfold inline_comment, delimited. change (lit "/*") with [47; 42]. change (lit "*/") with [42; 47]. split.
  - intros H. apply bind_ok in H as (r1 & v1 & H1 & H). apply tag_ok in H1 as [-> _].
    apply bind_ok in H as (r2 & v2 & H2 & H). apply bind_ok in H as (r3 & v3 & H3 & H). injection H as -> ->.
    unfold take_until in H2. destruct (find_split [42; 47] r1) as [[a b]|] eqn:E; [|discriminate]. injection H2 as -> ->.
    apply tag_ok in H3 as [-> _]. pose proof (find_split_no _ _ _ _ eq_refl E) as Hn. split; [exact Hn|].
    apply find_split_ok in E as [E _]. rewrite E. reflexivity.
  - intros [Hn ->]. rewrite tag_app. cbn [bind]. unfold take_until.
    rewrite find_split_first; [|exact Hn|reflexivity]. cbn [bind]. rewrite tag_app. reflexivity.
Qed.
Lemma hash_comment_exact s r t : hash_comment s = Ok r t <-> exists e, NoEol t /\ Eol e /\ s = [35] ++ t ++ e ++ r.
Proof. split; [apply hash_comment_ok|]. intros (e & Ht & He & ->). exact (hash_comment_eq t e r Ht He). Qed.
Lemma slash_comment_exact s r t : slash_comment s = Ok r t <-> exists e, NoEol t /\ Eol e /\ s = [47; 47] ++ t ++ e ++ r.
Proof. split; [apply slash_comment_ok|]. intros (e & Ht & He & ->). exact (slash_comment_eq t e r Ht He). Qed.
Lemma line_comment_exact s r t : line_comment s = Ok r t <-> exists e, NoEol t /\ Eol e /\ s = [35] ++ t ++ e ++ r.
Proof.
  unfold line_comment. rewrite <- hash_comment_exact. split.
  - intros H. apply alt_inv in H as [H|[_ H]]; exact H.
  - apply alt_ok_l.
Qed.

Lemma Longest_blanks P (f : char -> bool) b r : (forall c, f c = true <-> P c) ->
  (Longest (BlankRun P) b r <-> forallb f b = true /\ stops f r).
Proof.
  intros Hf. split.
  - intros [Hb Hmax]. split; [apply forallb_forall; intros c Hc; apply Hf, Hb, Hc|].
    destruct r as [|c r]; [exact I|]. cbn. destruct (f c) eqn:Ec; [|reflexivity]. exfalso.
    specialize (Hmax (b ++ [c]) r). rewrite <- app_assoc in Hmax. specialize (Hmax eq_refl).
    rewrite app_length in Hmax. cbn in Hmax.
    assert (BlankRun P (b ++ [c])). { intros x Hx. apply in_app_or in Hx as [Hx|[<-|[]]]; [apply Hb, Hx|apply Hf, Ec]. }
    apply Hmax in H. lia.
  - intros [Hb Hr]. rewrite forallb_forall in Hb. split; [intros c Hc; apply Hf, Hb, Hc|].
    intros t' r' E Ht'. destruct (Nat.le_gt_cases (length t') (length b)) as [|Hgt]; [assumption|]. exfalso.
    assert (Hin : exists c x, r = c :: x /\ In c t').
    { revert t' r' E Ht' Hgt. clear - Hr. induction b as [|c b IH]; intros t' r' E Ht' Hgt.
      - destruct t' as [|c t']; [cbn in Hgt; lia|]. cbn in E. destruct r as [|x r]; [discriminate|]. injection E as -> ->.
        eexists _, _. split; [reflexivity|left; reflexivity].
      - destruct t' as [|c' t']; [cbn in Hgt; lia|]. cbn in E. injection E as -> E.
        destruct (IH t' r' E) as (x & y & -> & Hx); [intros z Hz; apply Ht'; right; exact Hz|cbn in Hgt; lia|].
        exists x, y. split; [reflexivity|right; exact Hx]. }
    destruct Hin as (c & x & -> & Hc). cbn in Hr. apply Ht', Hf in Hc. congruence.
Qed.
Lemma cons_neq_self {A} (a : list A) b : a <> [] -> b <> a ++ b.
Proof. intros Ha E. apply (f_equal (@length A)) in E. rewrite app_length in E. destruct a; [congruence|cbn in E; lia]. Qed.

Lemma inline_whitespace_exact l s r : inline_whitespace s = Ok r l <-> All IwsPiece l s r.
Proof.
  unfold inline_whitespace. fold iws_item. apply many0_all; [apply wf_iws_item|apply simple_iws_item|].
  intros v s0 r0. split.
  - intros [t r1 Ht|b r1 Hb HL].
    + split; [|rewrite !app_assoc; apply cons_neq_self; discriminate].
      apply alt_ok_l. apply inline_comment_exact. auto.
    + split; [|apply cons_neq_self, Hb]. apply (Longest_blanks InlineBlank blank2) in HL as [H1 H2]; [|apply blank2_spec].
      assert (Hc : inline_comment (b ++ r1) = Err).
      { destruct b as [|c b]; [congruence|]. apply inline_comment_first. cbn in H1. apply andb_true_iff in H1 as [H1 _]. apply blank2_spec in H1. lia. }
      rewrite iws_item_eat by exact Hc. rewrite span_eq by assumption. reflexivity.
  - intros [H Hne]. apply alt_inv in H as [H|[_ H]].
    + apply inline_comment_exact in H as [Ht ->]. constructor. exact Ht.
    + unfold eat_separator, take_while in H. fold blank2 in H. destruct (span blank2 s0) as [a b] eqn:Es. injection H as -> ->.
      apply span_spec in Es as (-> & H1 & H2). apply IP_blanks; [intros ->; apply Hne; reflexivity|].
      apply (Longest_blanks InlineBlank blank2); [apply blank2_spec|auto].
Qed.
Lemma whitespace_exact l s r : whitespace s = Ok r l <-> All WsPiece l s r.
Proof.
  unfold whitespace. fold ws_item. apply many0_all; [apply wf_ws_item|apply simple_ws_item|].
  intros v s0 r0. split.
  - intros [t e r1 Ht He|t e r1 Ht He|t r1 Ht|b r1 Hb HL].
    + split; [apply alt_ok_l, hash_comment_exact; eauto|]. rewrite !app_assoc. apply cons_neq_self. discriminate.
    + split; [|rewrite !app_assoc; apply cons_neq_self; discriminate]. unfold ws_item. rewrite alt_err by (apply hash_comment_first; lia).
      apply alt_ok_l, slash_comment_exact. eauto.
    + split; [|rewrite !app_assoc; apply cons_neq_self; discriminate]. unfold ws_item. rewrite alt_err by (apply hash_comment_first; lia).
      rewrite alt_err by (apply slash_comment_second; lia). apply alt_ok_l, inline_comment_exact. auto.
    + split; [|apply cons_neq_self, Hb]. apply (Longest_blanks AnyBlank blank4) in HL as [H1 H2]; [|apply blank4_spec].
      assert (Hc : hash_comment (b ++ r1) = Err /\ slash_comment (b ++ r1) = Err /\ inline_comment (b ++ r1) = Err).
      { destruct b as [|c b]; [congruence|]. cbn in H1. apply andb_true_iff in H1 as [H1 _]. apply blank4_spec in H1.
        split; [apply hash_comment_first; lia|]. split; [apply slash_comment_first; lia|apply inline_comment_first; lia]. }
      destruct Hc as (C1 & C2 & C3). rewrite ws_item_eat by assumption. rewrite span_eq by assumption. reflexivity.
  - intros [H Hne]. apply alt_inv in H as [H|[_ H]].
    { apply hash_comment_exact in H as (e & Ht & He & ->). constructor; assumption. }
    apply alt_inv in H as [H|[_ H]].
    { apply slash_comment_exact in H as (e & Ht & He & ->). apply WP_slash; assumption. }
    apply alt_inv in H as [H|[_ H]].
    { apply inline_comment_exact in H as [Ht ->]. apply WP_comment. exact Ht. }
    unfold eat_separator, take_while in H. fold blank4 in H. destruct (span blank4 s0) as [a b] eqn:Es. injection H as -> ->.
    apply span_spec in Es as (-> & H1 & H2). apply WP_blanks; [intros ->; apply Hne; reflexivity|].
    apply (Longest_blanks AnyBlank blank4); [apply blank4_spec|auto].
Qed.
Lemma eol_exact s r e : eol s = Ok r e <-> Eol e /\ s = e ++ r.
Proof.
  split; [apply eol_ok|]. intros [[|] ->]; unfold eol.
  - apply alt_ok_l. exact (tag_app [10] r).
  - rewrite alt_err by (apply tag_first; discriminate). exact (tag_app [13; 10] r).
Qed.
Lemma newline_item_exact v s r : NlPiece v s r <-> newline_item s = Ok r v /\ r <> s.
Proof.
  unfold newline_item. split.
  - intros [t e r1 Ht He|t e r1 Ht He|t e r1 Ht He|e r1 He].
    + split; [apply alt_ok_l, hash_comment_exact; eauto|]. rewrite !app_assoc. apply cons_neq_self. discriminate.
    + split; [|rewrite !app_assoc; apply cons_neq_self; discriminate]. rewrite alt_err by (apply hash_comment_first; lia).
      apply alt_ok_l, slash_comment_exact. eauto.
    + split; [|rewrite !app_assoc; apply cons_neq_self; discriminate]. rewrite alt_err by (apply hash_comment_first; lia).
      rewrite alt_err by (apply slash_comment_second; lia). apply alt_ok_l. unfold terminated.
      rewrite (proj2 (inline_comment_exact _ (e ++ r1) t)) by auto. cbn [bind].
      rewrite (proj2 (eol_exact _ r1 e)) by auto. reflexivity.
    + split; [|destruct He; apply (cons_neq_self [10]) || apply (cons_neq_self [13; 10]); discriminate].
      assert (Hc : hash_comment (e ++ r1) = Err /\ slash_comment (e ++ r1) = Err /\ inline_comment (e ++ r1) = Err).
      { destruct He; (split; [apply hash_comment_first; lia|]; split; [apply slash_comment_first; lia|apply inline_comment_first; lia]). }
      destruct Hc as (C1 & C2 & C3). rewrite !alt_err; try assumption.
      * apply eol_exact. auto.
      * unfold terminated. rewrite C3. reflexivity.
  - intros [H Hne]. apply alt_inv in H as [H|[_ H]].
    { apply hash_comment_exact in H as (e & Ht & He & ->). constructor; assumption. }
    apply alt_inv in H as [H|[_ H]].
    { apply slash_comment_exact in H as (e & Ht & He & ->). apply NP_slash; assumption. }
    apply alt_inv in H as [H|[_ H]].
    { unfold terminated in H. apply bind_ok in H as (r1 & v1 & H1 & H). apply bind_ok in H as (r2 & v2 & H2 & H). injection H as -> ->.
      apply inline_comment_exact in H1 as [Ht ->]. apply eol_exact in H2 as [He ->]. apply NP_comment; assumption. }
    apply eol_exact in H as [He ->]. apply NP_eol, He.
Qed.
Lemma newline_exact l s r : newline s = Ok r l <-> Newlines l s r.
Proof.
  assert (HM : forall l s r, many0 newline_item s = Ok r l <-> All NlPiece l s r).
  { apply many0_all; [apply wf_newline_item|apply simple_newline_item|intros; apply newline_item_exact]. }
  unfold newline, Newlines. rewrite many1_eq. split.
  - intros H. apply bind_ok in H as (r1 & v & H1 & H). apply map_res_ok in H as (l' & H & ->). split; [discriminate|].
    eapply Run_item; [|apply HM, H]. apply newline_item_exact. split; [exact H1|]. intros ->.
    destruct (newline_item_sound _ _ _ H1) as (w & _ & E). clear - H1.
    assert (Hp : forall v s, newline_item s = Ok s v -> False); [|exact (Hp _ _ H1)]. clear.
    intros v s H. unfold newline_item in H. 
    apply alt_inv in H as [H|[_ H]].
    { apply hash_comment_exact in H as (e & Ht & He & E). rewrite !app_assoc in E. apply cons_neq_self in E; [exact E|discriminate]. }
    apply alt_inv in H as [H|[_ H]].
    { apply slash_comment_exact in H as (e & Ht & He & E). rewrite !app_assoc in E. apply cons_neq_self in E; [exact E|discriminate]. }
    apply alt_inv in H as [H|[_ H]].
    { unfold terminated in H. apply bind_ok in H as (r1 & v1 & H1 & H). apply bind_ok in H as (r2 & v2 & H2 & H). injection H as -> ->.
      apply inline_comment_exact in H1 as [Ht E1]. apply eol_exact in H2 as [He E]. subst r1.
      apply (f_equal (@length N)) in E1. rewrite !app_length in E1. cbn [length] in E1. lia. }
    apply eol_exact in H as [He E]. apply cons_neq_self in E; [exact E|destruct He; discriminate].
  - intros [Hne H]. destruct H as [s Hs|v l s s' r Hi H]; [congruence|].
    apply newline_item_exact in Hi as [-> _]. cbn [bind]. apply HM in H. rewrite H. reflexivity.
Qed.
