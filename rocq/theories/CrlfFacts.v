(** * CrlfFacts: [crlf] on tokens *)
From Verif Require Import Base Ast Lex Grammar CrlfSpec.

Definition NoCr (s : str) : Prop := ~ In 13 s.
Lemma NoCr_app a b : NoCr (a ++ b) <-> NoCr a /\ NoCr b.
Proof. unfold NoCr. rewrite in_app_iff. tauto. Qed.
Lemma NoCr_cons c b : NoCr (c :: b) <-> c <> 13 /\ NoCr b.
Proof. unfold NoCr. cbn. intuition congruence. Qed.
Lemma NoCr_nil : NoCr []. Proof. intros []. Qed.

Lemma crlf_app a b : crlf (a ++ b) = crlf a ++ crlf b.
Proof. induction a as [|c a IH]; cbn; [reflexivity|]. destruct (c =? 10); cbn; rewrite IH; reflexivity. Qed.
Lemma crlf_plain t : ~ In 10 t -> crlf t = t.
Proof.
  induction t as [|c t IH]; cbn; intros H; [reflexivity|]. destruct (N.eqb_spec c 10); [exfalso; auto|]. rewrite IH; auto.
Qed.
Lemma crlf_cons c s : c <> 10 -> crlf (c :: s) = c :: crlf s.
Proof. intros H. cbn. apply N.eqb_neq in H. rewrite H. reflexivity. Qed.
Lemma crlf_nil s : crlf s = [] -> s = [].
Proof. destruct s as [|c s]; cbn; [auto|]. destruct (c =? 10); discriminate. Qed.
Lemma AddCr_crlf s : AddCr s (crlf s).
Proof. induction s as [|c s IH]; cbn; [constructor|]. destruct (N.eqb_spec c 10); subst; constructor; exact IH. Qed.
Lemma AddCr_refl s : AddCr s s.
Proof. induction s; constructor; assumption. Qed.
Lemma AddCr_app a a' b b' : AddCr a a' -> AddCr b b' -> AddCr (a ++ b) (a' ++ b').
Proof. induction 1; intros Hb; cbn; [exact Hb|constructor; auto|apply AC_cr; auto]. Qed.
Lemma AddCr_plain s s' : AddCr s s' -> ~ In 10 s -> s' = s.
Proof. induction 1; cbn; intros Hn; [reflexivity|rewrite IHAddCr; auto|exfalso; auto]. Qed.

(** A prefix of [crlf r] without line ends is a prefix of [r]. *)
Definition NoBreak (t : str) : Prop := forall c, In c t -> c <> 10 /\ c <> 13.
Lemma crlf_prefix t : forall r r', NoBreak t -> t ++ r' = crlf r -> exists r0, r = t ++ r0 /\ r' = crlf r0.
Proof.
  induction t as [|c t IH]; intros r r' Ht E; [exists r; auto|].
  destruct r as [|d r]; [discriminate|]. cbn in E. destruct (N.eqb_spec d 10).
  - injection E as -> _. destruct (Ht 13); [left; reflexivity|congruence].
  - injection E as <- E. apply IH in E as (r0 & -> & ->); [|intros x Hx; apply Ht; right; exact Hx]. exists r0; auto.
Qed.
(** Suffixes *)
Lemma crlf_suffix p : forall x' y', crlf p = x' ++ y' -> exists x y, p = x ++ y /\
  (y' = crlf y \/ (exists y0, y = 10 :: y0 /\ y' = 10 :: crlf y0)).
Proof.
  induction p as [|c p IH]; intros x' y' E.
  - cbn in E. symmetry in E. apply app_eq_nil in E as [-> ->]. exists [], []. auto.
  - cbn in E. destruct (N.eqb_spec c 10) as [->|Hc].
    + destruct x' as [|a x']; [exists [], (10 :: p); split; [reflexivity|left; cbn; symmetry; exact E]|].
      injection E as <- E. destruct x' as [|a x'].
      * exists [], (10 :: p). split; [reflexivity|]. right. exists p. auto.
      * injection E as <- E. apply IH in E as (x & y & -> & H). exists (10 :: x), y. auto.
    + destruct x' as [|a x']; [exists [], (c :: p); split; [reflexivity|left; rewrite crlf_cons by exact Hc; symmetry; exact E]|].
      injection E as <- E. apply IH in E as (x & y & -> & H). exists (c :: x), y. auto.
Qed.

Lemma Longest_crlf (T : str -> Prop) t r : (forall t', T t' -> NoBreak t') -> Longest T t r -> Longest T t (crlf r).
Proof.
  intros HT [Ht HL]. split; [exact Ht|]. intros t' r' E Ht'.
  destruct (Nat.leb_spec (length t') (length t)) as [|Hl]; [assumption|].
  assert (exists x, t' = t ++ x) as [x ->].
  { exists (skipn (length t) t'). assert (firstn (length t) t' = t) as Ef.
    { transitivity (firstn (length t) (t' ++ r')).
      - rewrite firstn_app. replace (length t - length t')%nat with 0%nat by lia. cbn. rewrite app_nil_r. reflexivity.
      - rewrite <- E, firstn_app, Nat.sub_diag, firstn_all. cbn. apply app_nil_r. }
    rewrite <- Ef at 1. symmetry. apply firstn_skipn. }
  rewrite <- app_assoc in E. apply app_inv_head in E. symmetry in E. apply crlf_prefix in E as (r0 & -> & _).
  - apply (HL _ r0); [apply app_assoc|exact Ht'].
  - intros c Hc. apply (HT _ Ht'). apply in_app_iff. auto.
Qed.

Lemma Longest_crlf_inv (T : str -> Prop) t r : (forall t', T t' -> NoBreak t') -> Longest T t (crlf r) -> Longest T t r.
Proof.
  intros HT [Ht HL]. split; [exact Ht|]. intros t' r' E Ht'. apply (HL t' (crlf r')); [|exact Ht'].
  rewrite <- (crlf_plain t), <- (crlf_plain t'), <- !crlf_app, E; [reflexivity| |]; intros Hi.
  - apply (HT t' Ht') in Hi. lia.
  - apply (HT t Ht) in Hi. lia.
Qed.

(** ** White space *)
Lemma Eol_nocr e : Eol e -> NoCr e -> e = [10].
Proof. intros [|] H; [reflexivity|]. destruct H; left; reflexivity. Qed.
Lemma NoEol_plain t : NoEol t -> crlf t = t.
Proof. intros H. apply crlf_plain. intros Hi. apply H in Hi as [? _]. congruence. Qed.
Lemma Eol_crlf' e : Eol e -> NoCr e -> Eol (crlf e).
Proof. intros He H. rewrite (Eol_nocr e He H). constructor. Qed.
Lemma LineComment_crlf c : LineComment c -> NoCr c -> LineComment (crlf c).
Proof.
  intros [t e Ht He|t e Ht He] H; rewrite !crlf_app, (NoEol_plain t Ht); apply NoCr_app in H as [_ H]; apply NoCr_app in H as [_ H].
  - change (crlf [35]) with [35]. apply LC_hash; [exact Ht|apply Eol_crlf'; assumption].
  - change (crlf [47; 47]) with [47; 47]. apply LC_slash; [exact Ht|apply Eol_crlf'; assumption].
Qed.
Lemma InlineComment_crlf c : InlineComment c -> InlineComment (crlf c).
Proof.
  intros [t Ht]. rewrite !crlf_app. change (crlf [47; 42]) with [47; 42]. change (crlf [42; 47]) with [42; 47]. apply IC.
  intros x y E. apply crlf_suffix in E as (x0 & y0 & -> & [E|(z & -> & E)]); [|discriminate].
  apply crlf_prefix in E as (r0 & -> & _); [|intros c0 [<-|[<-|[]]]; lia]. exact (Ht _ _ eq_refl).
Qed.
Lemma LineEnd_crlf n : LineEnd n -> NoCr n -> LineEnd (crlf n).
Proof. intros [e He|c Hc] H; [apply LE_eol, Eol_crlf'; assumption|apply LE_comment, LineComment_crlf; assumption]. Qed.
Lemma Iws_crlf w : Iws w -> Iws (crlf w).
Proof.
  induction 1 as [|c w Hc _ IH|c w Hc _ IH]; [constructor| |].
  - rewrite crlf_cons by lia. apply Iws_blank; assumption.
  - rewrite crlf_app. apply Iws_comment; [apply InlineComment_crlf, Hc|exact IH].
Qed.
Lemma Ws_crlf w : Ws w -> NoCr w -> Ws (crlf w).
Proof.
  induction 1 as [|c w Hc _ IH|c w Hc _ IH|c w Hc _ IH]; intros Hn.
  - constructor.
  - apply NoCr_cons in Hn as [_ Hn]. cbn. destruct (N.eqb_spec c 10) as [->|]; [|apply Ws_blank; auto].
    apply Ws_blank; [lia|]. apply Ws_blank; [lia|auto].
  - apply NoCr_app in Hn as [_ Hn]. rewrite crlf_app. apply Ws_inline; [apply InlineComment_crlf, Hc|auto].
  - apply NoCr_app in Hn as [H1 Hn]. rewrite crlf_app. apply Ws_line; [apply LineComment_crlf; assumption|auto].
Qed.

(** ** Tokens *)
Section T.
Context (U : ucd).
Lemma IdStart_nb c : IdStart U c -> c <> 10 /\ c <> 13.
Proof. unfold IdStart, Letter. lia. Qed.
Lemma IdContinue_nb c : IdContinue U c -> c <> 10 /\ c <> 13.
Proof. unfold IdContinue, IdStart, Letter, DecDigit. lia. Qed.
Lemma IdentText_nb t : IdentText U t -> NoBreak t.
Proof.
  intros (c & cs & -> & Hc & Hcs) d [<-|Hd].
  - destruct Hc as [Hc| ->]; [apply IdStart_nb, Hc|lia].
  - apply Hcs in Hd as [Hd| ->]; [apply IdContinue_nb, Hd|lia].
Qed.
Lemma NoBreak_plain t : NoBreak t -> crlf t = t.
Proof. apply NoEol_plain. Qed.
Lemma GIdent_crlf i s r : GIdent U i s r -> GIdent U i (crlf s) (crlf r).
Proof.
  intros (t & -> & -> & HL). exists t. split; [reflexivity|]. rewrite crlf_app, (NoBreak_plain t) by apply IdentText_nb, HL.
  split; [reflexivity|]. apply Longest_crlf; [apply IdentText_nb|exact HL].
Qed.
Lemma GIdent_crlf_inv i s r : GIdent U i (crlf s) r -> exists r0, GIdent U i s r0.
Proof.
  intros (t & -> & E & HL). symmetry in E. apply crlf_prefix in E as (r0 & -> & ->); [|apply IdentText_nb, HL].
  exists r0, t. split; [reflexivity|]. split; [reflexivity|]. apply Longest_crlf_inv; [apply IdentText_nb|exact HL].
Qed.
Lemma GIdent_suffix i s r : GIdent U i s r -> NoCr s -> NoCr r.
Proof. intros (t & -> & -> & _) H. apply NoCr_app in H as [_ H]. exact H. Qed.
Lemma Digits_nb d : Digits d -> NoBreak d.
Proof. intros H c Hc. apply H in Hc. lia. Qed.
Lemma NoBreak_app a b : NoBreak a -> NoBreak b -> NoBreak (a ++ b).
Proof. intros Ha Hb c Hc. apply in_app_iff in Hc as [|]; auto. Qed.
Lemma NumLit_nb n t : NumLit n t -> NoBreak t.
Proof.
  intros [b sg w f m x xt Hs Hm Hx]. apply NoBreak_app; [|apply NoBreak_app].
  - destruct Hs; intros c Hc; cbn in Hc; lia.
  - destruct Hm as [d _ Hd|d f _ Hd Hf|f _ Hf]; [apply Digits_nb, Hd| |].
    + apply NoBreak_app; [apply Digits_nb, Hd|]. apply NoBreak_app; [intros c [<-|[]]; lia|apply Digits_nb, Hf].
    + apply NoBreak_app; [intros c [<-|[]]; lia|apply Digits_nb, Hf].
  - destruct Hx as [|e b' sg' d He Hs' _ Hd]; [intros c []|].
    apply NoBreak_app; [intros c [<-|[]]; lia|]. apply NoBreak_app; [destruct Hs'; intros c Hc; cbn in Hc; lia|apply Digits_nb, Hd].
Qed.
Lemma EscShape_nb n t : EscShape n t -> NoBreak t.
Proof.
  intros H c Hc. destruct H as [ | | | | | | | | | |d _ Hd|d _ Hd|d _ Hd|d _ Hd]; cbn in Hc;
    try (destruct Hc as [<-|[]]; lia); [apply Hd in Hc; lia| | |];
    (destruct Hc as [<-|Hc]; [lia|apply Hd in Hc; lia]).
Qed.
Lemma GChars_crlf (P : char -> Prop) v s r : (forall c, c = 10 -> P c -> P 13) -> GChars P v s r -> NoCr s ->
  NoCr r /\ exists v', AddCr v v' /\ GChars P v' (crlf s) (crlf r) /\ ((forall c, P c -> c <> 10) -> v' = v).
Proof.
  intros HP H. induction H as [r|c v s r Hc _ IH|n t v s r He HL Hs _ IH]; intros Hn.
  - split; [exact Hn|]. exists []. split; [constructor|]. split; [constructor|reflexivity].
  - apply NoCr_cons in Hn as [Hc' Hn]. destruct (IH Hn) as (Hr & v' & Hv & HG & Hsame). split; [exact Hr|]. cbn. destruct (N.eqb_spec c 10) as [->|].
    + exists (13 :: 10 :: v'). split; [apply AC_cr, Hv|]. split; [apply GC_char; [eapply HP; [reflexivity|exact Hc]|apply GC_char; assumption]|].
      intros Hp. apply Hp in Hc. congruence.
    + exists (c :: v'). split; [apply AC_same, Hv|]. split; [apply GC_char; assumption|]. intros Hp. rewrite Hsame; auto.
  - cbn [app] in Hn. apply NoCr_cons in Hn as [_ Hn]. apply NoCr_app in Hn as [_ Hn]. destruct (IH Hn) as (Hr & v' & Hv & HG & Hsame). split; [exact Hr|].
    exists (n :: v'). split; [apply AC_same, Hv|]. rewrite !crlf_app, (NoBreak_plain t) by apply (EscShape_nb n), He. split; [|intros Hp; rewrite Hsame; auto].
    change (crlf [92]) with [92]. apply GC_esc; try assumption. apply Longest_crlf; [|exact HL]. intros t' (n' & Hn'). eapply EscShape_nb, Hn'.
Qed.

(** ** Heredocs *)
Lemma Marker_nb m : MarkerText U m -> NoBreak m.
Proof. intros [_ H] c Hc. apply H in Hc. unfold AlphaNumeric, Letter, DecDigit in Hc. lia. Qed.
Lemma Blanks_nb b : Blanks b -> NoBreak b.
Proof. intros H c Hc. apply H in Hc. lia. Qed.
Lemma Closing_crlf m b t r : MarkerText U m -> Closing m b t r -> NoCr t -> Closing m b (crlf t) (crlf r).
Proof.
  intros Hm (e & e' & r' & He & Hb & He' & -> & ->) Hn.
  apply NoCr_app in Hn as [He0 Hn]. apply NoCr_app in Hn as [_ Hn]. apply NoCr_app in Hn as [_ Hn]. apply NoCr_app in Hn as [He1 _].
  exists (crlf e), (crlf e'), (crlf r'). split; [apply Eol_crlf'; assumption|]. split; [exact Hb|]. split; [apply Eol_crlf'; assumption|].
  rewrite !crlf_app, (NoBreak_plain b) by apply Blanks_nb, Hb. rewrite (NoBreak_plain m) by apply Marker_nb, Hm. auto.
Qed.
Lemma Closing_crlf_inv m b y0 r' : MarkerText U m -> Closing m b (10 :: crlf y0) r' ->
  exists r0, Closing m b (10 :: y0) r0.
Proof.
  intros Hm (e & e' & r1 & He & Hb & He' & -> & E). destruct He; [|discriminate]. cbn [app] in E. injection E as E.
  symmetry in E. rewrite app_assoc in E. apply crlf_prefix in E as (r0 & -> & E2); [|apply NoBreak_app; [apply Blanks_nb, Hb|apply Marker_nb, Hm]].
  assert (exists z, r0 = 10 :: z) as (z & ->).
  { destruct r0 as [|c r0]; [destruct He'; discriminate|]. cbn in E2. destruct (N.eqb_spec c 10) as [->|]; [eauto|].
    destruct He'; [injection E2 as <- _; congruence|]. cbn in E2. injection E2 as <- E2. destruct r0 as [|d r0]; [discriminate|]. cbn in E2.
    destruct (N.eqb_spec d 10); [discriminate|]. injection E2 as <- _. congruence. }
  exists (10 :: z). exists [10], [10], z. split; [constructor|]. split; [exact Hb|]. split; [constructor|]. split; [reflexivity|]. rewrite <- app_assoc. reflexivity.
Qed.

Lemma unlines_cons l l' ls : unlines (l :: l' :: ls) = l ++ [10] ++ unlines (l' :: ls).
Proof. reflexivity. Qed.
Lemma UnindentLine_cr n l o : UnindentLine n l o -> UnindentLine n (l ++ [13]) (o ++ [13]).
Proof.
  intros [o'|k c c' o' Hk Hc Hc']; rewrite <- ?app_assoc; cbn [app]; [apply UL_full|apply UL_less; assumption].
Qed.
Lemma Unindent_crlf n content out : Unindent n content out -> NoCr content -> exists out', Unindent n (crlf content) out' /\ AddCr out out'.
Proof.
  intros (ls & os & Hne & Hl & -> & -> & HF) _.
  assert (exists ls' os', ls' <> [] /\ os' <> [] /\ (forall l, In l ls' -> ~ In 10 l) /\ crlf (unlines ls) = unlines ls' /\ AddCr (unlines os) (unlines os') /\
    Forall2 (UnindentLine n) ls' os') as (ls' & os' & H1 & H2 & H3 & H4 & H5 & H6).
  { revert Hne Hl. induction HF as [|l o ls os Hlo HF IH]; intros Hne Hl; [congruence|].
    destruct HF as [|l2 o2 ls os Hlo2 HF].
    - exists [l], [o]. split; [discriminate|]. split; [discriminate|]. split; [exact Hl|]. split; [apply crlf_plain, Hl; left; reflexivity|].
      split; [apply AddCr_refl|]. repeat constructor. exact Hlo.
    - destruct IH as (ls' & os' & H1 & H2 & H3 & H4 & H5 & H6); [discriminate|intros x Hx; apply Hl; right; exact Hx|].
      exists ((l ++ [13]) :: ls'), ((o ++ [13]) :: os'). split; [discriminate|]. split; [discriminate|]. split.
      { intros x [<-|Hx]; [|apply H3, Hx]. rewrite in_app_iff. intros [Hi|[Hi|[]]]; [|discriminate]. eapply Hl; [left; reflexivity|exact Hi]. }
      destruct ls' as [|l3 ls']; [congruence|]. destruct os' as [|o3 os']; [congruence|].
      rewrite !unlines_cons, crlf_app, (crlf_plain l) by (apply Hl; left; reflexivity). split.
      { rewrite crlf_app, H4. rewrite <- !app_assoc. reflexivity. }
      split; [|constructor; [apply UnindentLine_cr, Hlo|exact H6]].
      rewrite <- !app_assoc. apply AddCr_app; [apply AddCr_refl|]. cbn [app]. apply AC_cr, H5. }
  exists (unlines os'). split; [|exact H5]. exists ls', os'. auto.
Qed.

Lemma GHeredoc_crlf v s r : GHeredoc U v s r -> NoCr s -> NoCr r /\ exists v', CrCow v v' /\ GHeredoc U v' (crlf s) (crlf r).
Proof.
  intros [d m p b t r' v' Hm Hd Hc Hfirst Hv] Hn.
  apply NoCr_app in Hn as [_ Hn]. apply NoCr_app in Hn as [_ Hn]. apply NoCr_app in Hn as [_ Hn]. apply NoCr_app in Hn as [Hp Ht].
  assert (NoCr r') as Hr.
  { destruct Hc as (e & e' & r1 & _ & _ & _ & -> & ->). do 3 apply NoCr_app in Ht as [_ Ht]. exact Ht. }
  split; [exact Hr|].
  assert (exists v2, CrCow v' v2 /\ match crlf p with
    | [] => v2 = Borrowed []
    | _ => exists e content, Eol e /\ crlf p = e ++ content /\
          if match d, b with [45], _ :: _ => true | _, _ => false end
          then exists out, Unindent (length b) content out /\ v2 = Owned out
          else v2 = Borrowed content
    end) as (v2 & HC & Hv2).
  { destruct p as [|c p].
    - subst. exists (Borrowed []). split; [constructor; constructor|reflexivity].
    - destruct Hv as (e & content & He & E & Hif). rewrite E in Hp |- *. apply NoCr_app in Hp as [He0 Hcn].
      rewrite (Eol_nocr e He He0) in *. cbn [app crlf N.eqb Pos.eqb].
      destruct (match d, b with [45], _ :: _ => true | _, _ => false end).
      + destruct Hif as (out & Hu & ->). apply Unindent_crlf in Hu as (out' & Hu & Ha); [|exact Hcn].
        exists (Owned out'). split; [constructor; exact Ha|]. exists [13; 10], (crlf content). split; [constructor|]. split; [reflexivity|]. exists out'. auto.
      + subst. exists (Borrowed (crlf content)). split; [constructor; apply AddCr_crlf|]. exists [13; 10], (crlf content). split; [constructor|]. split; reflexivity. }
  exists v2. split; [exact HC|].
  rewrite !crlf_app, (NoBreak_plain m) by apply Marker_nb, Hm. change (crlf [60; 60]) with [60; 60].
  replace (crlf d) with d by (destruct Hd as [-> | ->]; reflexivity).
  apply (GH U d m (crlf p) b); [exact Hm|exact Hd|apply Closing_crlf; assumption| |exact Hv2].
  intros x y b' r1 E Hy HCl.
  assert (exists y1, y = 10 :: y1 \/ y = 13 :: y1) as (y1 & Hy1).
  { destruct y as [|c y]; [congruence|]. destruct HCl as (e & e' & r2 & He & _ & _ & _ & E2). destruct He; injection E2 as -> _; eauto. }
  apply crlf_suffix in E as (x0 & y0 & -> & [->|(z & -> & ->)]).
  - assert (exists z, y0 = 10 :: z) as (z & ->).
    { destruct y0 as [|c y0]; [destruct Hy; reflexivity|]. cbn in Hy1. destruct (N.eqb_spec c 10) as [->|]; [eauto|].
      destruct Hy1 as [[= -> _]|[= -> _]]; [congruence|]. exfalso. apply NoCr_app in Hp as [_ Hp]. apply NoCr_cons in Hp as [Hp _]. congruence. }
    cbn [crlf N.eqb Pos.eqb] in HCl. assert (Closing m b' (10 :: crlf (z ++ t)) r1) as HCl'.
    { destruct HCl as (e & e' & r2 & He & Hb & He' & -> & E2). destruct He; [discriminate|]. injection E2 as E2.
      exists [10], e', r2. split; [constructor|]. split; [exact Hb|]. split; [exact He'|]. split; [reflexivity|]. rewrite crlf_app, E2. reflexivity. }
    apply Closing_crlf_inv in HCl' as (r0 & HCl'); [|exact Hm]. eapply (Hfirst x0 (10 :: z)); [reflexivity|discriminate|exact HCl'].
  - cbn [app] in HCl. rewrite <- crlf_app in HCl. apply Closing_crlf_inv in HCl as (r0 & HCl); [|exact Hm].
    eapply (Hfirst x0 (10 :: z)); [reflexivity|discriminate|exact HCl].
Qed.
End T.
