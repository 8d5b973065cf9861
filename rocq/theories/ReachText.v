(** * ReachText: every value has a text *)
From Coq Require Import Permutation ZArith Reals SpecFloat Lia.
From Verif Require Import Base Ast NomFacts NumFacts StrFacts Blocks BlockSpec NumConv NumSpec NumProofs PropNum IoSpec
  Serde SerdeSpec Grammar Printer PrinterProofs FloatSpec PropFloatRead DenSpec ReachSpec ReachFloat ReachProofs.
Local Open Scope nat_scope.

Section WithTables.
Context (U : ucd).

(** [e] can be written, with a line end after it *)
Definition Writable (e : expr) : Prop := forall r, exists s, GExpr U e s (10%N :: r) /\ (IsStr r -> IsStr s).

Lemma write_null : Writable ENull.
Proof. intros r. eexists. split; [apply GE_term, GT_null|]. intros H. apply str_app. split; [repeat constructor|]. apply str_cons. split; [reflexivity|exact H]. Qed.
Lemma write_bool b : Writable (EBool b).
Proof.
  intros r. destruct b; eexists; (split; [apply GE_term; constructor|]); intros H; (apply str_app; split; [repeat constructor|apply str_cons; split; [reflexivity|exact H]]).
Qed.
Lemma write_number n t : NumLit n t -> IsStr t -> Writable (ENumber n).
Proof.
  intros Hn Ht r. exists (t ++ 10%N :: r). split.
  - apply GE_term, GT_number; [exact Hn|]. apply (Longest_number n t); [exact Hn|].
    unfold Follow, stops, exp_start, FirstIs. cbn.
    repeat split; intros; try reflexivity; try (intros (? & ?); discriminate);
      try (intros HX; repeat match goal with [ H : exists _, _ |- _ ] => destruct H | [ H : _ /\ _ |- _ ] => destruct H | [ H : _ \/ _ |- _ ] => destruct H end; congruence).
  - intros H. apply str_app. split; [exact Ht|]. apply str_cons. split; [reflexivity|exact H].
Qed.
Lemma escape_str v : IsStr v -> IsStr (escape v).
Proof.
  induction v as [|c v IH]; intros H; [constructor|]. apply str_cons in H as [Hc H]. unfold escape. cbn [flat_map]. apply str_app. split; [|apply IH, H].
  unfold escape_char. destruct (c =? 92)%N; [repeat constructor|]. destruct (c =? 34)%N; repeat constructor. exact Hc.
Qed.
Lemma write_string v : IsStr v -> Writable (EString (Owned v)).
Proof.
  intros Hv r. exists ([34%N] ++ escape v ++ [34%N] ++ 10%N :: r). split; [apply GE_term, GT_quoted, escape_ok|].
  intros H. rewrite !str_app. repeat split; [repeat constructor|apply escape_str, Hv|repeat constructor|apply str_cons; auto].
Qed.

(** ** Any text in a heredoc: with a marker longer than the text, and closed by CR LF *)
Definition marker (s : str) : str := repeat 65%N (S (length s)).
Lemma no_early_closing s b' r' r y x :
  10%N :: s = x ++ y -> y <> [] -> ~ Closing (marker s) b' (y ++ [13; 10]%N ++ marker s ++ 10%N :: r) r'.
Proof.
  intros Ep Hy (e & e' & r2 & He & Hb & He' & -> & E).
  assert (Hlen : length y <= S (length s)) by (apply (f_equal (@length N)) in Ep; rewrite app_length in Ep; cbn in Ep; lia).
  assert (Hml : length (marker s) = S (length s)) by (unfold marker; apply repeat_length).
  (* the text after the line end [e] *)
  assert (Hcase : exists y', y = e ++ y').
  { destruct He; destruct y as [|c y]; try congruence; cbn in E.
    - injection E as -> E. exists y. reflexivity.
    - injection E as -> E. destruct y as [|c' y]; cbn in E; [discriminate|]. injection E as -> E. exists y. reflexivity. }
  destruct Hcase as (y' & ->). rewrite <- app_assoc in E. apply app_inv_head in E. rewrite app_length in Hlen.
  assert (Hel : 1 <= length e) by (destruct He; cbn; lia).
  (* the marker does not fit into y', and CR is neither a blank nor in the marker *)
  assert (Hin : In 13%N (b' ++ marker s)).
  { assert (HL : length y' < length (b' ++ marker s)) by (rewrite app_length; lia). rewrite (app_assoc b') in E.
    destruct (app_prefix y' _ (b' ++ marker s) _ E HL) as (c & q & Eq & Er). cbn in Er. injection Er as <- _. rewrite Eq. apply in_or_app. right. left. reflexivity. }
  apply in_app_or in Hin as [Hin|Hin]; [destruct (Hb _ Hin); lia|]. unfold marker in Hin. apply repeat_spec in Hin. lia.
Qed.
Lemma write_heredoc s : IsStr s -> Writable (EString (Borrowed s)).
Proof.
  intros Hs r. exists ([60; 60]%N ++ [] ++ marker s ++ (10%N :: s) ++ ([13; 10]%N ++ [] ++ marker s ++ 10%N :: r)). split.
  - apply GE_term, GT_heredoc. apply GH with (b := []).
    + split; [discriminate|]. intros c Hc. unfold marker in Hc. apply repeat_spec in Hc. subst c. left. left. left. lia.
    + left. reflexivity.
    + exists [13; 10]%N, [10]%N, r. split; [constructor|]. split; [intros c []|]. split; [constructor|]. split; reflexivity.
    + intros x y b' r' Ep Hy. cbn [app]. apply (no_early_closing s b' r' r y x Ep Hy).
    + exists [10]%N, s. split; [constructor|]. split; reflexivity.
  - intros H. assert (Hm : IsStr (marker s)) by (apply str_repeat; reflexivity). rewrite !str_app.
    repeat split; try exact Hm; try (repeat constructor; fail); apply str_cons; (split; [reflexivity|assumption]).
Qed.

(** ** Tuples and objects *)
Lemma write_items l : Forall Writable l -> forall r, exists s, GItems U l s r /\ (IsStr r -> IsStr s).
Proof.
  induction l as [|e [|e' l] IH]; intros HF r; inversion HF as [|? ? He HF']; subst.
  - exists ([] ++ [93%N] ++ r). split; [apply GI_nil; constructor|]. intros H. apply str_app. split; [constructor|]. apply str_app. split; [repeat constructor|exact H].
  - destruct (He ([93%N] ++ r)) as (s & Hs & Hss). exists ([] ++ s). split.
    + apply (GI_last U e [] [10%N]); [constructor|apply Ws_blank; [auto|constructor]|exact Hs].
    + intros H. apply Hss. apply str_app. split; [repeat constructor|exact H].
  - destruct (IH HF' r) as (s' & Hs' & Hss'). destruct (He ([44%N] ++ s')) as (s & Hs & Hss). exists ([] ++ s). split.
    + apply (GI_cons U e e' l [] [10%N] s s'); [constructor|apply Ws_blank; [auto|constructor]|exact Hs|exact Hs'].
    + intros H. apply Hss. apply str_app. split; [repeat constructor|auto].
Qed.
Lemma write_tuple l : Forall Writable l -> Writable (ETuple l).
Proof.
  intros H r. destruct (write_items l H (10%N :: r)) as (s & Hs & Hss). exists ([91%N] ++ s). split; [apply GE_term, Grammar.GT_tuple, Hs|].
  intros HR. apply str_app. split; [repeat constructor|]. apply Hss. apply str_cons. auto.
Qed.
Lemma name_ident n r : Name U n -> GIdent U (Borrowed n) (n ++ [61%N] ++ r) ([61%N] ++ r).
Proof.
  intros [Hn _]. exists n. split; [reflexivity|]. split; [reflexivity|]. apply Longest_ident. split; [exact Hn|]. reflexivity.
Qed.
Lemma write_members l : Forall (fun m => Name U (fst m) /\ Writable (snd m)) l ->
  forall r, exists s, GMembers U (map (fun m => (KIdent (Borrowed (fst m)), snd m)) l) s r /\ (IsStr r -> IsStr s).
Proof.
  induction l as [|[n e] l IH]; intros HF r; cbn [map fst snd].
  - exists ([] ++ [125%N] ++ r). split; [apply GM_nil; constructor|]. intros H. apply str_app. split; [constructor|]. apply str_app. split; [repeat constructor|exact H].
  - inversion HF as [|? ? [Hn He] HF']; subst. cbn [fst snd] in *. destruct (IH HF' r) as (s4 & Hs4 & Hss4). destruct (He s4) as (s' & Hs' & Hss').
    exists ([] ++ (n ++ [61%N] ++ s')). split.
    + apply (GM_cons U (KIdent (Borrowed n)) e _ [] [] [] [] (n ++ [61%N] ++ s') s' (10%N :: s4) s4); [constructor|constructor|constructor|constructor| | | |].
      * apply GK_ident. apply (name_ident n s' Hn).
      * exact Hs'.
      * right. left. exists [10%N]. split; [repeat constructor|reflexivity].
      * exact Hs4.
    + intros H. cbn [app]. apply str_app. split; [apply Hn|]. apply str_cons. split; [reflexivity|]. apply Hss', Hss4, H.
Qed.
Lemma write_object l : Forall (fun m => Name U (fst m) /\ Writable (snd m)) l -> Writable (EObject (map (fun m => (KIdent (Borrowed (fst m)), snd m)) l)).
Proof.
  intros H r. destruct (write_members l H (10%N :: r)) as (s & Hs & Hss). exists ([123%N] ++ s). split; [apply GE_term, GT_object, Hs|].
  intros HR. apply str_app. split; [repeat constructor|]. apply Hss. apply str_cons. auto.
Qed.
Lemma write_body l : Forall (fun m => Name U (fst m) /\ Writable (snd m)) l ->
  exists s, GConfig U (map (fun m => Attr (Borrowed (fst m)) (snd m)) l) s /\ IsStr s.
Proof.
  induction l as [|[n e] l IH]; intros HF; cbn [map fst snd].
  - exists ([] ++ []). split; [apply GB_nil; constructor|constructor].
  - inversion HF as [|? ? [Hn He] HF']; subst. cbn [fst snd] in *. destruct (IH HF') as (s2 & Hs2 & Hss2). destruct (He s2) as (s' & Hs' & Hss').
    exists ([] ++ (n ++ [61%N] ++ s')). split.
    + apply (GB_cons U (Attr (Borrowed n) e) _ [] [] (n ++ [61%N] ++ s') (10%N :: s2) s2); [constructor|constructor| | |exact Hs2].
      * apply GE_attr. apply (GA U (Borrowed n) e [] [] _ s'); [constructor|constructor|apply (name_ident n s' Hn)|exact Hs'].
      * left. exists [10%N]. split; [repeat constructor|reflexivity].
    + cbn [app]. apply str_app. split; [apply Hn|]. apply str_cons. split; [reflexivity|]. apply Hss', Hss2.
Qed.

(** ** Values *)
Lemma write_int z : InRange I64 z -> exists n, Writable (ENumber n) /\ IntLit n z.
Proof.
  intros HR. pose proof (int_to_string_text z) as HT. destruct (integer_decimal _ _ HT) as (neg & HD). destruct (text_literal _ _ _ HD) as (n & Hn). exists n. split.
  - apply (write_number n _ Hn). inversion HT as [b sg d Hsg _ Hd E1 E2]. apply str_app. split; [eapply sign_str; exact Hsg|apply digits_str; exact Hd].
  - exists (int_to_string z). auto.
Qed.

Definition Wr (t : ty) (d : data) : Prop := exists e, Writable e /\ Den t (Expr e) d /\ (~ OnlyNull t d -> e <> ENull).
Lemma Wr_list t ds : Forall (fun d => Wr t d) ds -> exists l, Forall Writable l /\ Forall2 (fun y d => Den t y d) (map Expr l) ds.
Proof.
  induction 1 as [|d ds (e & He & Hd & _) _ (l & IH1 & IH2)]; [exists []; split; constructor|]. exists (e :: l). split; [constructor; assumption|]. cbn. constructor; assumption.
Qed.
Lemma Wr_entries t es : Names U (map fst es) -> Forall (fun e => Wr t (snd e)) es ->
  exists l, Forall (fun m => Name U (fst m) /\ Writable (snd m)) l /\ map fst l = map fst es /\
    Forall2 (fun m e => fst e = fst m /\ Den t (snd m) (snd e)) (map (fun m => (fst m, Expr (snd m))) l) es.
Proof.
  intros [_ HN] H. induction H as [|[n d] es (e & He & Hd & _) _ IH]; [exists []; repeat split; constructor|]. cbn [map fst snd] in *.
  inversion HN as [|? ? Hn HN']; subst. destruct (IH HN') as (l & H1 & H2 & H3). exists ((n, e) :: l). cbn [map fst snd]. repeat split.
  - constructor; [split; assumption|exact H1].
  - congruence.
  - constructor; [split; [reflexivity|exact Hd]|exact H3].
Qed.
Lemma members_object (l : list (str * expr)) : NoDup (map fst l) ->
  Members (Expr (EObject (map (fun m => (KIdent (Borrowed (fst m)), snd m)) l))) (map (fun m => (fst m, Expr (snd m))) l).
Proof.
  intros HN. apply Mem_object; [|rewrite map_map; exact HN]. clear HN. induction l as [|[n e] l IH]; constructor; [|exact IH]. exists (Borrowed n). split; reflexivity.
Qed.
Lemma keys_same (l : list (str * expr)) : map fst (map (fun m => (fst m, Expr (snd m))) l) = map fst l.
Proof. rewrite map_map. reflexivity. Qed.

Theorem val_written : forall t d, Val U t d -> Wr t d.
Proof.
  fix IH 3. intros t d H. destruct H.
  - exists ENull. split; [apply write_null|]. split; [constructor|]. cbn. tauto.
  - exists (EBool b). split; [apply write_bool|]. split; [constructor|discriminate].
  - destruct (write_int z H0) as (n & Hn & HL). exists (ENumber n). split; [exact Hn|]. split; [apply D_int; assumption|discriminate].
  - destruct (f64_literal f H) as (n & t & Hn & Ht & HL). exists (ENumber n). split; [eapply write_number; eassumption|]. split; [apply D_f64; assumption|discriminate].
  - destruct (f32_literal f H) as (n & t & g & Hn & Ht & HL & HW). exists (ENumber n). split; [eapply write_number; eassumption|]. split; [eapply D_f32; eassumption|discriminate].
  - exists (EString (Owned [c])). split; [apply write_string, H|]. split; [constructor; reflexivity|discriminate].
  - exists (EString (Owned s)). split; [apply write_string, H|]. split; [apply (D_string (Owned s))|discriminate].
  - exists (EString (Borrowed s)). split; [apply write_heredoc, H|]. split; [constructor|discriminate].
  - assert (HL : exists es, Forall Writable es /\ Forall2 (fun y b => Den (TInt U8) y (DInt (Z.of_N b))) (map Expr es) l).
    { clear IH. induction H as [|b l Hb _ (es & H1 & H2)]; [exists []; split; constructor|].
      destruct (write_int (Z.of_N b)) as (n & Hn & HI); [cbn; lia|]. exists (ENumber n :: es). split; [constructor; assumption|]. cbn [map]. constructor; [|exact H2].
      apply D_int; [exact HI|]. cbn. lia. }
    destruct HL as (es & H1 & H2). exists (ETuple es). split; [apply write_tuple, H1|]. split; [eapply D_bytes_items; [constructor|exact H2]|discriminate].
  - exists ENull. split; [apply write_null|]. split; [constructor|]. cbn. tauto.
  - destruct (IH _ _ H) as (e & He & Hd & Hn). exists e. split; [exact He|]. split; [apply D_some; [apply Hn; assumption|exact Hd]|]. intros _. apply Hn. assumption.
  - destruct (IH _ _ H) as (e & He & Hd & Hn). exists e. split; [exact He|]. split; [apply D_newtype, Hd|exact Hn].
  - assert (HW : Forall (fun d => Wr t d) ds) by (clear - IH H; induction H; constructor; [apply IH; assumption|assumption]).
    destruct (Wr_list t ds HW) as (l & H1 & H2). exists (ETuple l). split; [apply write_tuple, H1|]. split; [eapply D_seq; [constructor|exact H2]|discriminate].
  - assert (HL : exists l, Forall Writable l /\ Forall3 (fun t y d => Den t y d) ts (map Expr l) ds).
    { clear - IH H. induction H as [|t d ts ds Hv _ (l & H1 & H2)]; [exists []; split; constructor|]. destruct (IH _ _ Hv) as (e & He & Hd & _).
      exists (e :: l). split; [constructor; assumption|]. cbn [map]. constructor; assumption. }
    destruct HL as (l & H1 & H2). exists (ETuple l). split; [apply write_tuple, H1|]. split; [apply D_tuple, H2|discriminate].
  - assert (HW : Forall (fun e => Wr t (snd e)) es) by (clear - IH H1; induction H1; constructor; [apply IH; assumption|assumption]).
    destruct (Wr_entries t es H HW) as (l & L1 & L2 & L3). exists (EObject (map (fun m => (KIdent (Borrowed (fst m)), snd m)) l)).
    split; [apply write_object, L1|]. split; [|discriminate]. eapply D_map; [apply members_object; rewrite L2; apply H|rewrite keys_same, L2; assumption|exact L3].
  - assert (HL : exists l, Forall Writable l /\ Forall3 (fun ft y v => fst v = fst ft /\ Den (snd ft) y (snd v)) fs (map Expr l) vs).
    { clear - IH H. induction H as [|ft v fs vs [E Hv] _ (l & H1 & H2)]; [exists []; split; constructor|]. destruct (IH _ _ Hv) as (e & He & Hd & _).
      exists (e :: l). split; [constructor; assumption|]. cbn [map]. constructor; [split; assumption|assumption]. }
    destruct HL as (l & H1 & H2). exists (ETuple l). split; [apply write_tuple, H1|]. split; [|discriminate].
    eapply (D_struct_items fs _ (map Expr l) []); [rewrite app_nil_r; constructor|exact H2].
  - exists (EBool true). split; [apply write_bool|]. split; [constructor|discriminate].
  - exists ENull. split; [apply write_null|]. split; [constructor|]. cbn. tauto.
  - exists (EBool b). split; [apply write_bool|]. split; [constructor|discriminate].
  - destruct (write_int z H) as (n & Hn & HL). exists (ENumber n). split; [exact Hn|]. split; [apply D_any_int; assumption|discriminate].
  - destruct (f64_literal f H) as (n & t & Hn & Ht & HL). exists (ENumber n). split; [eapply write_number; eassumption|]. split; [apply D_any_float; assumption|discriminate].
  - exists (EString (Owned s)). split; [apply write_string, H|]. split; [apply (D_any_string (Owned s))|discriminate].
  - assert (HW : Forall (fun d => Wr TAny d) ds) by (clear - IH H; induction H; constructor; [apply IH; assumption|assumption]).
    destruct (Wr_list TAny ds HW) as (l & H1 & H2). exists (ETuple l). split; [apply write_tuple, H1|]. split; [eapply D_any_items; [constructor|exact H2]|discriminate].
  - assert (HW : Forall (fun e => Wr TAny (snd e)) es) by (clear - IH H0; induction H0; constructor; [apply IH; assumption|assumption]).
    destruct (Wr_entries TAny es H HW) as (l & L1 & L2 & L3). exists (EObject (map (fun m => (KIdent (Borrowed (fst m)), snd m)) l)).
    split; [apply write_object, L1|]. split; [|discriminate]. eapply D_any_members; [apply members_object; rewrite L2; apply H|exact L3].
Qed.

(** ** Documents *)
Lemma members_attrs (l : list (str * expr)) : NoDup (map fst l) ->
  Members (Body (map (fun m => Attr (Borrowed (fst m)) (snd m)) l)) (map (fun m => (fst m, Expr (snd m))) l).
Proof.
  intros HN. eapply Mem_body with (groups := []).
  - intros x. split; [intros []|]. intros (c & Hc & _). exfalso. revert Hc. clear. induction l as [|m l IH]; cbn; auto.
  - constructor.
  - rewrite app_nil_r. f_equal. clear. induction l as [|[n e] l IH]; [reflexivity|]. cbn. f_equal. exact IH.
  - rewrite keys_same. exact HN.
Qed.
Lemma struct_attrs fs vs : NoDup (map fst fs) ->
  Forall2 (fun ft v => fst v = fst ft /\ Val U (snd ft) (snd v) /\ (Name U (fst ft) \/ (exists t, snd ft = TOption t) /\ snd v = DNone)) fs vs ->
  exists l, Forall (fun m => Name U (fst m) /\ Writable (snd m)) l /\ NoDup (map fst l) /\ (forall n, In n (map fst l) -> In n (map fst fs)) /\
    Forall2 (fun (ft : str * ty) (v : str * data) => fst v = fst ft /\
      ((exists e, In (fst ft, e) l /\ Den (snd ft) (Expr e) (snd v)) \/
       (~ In (fst ft) (map fst l) /\ (exists t, snd ft = TOption t) /\ snd v = DNone))) fs vs.
Proof.
  intros HN H. induction H as [|[n t] [n' d] fs vs (E & HV & Hc) _ IH]; [exists []; repeat split; try constructor; auto|].
  cbn [map fst snd] in *. subst n'. inversion HN as [|? ? Hn HN']; subst. destruct (IH HN') as (l & L1 & L2 & L3 & L4).
  assert (Hnl : ~ In n (map fst l)) by (intros Hin; apply Hn, L3, Hin).
  destruct Hc as [Hname|Hnone].
  - destruct (val_written _ _ HV) as (e & He & Hd & _). exists ((n, e) :: l). cbn [map fst snd].
    split; [constructor; [split; assumption|exact L1]|]. split; [constructor; assumption|]. split; [intros m [<-|Hm]; [left; reflexivity|right; auto]|].
    constructor; [split; [reflexivity|]; left; exists e; split; [left; reflexivity|exact Hd]|].
    assert (HF : Forall (fun ft => fst ft <> n) fs) by (apply Forall_forall; intros ft Hft Eft; apply Hn; rewrite <- Eft; apply in_map; exact Hft).
    clear - L4 HF. induction L4 as [|ft v fs vs [E Hv] _ IHl]; [constructor|]. inversion HF; subst. constructor; [|auto]. split; [exact E|].
    destruct Hv as [(e' & Hin & Hd)|(Hni & Ho)]; [left; exists e'; split; [right; exact Hin|exact Hd]|right; split; [|exact Ho]]. cbn. intros [?|?]; [congruence|contradiction].
  - exists l. split; [exact L1|]. split; [exact L2|]. split; [intros m Hm; right; auto|]. constructor; [|exact L4]. split; [reflexivity|]. right. cbn [fst snd]. auto.
Qed.
Theorem doc_written t d : GoodTy t -> Doc U t d -> exists b s, GConfig U b s /\ IsStr s /\ Den t (Body b) d.
Proof.
  intros HG H. destruct H as [k t es H|fs vs H| |es H].
  - inversion H as [| | | | | | | | | | | | | |? ? ? HN HK HV| | | | | | | | |]; subst.
    assert (HW : Forall (fun e => Wr t (snd e)) es) by (eapply Forall_impl; [|exact HV]; intros a; apply val_written).
    destruct (Wr_entries t es HN HW) as (l & L1 & L2 & L3). destruct (write_body l L1) as (s & Hs & Hss). exists (map (fun m => Attr (Borrowed (fst m)) (snd m)) l), s. split; [exact Hs|]. split; [exact Hss|].
    eapply D_map; [apply members_attrs; rewrite L2; apply HN|rewrite keys_same, L2; exact HK|exact L3].
  - inversion HG as [? Hf| | | | | |? HN _]; subst; [destruct Hf|]. destruct (struct_attrs fs vs HN H) as (l & L1 & L2 & L3 & L4).
    destruct (write_body l L1) as (s & Hs & Hss). exists (map (fun m => Attr (Borrowed (fst m)) (snd m)) l), s. split; [exact Hs|]. split; [exact Hss|].
    eapply D_struct; [apply members_attrs, L2| |].
    + intros n y Hin Hni. exfalso. apply Hni, L3. apply in_map_iff in Hin as ([n' e] & [= <- <-] & Hin). apply (in_map fst) in Hin. exact Hin.
    + clear - L4. induction L4 as [|ft v fs vs [E Hv] _ IHl]; [constructor|]. constructor; [|exact IHl]. split; [exact E|]. destruct Hv as [(e & Hin & Hd)|(Hni & Ho)].
      * left. exists (Expr e). split; [|exact Hd]. apply in_map_iff. exists (fst ft, e). split; [reflexivity|exact Hin].
      * right. split; [rewrite keys_same; exact Hni|exact Ho].
  - destruct (write_body [] (Forall_nil _)) as (s & Hs & Hss). exists [], s. split; [exact Hs|]. split; [exact Hss|].
    eapply D_ignored_members; [apply (members_attrs []); constructor|constructor].
  - inversion H as [| | | | | | | | | | | | | | | | | | | | | | |? HN HV]; subst.
    assert (HW : Forall (fun e => Wr TAny (snd e)) es) by (eapply Forall_impl; [|exact HV]; intros a; apply val_written).
    destruct (Wr_entries TAny es HN HW) as (l & L1 & L2 & L3). destruct (write_body l L1) as (s & Hs & Hss). exists (map (fun m => Attr (Borrowed (fst m)) (snd m)) l), s. split; [exact Hs|]. split; [exact Hss|].
    eapply D_any_members; [apply members_attrs; rewrite L2; apply HN|exact L3].
Qed.
End WithTables.
