(** * MoveProofs: what rearranged documents mean *)
From Coq Require Import Permutation ZArith.
From Verif Require Import Base Ast Blocks NumConv IoSpec Serde SerdeSpec DenSpec MoveSpec.
Close Scope Z_scope.
Open Scope list_scope.

Definition MBlock (c c' : block_t) : Prop := b_type c' = b_type c /\ b_labels c' = b_labels c /\ MBody (b_body c) (b_body c').
Inductive MNode : node -> node -> Prop :=
| MN_expr e e' : MExpr e e' -> MNode (Expr e) (Expr e')
| MN_body b b' : MBody b b' -> MNode (Body b) (Body b')
| MN_group l l' : Forall2 MBody l l' -> MNode (Group l) (Group l').

Lemma F2_refl {A} (R : A -> A -> Prop) l : (forall a, R a a) -> Forall2 R l l.
Proof. intros H; induction l; constructor; auto. Qed.
Lemma F2_in_r {A B} (R : A -> B -> Prop) l l' b : Forall2 R l l' -> In b l' -> exists a, In a l /\ R a b.
Proof. induction 1 as [|x y l l' Hxy _ IH]; intros []; [subst; exists x; split; [left; reflexivity|assumption]|]. destruct (IH H) as (a & Ha & HR). exists a. split; [right|]; assumption. Qed.
Lemma F2_in_l {A B} (R : A -> B -> Prop) l l' a : Forall2 R l l' -> In a l -> exists b, In b l' /\ R a b.
Proof. induction 1 as [|x y l l' Hxy _ IH]; intros []; [subst; exists y; split; [left; reflexivity|assumption]|]. destruct (IH H) as (b & Hb & HR). exists b. split; [right|]; assumption. Qed.
Lemma F2_mono {A B} (R S : A -> B -> Prop) l l' : (forall a b, R a b -> S a b) -> Forall2 R l l' -> Forall2 S l l'.
Proof. intros H. induction 1; constructor; auto. Qed.
Lemma F2_fst {A B C} (R : B -> C -> Prop) (l : list (A * B)) (l' : list (A * C)) :
  Forall2 (fun a a' => fst a' = fst a /\ R (snd a) (snd a')) l l' -> map fst l' = map fst l.
Proof. induction 1 as [|? ? ? ? [E _] _ IH]; cbn; [reflexivity|]. rewrite E, IH. reflexivity. Qed.
Lemma F2_app_split {A B} (R : A -> B -> Prop) l1 l2 l' : Forall2 R (l1 ++ l2) l' -> exists l1' l2', l' = l1' ++ l2' /\ Forall2 R l1 l1' /\ Forall2 R l2 l2'.
Proof.
  revert l'; induction l1 as [|a l1 IH]; intros l' H; [exists [], l'; auto using Forall2_nil|].
  inversion H as [|? b ? l'' Hb Hl]; subst. apply IH in Hl as (l1' & l2' & -> & H1 & H2). exists (b :: l1'), l2'. split; [reflexivity|]. split; [constructor; assumption|assumption].
Qed.

Lemma MBody_refl : forall b, MBody b b.
Proof.
  assert (HE : forall el, match el with Attr _ _ => True | Blk _ _ b => MBody b b end).
  { induction el as [n v|t ls b IH] using element_ind'; [exact I|]. apply MB with (attr_list b); [apply Permutation_refl| |].
    - apply F2_refl. intros a. split; [reflexivity|constructor].
    - induction IH as [|el b Hel _ IHb]; [constructor|]. destruct el as [n v|t' ls' b']; cbn; [exact IHb|]. constructor; [cbn; auto|exact IHb]. }
  intros b. specialize (HE (Blk (Borrowed []) [] b)). exact HE.
Qed.
Lemma MNode_refl x : MNode x x.
Proof. destruct x; constructor; [constructor|apply MBody_refl|apply F2_refl, MBody_refl]. Qed.

(** ** The parts of rearranged nodes *)
Lemma items_moved x x' items : MNode x x' -> Items x items -> exists items', Items x' items' /\ Forall2 MNode items items'.
Proof.
  intros HM HI. destruct HI as [l|b b' bs].
  - inversion HM as [e e' He| |]; subst. inversion He as [|? l' HF|]; subst.
    + exists (map Expr l). split; [constructor|]. apply F2_refl, MNode_refl.
    + exists (map Expr l'). split; [constructor|]. clear - HF. induction HF; cbn; constructor; [constructor|]; assumption.
  - inversion HM as [| |? l' HF]; subst. inversion HF as [|? c ? l1 Hc HF1]; subst. inversion HF1 as [|? c' ? l2 Hc' HF2]; subst.
    exists (map Body (c :: c' :: l2)). split; [constructor|]. clear - HF. induction HF; cbn; constructor; [constructor|]; assumption.
Qed.

Lemma LastRun_moved t l l' r : Forall2 MBlock l l' -> LastRun t l r -> exists r', LastRun t l' r' /\ Forall2 MBlock r r'.
Proof.
  intros HF [l1 l2 -> Hne Hr H2 H1]. apply F2_app_split in HF as (l1' & l2' & -> & HF1 & HF2). apply F2_app_split in HF2 as (r' & l3 & -> & HFr & HF3).
  exists r'. split; [|exact HFr]. apply (LR _ _ _ l1' l3); [reflexivity| | | |].
  - intros ->. inversion HFr; subst. congruence.
  - intros b Hb. destruct (F2_in_r _ _ _ _ HFr Hb) as (a & Ha & (E & _)). rewrite E. apply Hr, Ha.
  - intros b Hb. destruct (F2_in_r _ _ _ _ HF3 Hb) as (a & Ha & (E & _)). rewrite E. apply H2, Ha.
  - intros l0 b ->. assert (exists l00 a, l1 = l00 ++ [a] /\ MBlock a b) as (l00 & a & -> & (E & _)).
    { clear - HF1. assert (Forall2 (fun b a => MBlock a b) (l0 ++ [b]) l1) as H by (clear - HF1; induction HF1; constructor; assumption).
      apply F2_app_split in H as (x & y & -> & _ & Hy). inversion Hy as [|? a ? ? Ha Hn]; subst. inversion Hn; subst. eauto. }
    rewrite E. eapply H1. reflexivity.
Qed.

Definition MMem (a a' : str * node) : Prop := fst a' = fst a /\ MNode (snd a) (snd a').
Lemma members_moved x ms : Members x ms -> forall x', MNode x x' -> exists m ms', Members x' ms' /\ Permutation ms m /\ Forall2 MMem m ms'.
Proof.
  induction 1 as [l ms HF HN|b groups ms Hg HFg -> HN|b ms HM IH]; intros x' Hx.
  - inversion Hx as [e e' He| |]; subst. inversion He as [|? ?|? l2 l' HP HF2]; subst.
    + exists ms, ms. split; [apply (Mem_object l); assumption|]. split; [apply Permutation_refl|]. apply F2_refl. intros a. split; [reflexivity|apply MNode_refl].
    + destruct (Permutation_Forall2 HP HF) as (m & HPm & HFm).
      assert (exists ms', Forall2 (fun ke mm => exists i, fst ke = KIdent i /\ mm = (cow_str i, Expr (snd ke))) l' ms' /\ Forall2 MMem m ms') as (ms' & HF' & HMm).
      { clear - HF2 HFm. revert m HFm. induction HF2 as [|ke ke' l2 l' [Ek He] _ IH]; intros m HFm; inversion HFm as [|? y ? m0 Hy HF0]; subst.
        - exists []. split; constructor.
        - destruct Hy as (i & Ei & ->). destruct (IH _ HF0) as (ms' & H1 & H2). exists ((cow_str i, Expr (snd ke')) :: ms'). split.
          + constructor; [exists i; split; [congruence|reflexivity]|exact H1].
          + constructor; [split; [reflexivity|constructor; exact He]|exact H2]. }
      exists m, ms'. split; [apply (Mem_object l'); [exact HF'|]|auto]. rewrite (F2_fst MNode _ _ HMm). eapply Permutation_NoDup; [apply Permutation_map, HPm|exact HN].
  - inversion Hx as [|? b' Hb|]; subst. inversion Hb as [? m ? HP HFa HFb]; subst.
    assert (exists groups', Forall2 MMem groups groups' /\ Forall (fun g => exists r, LastRun (fst g) (block_list b') r /\ (forall c, In c r -> b_labels c = []) /\ snd g = Group (map b_body r)) groups') as (groups' & HMg & HFg').
    { clear - HFg HFb. induction HFg as [|[n y] gs (r & HL & Hl & E) _ IH]; [exists []; split; constructor|]. cbn [fst snd] in *. destruct IH as (gs' & H1 & H2).
      destruct (LastRun_moved _ _ _ _ HFb HL) as (r' & HL' & HFr). exists ((n, Group (map b_body r')) :: gs'). split.
      - constructor; [split; [reflexivity|]|exact H1]. cbn. subst y. constructor. clear - HFr. induction HFr as [|? ? ? ? (_ & _ & H) _ IH]; cbn; constructor; assumption.
      - constructor; [|exact H2]. exists r'. split; [exact HL'|]. split; [|reflexivity]. intros c Hc. destruct (F2_in_r _ _ _ _ HFr Hc) as (a & Ha & (_ & E2 & _)). rewrite E2. apply Hl, Ha. }
    set (f := fun a : str * expr => (fst a, Expr (snd a))).
    assert (HM : Forall2 MMem (map f m ++ groups) (map f (attr_list b') ++ groups')).
    { apply Forall2_app; [|exact HMg]. clear - HFa. induction HFa as [|? ? ? ? [E H] _ IH]; cbn; constructor; [split; [exact E|constructor; exact H]|exact IH]. }
    assert (HPm : Permutation (map f (attr_list b) ++ groups) (map f m ++ groups)) by (apply Permutation_app_tail, Permutation_map, HP).
    exists (map f m ++ groups), (map f (attr_list b') ++ groups'). split; [|auto].
    apply (Mem_body b' groups'); [|exact HFg'|reflexivity|].
    + intros y. rewrite (F2_fst MNode _ _ HMg), Hg. split; intros (c & Hc & E).
      * destruct (F2_in_l _ _ _ _ HFb Hc) as (c' & Hc' & (Et & _)). exists c'. rewrite Et. auto.
      * destruct (F2_in_r _ _ _ _ HFb Hc) as (c' & Hc' & (Et & _)). exists c'. rewrite <- Et. auto.
    + rewrite (F2_fst MNode _ _ HM). eapply Permutation_NoDup; [apply Permutation_map, HPm|exact HN].
  - inversion Hx as [| |? l' HF]; subst. inversion HF as [|? b' ? l'' Hb Hn]; subst. inversion Hn; subst.
    destruct (IH (Body b')) as (m & ms' & HM' & HP & HF'); [constructor; exact Hb|]. exists m, ms'. split; [apply Mem_block, HM'|auto].
Qed.

(** ** What they mean *)
Definition Stays (t : ty) (x : node) (d : data) : Prop :=
  forall x', MNode x x' -> exists d', Den t x' d' /\ Same d d' /\ (Ordered t -> d' = d).

Lemma stays_list t items items' ds : Forall2 MNode items items' -> Forall2 (Stays t) items ds ->
  exists ds', Forall2 (fun y d => Den t y d) items' ds' /\ Forall2 (fun d d' => Same d d') ds ds' /\ (Ordered t -> ds' = ds).
Proof.
  intros HM. revert ds. induction HM as [|y y' items items' Hy _ IH]; intros ds H; inversion H as [|? d ? ds0 Hd Hds]; subst.
  - exists []. split; [constructor|]. split; [constructor|reflexivity].
  - destruct (IH _ Hds) as (ds' & H1 & H2 & H3). destruct (Hd _ Hy) as (d' & E & HS & HO). exists (d' :: ds'). split; [constructor; assumption|]. split; [constructor; assumption|].
    intros O. rewrite HO, H3 by exact O. reflexivity.
Qed.
Lemma stays_three ts items items' ds : Forall2 MNode items items' -> Forall3 (fun t y d => Stays t y d) ts items ds ->
  exists ds', Forall3 (fun t y d => Den t y d) ts items' ds' /\ Forall2 (fun d d' => Same d d') ds ds' /\ (Forall Ordered ts -> ds' = ds).
Proof.
  intros HM H. revert items' HM. induction H as [|t y d ts items ds Hd _ IH]; intros items' HM; inversion HM as [|? y' ? items0 Hy HM0]; subst.
  - exists []. split; [constructor|]. split; [constructor|reflexivity].
  - destruct (IH _ HM0) as (ds' & H1 & H2 & H3). destruct (Hd _ Hy) as (d' & E & HS & HO). exists (d' :: ds'). split; [constructor; assumption|]. split; [constructor; assumption|].
    intros O. inversion O; subst. rewrite HO, H3 by assumption. reflexivity.
Qed.
Lemma stays_members t ms m ms' es : Permutation ms m -> Forall2 MMem m ms' ->
  Forall2 (fun (a : str * node) (e : str * data) => fst e = fst a /\ Stays t (snd a) (snd e)) ms es ->
  exists es' es'', Permutation es es' /\ Forall2 (fun (e e' : str * data) => fst e' = fst e /\ Same (snd e) (snd e')) es' es'' /\
    Forall2 (fun (a : str * node) (e : str * data) => fst e = fst a /\ Den t (snd a) (snd e)) ms' es''.
Proof.
  intros HP HM H. destruct (Permutation_Forall2 HP H) as (es' & HP' & H'). exists es'. clear HP H ms.
  assert (exists es'', Forall2 (fun (e e' : str * data) => fst e' = fst e /\ Same (snd e) (snd e')) es' es'' /\
    Forall2 (fun (a : str * node) (e : str * data) => fst e = fst a /\ Den t (snd a) (snd e)) ms' es'') as (es'' & H1 & H2); [|eauto].
  clear HP' es. revert es' H'. induction HM as [|a a' m ms' [Ea Ha] _ IH]; intros es' H'; inversion H' as [|? e ? es0 [Ee He] Hes]; subst.
  - exists []. split; constructor.
  - destruct (IH _ Hes) as (es'' & H1 & H2). destruct (He _ Ha) as (d' & E & HS & _). exists ((fst e, d') :: es''). split; constructor; cbn; auto. split; [congruence|exact E].
Qed.

Lemma MExpr_leaf e e' : MExpr e e' -> match e with ETuple _ | EObject _ => False | _ => True end -> e' = e.
Proof. intros Hm Hl. destruct Hm; cbn in Hl; tauto. Qed.
Ltac leaf Hx := inversion Hx as [? e' He| |]; subst; apply MExpr_leaf in He; [|exact I]; subst.

Lemma den_moved : forall t x d, Den t x d -> Stays t x d.
Proof.
  fix IH 4. intros t x d H x' Hx.
  destruct H as [ |b|n it z Hn Hr|n z f Hn Hc|n f Hn|n z f Hn Hc|n f g Hn Hc|s c Hs|s|s|s|x items bs HI HF|t|t e d He Hd|t bs d Hd|t e d Hd|t b b' bs d Hd
    |t x items ds HI HF|t b d Hd|ts l ds HF|ts b b' bs here rest ds E HF|k t x ms es HM Hk HF|fs x ms vs HM Hig HF|fs x here rest vs HI HF
    | |b|s|n z Hn|n f Hn|x items HI HF|x ms HM HF| |b|s|n z Hn|n f Hn|x items ds HI HF|x ms es HM HF].
  - leaf Hx. exists DUnit. split; [constructor|]. split; [constructor|reflexivity].
  - leaf Hx. exists (DBool b). split; [constructor|]. split; [constructor|reflexivity].
  - leaf Hx. exists (DInt z). split; [econstructor; eassumption|]. split; [constructor|reflexivity].
  - leaf Hx. exists (DFloat f). split; [eapply D_f64_int; eassumption|]. split; [constructor|reflexivity].
  - leaf Hx. exists (DFloat f). split; [apply D_f64; eassumption|]. split; [constructor|reflexivity].
  - leaf Hx. exists (DFloat f). split; [eapply D_f32_int; eassumption|]. split; [constructor|reflexivity].
  - leaf Hx. exists (DFloat g). split; [eapply D_f32; eassumption|]. split; [constructor|reflexivity].
  - leaf Hx. exists (DChar c). split; [constructor; assumption|]. split; [constructor|reflexivity].
  - leaf Hx. exists (DStr (cow_str s)). split; [constructor|]. split; [constructor|reflexivity].
  - leaf Hx. exists (DStr s). split; [constructor|]. split; [constructor|reflexivity].
  - leaf Hx. exists (DBytes (utf8 (cow_str s))). split; [constructor|]. split; [constructor|reflexivity].
  - destruct (items_moved _ _ _ Hx HI) as (items' & HI' & HM). exists (DBytes bs). split; [|split; [constructor|reflexivity]].
    eapply D_bytes_items; [exact HI'|].
    assert (HG : Forall2 (fun y b => Stays (TInt U8) y (DInt (Z.of_N b))) items bs).
    { clear HI Hx. clear HM. revert items bs HF. fix go 3. intros items bs [|y b l1 l2 Hy Hl]; constructor; [exact (IH _ _ _ Hy)|exact (go _ _ Hl)]. }
    clear - HG HM. revert bs HG. induction HM as [|y y' l l' Hy _ IHl]; intros bs HG; inversion HG as [|? b ? bs0 Hb Hbs]; subst; constructor; [|apply IHl, Hbs].
    destruct (Hb _ Hy) as (d' & E & _ & HO). rewrite HO in E by (constructor; exact I). exact E.
  - leaf Hx. exists DNone. split; [constructor|]. split; [constructor|reflexivity].
  - destruct (IH _ _ _ Hd _ Hx) as (d' & E & HS & HO). inversion Hx as [? e' Hee| |]; subst. exists (DSome d'). split.
    + apply D_some; [|exact E]. intros ->. inversion Hee; subst; congruence.
    + split; [constructor; exact HS|]. intros O. inversion O as [? HL| | | | |]; subst; [destruct HL|]. rewrite HO by assumption. reflexivity.
  - destruct (IH _ _ _ Hd _ Hx) as (d' & E & HS & HO). inversion Hx as [| |? l' Hee]; subst. exists (DSome d'). split; [apply D_some_group, E|].
    split; [constructor; exact HS|]. intros O. inversion O as [? HL| | | | |]; subst; [destruct HL|]. rewrite HO by assumption. reflexivity.
  - destruct (IH _ _ _ Hd _ Hx) as (d' & E & HS & HO). inversion Hx as [? e' Hee| |]; subst. exists d'. split; [apply D_newtype, E|].
    split; [exact HS|]. intros O. inversion O as [? HL| | | | |]; subst; [destruct HL|]. apply HO; assumption.
  - inversion Hx as [| |? l' HF]; subst. inversion HF as [|? c ? l1 Hc HF1]; subst. inversion HF1 as [|? c' ? l2 Hc' HF2]; subst.
    destruct (IH _ _ _ Hd (Body c)) as (d' & E & HS & HO); [constructor; exact Hc|]. exists d'. split; [apply D_newtype_group, E|].
    split; [exact HS|]. intros O. inversion O as [? HL| | | | |]; subst; [destruct HL|]. apply HO; assumption.
  - destruct (items_moved _ _ _ Hx HI) as (items' & HI' & HM).
    assert (HG : Forall2 (Stays t) items ds).
    { clear HI Hx HM. revert items ds HF. fix go 3. intros items ds [|y b l1 l2 Hy Hl]; constructor; [exact (IH _ _ _ Hy)|exact (go _ _ Hl)]. }
    destruct (stays_list _ _ _ _ HM HG) as (ds' & H1 & H2 & H3). exists (DSeq ds'). split; [eapply D_seq; eassumption|]. split; [constructor; exact H2|].
    intros O. inversion O as [? HL| | | | |]; subst; [destruct HL|]. rewrite H3 by assumption. reflexivity.
  - inversion Hx as [| |? l' HF]; subst. inversion HF as [|? c ? l1 Hc HF1]; subst. inversion HF1; subst.
    destruct (IH _ _ _ Hd (Body c)) as (d' & E & HS & HO); [constructor; exact Hc|]. exists (DSeq [d']). split; [apply D_seq_one, E|].
    split; [constructor; repeat constructor; exact HS|]. intros O. inversion O as [? HL| | | | |]; subst; [destruct HL|]. rewrite HO by assumption. reflexivity.
  - assert (HG : Forall3 Stays ts (map Expr l) ds).
    { clear Hx. revert HF. generalize (map Expr l) as ys. revert ts ds. fix go 4. intros ts ds ys [|t0 y d ts0 ys0 ds0 Hy Hl]; constructor; [exact (IH _ _ _ Hy)|exact (go _ _ _ Hl)]. }
    destruct (items_moved _ _ _ Hx (It_tuple l)) as (items' & HI' & HM). inversion HI' as [l'|]; subst; [|inversion Hx].
    destruct (stays_three _ _ _ _ HM HG) as (ds' & H1 & H2 & H3). exists (DSeq ds'). split; [apply D_tuple, H1|]. split; [constructor; exact H2|].
    intros O. inversion O as [? HL| | | | |]; subst; [destruct HL|]. rewrite H3 by assumption. reflexivity.
  - assert (HG : Forall3 Stays ts (map Body here) ds).
    { clear Hx E. revert HF. generalize (map Body here) as ys. revert ts ds. fix go 4. intros ts ds ys [|t0 y d ts0 ys0 ds0 Hy Hl]; constructor; [exact (IH _ _ _ Hy)|exact (go _ _ _ Hl)]. }
    inversion Hx as [| |? l' HFx]; subst. rewrite E in HFx. pose proof HFx as HFy. apply F2_app_split in HFx as (here' & rest' & -> & Hh & Hr).
    assert (HM : Forall2 MNode (map Body here) (map Body here')) by (clear - Hh; induction Hh; cbn; constructor; [constructor|]; assumption).
    destruct (stays_three _ _ _ _ HM HG) as (ds' & H1 & H2 & H3). exists (DSeq ds'). split.
    + destruct (here' ++ rest') as [|c [|c' cs]] eqn:E2.
      * rewrite <- E in HFy. inversion HFy.
      * rewrite <- E in HFy. inversion HFy as [|? ? ? ? _ Hn]; subst. inversion Hn.
      * eapply D_tuple_group; [symmetry; exact E2|exact H1].
    + split; [constructor; exact H2|]. intros O. inversion O as [? HL| | | | |]; subst; [destruct HL|]. rewrite H3 by assumption. reflexivity.
  - destruct (members_moved _ _ HM _ Hx) as (m & ms' & HM' & HP & HMm).
    assert (HG : Forall2 (fun (a : str * node) (e : str * data) => fst e = fst a /\ Stays t (snd a) (snd e)) ms es).
    { clear HM Hx Hk HP HMm HM'. revert ms es HF. fix go 3. intros ms es [|a e l1 l2 [Ea Ha] Hl]; constructor; [exact (conj Ea (IH _ _ _ Ha))|exact (go _ _ Hl)]. }
    destruct (stays_members _ _ _ _ _ HP HMm HG) as (es' & es'' & HPe & HSe & HDe). exists (DMap es''). split; [|split].
    + eapply D_map; [exact HM'| |exact HDe]. rewrite (F2_fst MNode _ _ HMm). pose proof (Permutation_map fst HP) as HPk. destruct k; cbn in *; [exact I| |].
      * rewrite Hk in HPk. apply Permutation_nil in HPk. exact HPk.
      * eapply Permutation_Forall; [exact HPk|exact Hk].
    + eapply Same_map; [exact HPe|exact HSe].
    + intros O. inversion O as [? HL| | | | |]; subst. destruct HL.
  - destruct (members_moved _ _ HM _ Hx) as (m & ms' & HM' & HP & HMm).
    assert (Hlook : forall n y, In (n, y) ms -> exists y', In (n, y') ms' /\ MNode y y').
    { intros n y Hi. apply (Permutation_in _ HP) in Hi. destruct (F2_in_l _ _ _ _ HMm Hi) as ([n' y'] & Hi' & (E & Hy)). cbn in *. subst. eauto. }
    assert (Hlook' : forall n y', In (n, y') ms' -> exists y, In (n, y) ms /\ MNode y y').
    { intros n y' Hi. destruct (F2_in_r _ _ _ _ HMm Hi) as ([n' y] & Hi' & (E & Hy)). cbn in *. subst. exists y. split; [|exact Hy]. eapply Permutation_in; [apply Permutation_sym, HP|exact Hi']. }
    assert (Hnames : forall n, In n (map fst ms') <-> In n (map fst ms)).
    { intros n. rewrite (F2_fst MNode _ _ HMm). split; intros Hi; eapply Permutation_in; try exact Hi; apply Permutation_map; [apply Permutation_sym|]; exact HP. }
    assert (HG : Forall2 (fun (ft : str * ty) (v : str * data) => fst v = fst ft /\
      ((exists y, In (fst ft, y) ms /\ Stays (snd ft) y (snd v)) \/ (~ In (fst ft) (map fst ms) /\ (exists t, snd ft = TOption t) /\ snd v = DNone))) fs vs).
    { clear - HF IH. revert fs vs HF. fix go 3. intros fs vs [|a e l1 l2 [Ea Ha] Hl]; constructor; [|exact (go _ _ Hl)]. split; [exact Ea|].
      destruct Ha as [(y & Hy & Hd)|Ha]; [left; exists y; split; [exact Hy|exact (IH _ _ _ Hd)]|right; exact Ha]. }
    assert (exists vs', Forall2 (fun (ft : str * ty) (v : str * data) => fst v = fst ft /\
      ((exists y, In (fst ft, y) ms' /\ Den (snd ft) y (snd v)) \/ (~ In (fst ft) (map fst ms') /\ (exists t, snd ft = TOption t) /\ snd v = DNone))) fs vs' /\
      Forall2 (fun (e e' : str * data) => fst e' = fst e /\ Same (snd e) (snd e')) vs vs' /\ (Forall (fun ft => Ordered (snd ft)) fs -> vs' = vs)) as (vs' & H1 & H2 & H3).
    { clear - HG Hlook Hnames. induction HG as [|ft v fs vs [Ev Hv] _ IHf]; [exists []; split; [constructor|split; [constructor|reflexivity]]|].
      destruct IHf as (vs' & H1 & H2 & H3). destruct Hv as [(y & Hy & Hd)|(Hn & Ho & E)].
      - destruct (Hlook _ _ Hy) as (y' & Hy' & HMy). destruct (Hd _ HMy) as (d' & E & HS & HO). exists ((fst v, d') :: vs'). split; [|split].
        + constructor; [|exact H1]. cbn. split; [exact Ev|]. left. eauto.
        + constructor; [cbn; auto|exact H2].
        + intros O. inversion O; subst. rewrite H3, HO by assumption. destruct v; reflexivity.
      - exists (v :: vs'). split; [|split].
        + constructor; [|exact H1]. split; [exact Ev|]. right. rewrite Hnames. auto.
        + constructor; [split; [reflexivity|constructor]|exact H2].
        + intros O. inversion O; subst. rewrite H3 by assumption. reflexivity. }
    exists (DStruct vs'). split; [|split].
    + eapply D_struct; [exact HM'| |exact H1]. intros n y' Hi Hn. destruct (Hlook' _ _ Hi) as (y & Hy & HMy).
      destruct (IH _ _ _ (Hig n y Hy Hn) _ HMy) as (d' & E & _ & HO). rewrite HO in E by (constructor; exact I). exact E.
    + constructor. exact H2.
    + intros O. inversion O as [? HL| | | | |]; subst; [destruct HL|]. rewrite H3 by assumption. reflexivity.
  - destruct (items_moved _ _ _ Hx HI) as (items' & HI' & HM). apply F2_app_split in HM as (here' & rest' & -> & Hh & _).
    assert (HG : Forall3 (fun (ft : str * ty) (y : node) (v : str * data) => fst v = fst ft /\ Stays (snd ft) y (snd v)) fs here vs).
    { clear - HF IH. revert fs here vs HF. fix go 4. intros fs here vs [|a y v l1 l2 l3 [Ea Ha] Hl]; constructor; [exact (conj Ea (IH _ _ _ Ha))|exact (go _ _ _ Hl)]. }
    assert (exists vs', Forall3 (fun (ft : str * ty) (y : node) (v : str * data) => fst v = fst ft /\ Den (snd ft) y (snd v)) fs here' vs' /\
      Forall2 (fun (e e' : str * data) => fst e' = fst e /\ Same (snd e) (snd e')) vs vs' /\ (Forall (fun ft => Ordered (snd ft)) fs -> vs' = vs)) as (vs' & H1 & H2 & H3).
    { clear - HG Hh. revert here' Hh. induction HG as [|ft y v fs here vs [Ev Hv] _ IHf]; intros here' Hh; inversion Hh as [|? y' ? h0 Hy Hh0]; subst.
      - exists []. split; [constructor|]. split; [constructor|reflexivity].
      - destruct (IHf _ Hh0) as (vs' & H1 & H2 & H3). destruct (Hv _ Hy) as (d' & E & HS & HO). exists ((fst v, d') :: vs'). split; [constructor; cbn; auto|].
        split; [constructor; cbn; auto|]. intros O. inversion O; subst. rewrite H3, HO by assumption. destruct v; reflexivity. }
    exists (DStruct vs'). split; [eapply D_struct_items; [exact HI'|exact H1]|]. split; [constructor; exact H2|].
    intros O. inversion O as [? HL| | | | |]; subst; [destruct HL|]. rewrite H3 by assumption. reflexivity.
  - leaf Hx. exists DIgnored. split; [constructor|]. split; [constructor|reflexivity].
  - leaf Hx. exists DIgnored. split; [constructor|]. split; [constructor|reflexivity].
  - leaf Hx. exists DIgnored. split; [constructor|]. split; [constructor|reflexivity].
  - leaf Hx. exists DIgnored. split; [eapply D_ignored_int; eassumption|]. split; [constructor|reflexivity].
  - leaf Hx. exists DIgnored. split; [eapply D_ignored_float; eassumption|]. split; [constructor|reflexivity].
  - destruct (items_moved _ _ _ Hx HI) as (items' & HI' & HM). exists DIgnored. split; [|split; [constructor|reflexivity]].
    assert (HG : Forall (fun y => Stays TIgnored y DIgnored) items).
    { clear - HF IH. revert items HF. fix go 2. intros items [|y l Hy Hl]; constructor; [exact (IH _ _ _ Hy)|exact (go _ Hl)]. }
    eapply D_ignored_items; [exact HI'|]. clear - HG HM. induction HM as [|y y' l l' Hy _ IHl]; constructor; inversion HG as [|? ? Hs Hl]; subst; [|apply IHl, Hl].
    destruct (Hs _ Hy) as (d' & E & _ & HO). rewrite HO in E by (constructor; exact I). exact E.
  - destruct (members_moved _ _ HM _ Hx) as (m & ms' & HM' & HP & HMm). exists DIgnored. split; [|split; [constructor|reflexivity]].
    assert (HG : Forall (fun a : str * node => Stays TIgnored (snd a) DIgnored) ms).
    { clear - HF IH. revert ms HF. fix go 2. intros ms [|y l Hy Hl]; constructor; [exact (IH _ _ _ Hy)|exact (go _ Hl)]. }
    eapply D_ignored_members; [exact HM'|]. apply (Permutation_Forall HP) in HG. clear - HG HMm.
    induction HMm as [|y y' l l' [_ Hy] _ IHl]; constructor; inversion HG as [|? ? Hs Hl]; subst; [|apply IHl, Hl].
    destruct (Hs _ Hy) as (d' & E & _ & HO). rewrite HO in E by (constructor; exact I). exact E.
  - leaf Hx. exists DUnit. split; [constructor|]. split; [constructor|reflexivity].
  - leaf Hx. exists (DBool b). split; [constructor|]. split; [constructor|reflexivity].
  - leaf Hx. exists (DStr (cow_str s)). split; [constructor|]. split; [constructor|reflexivity].
  - leaf Hx. exists (DInt z). split; [constructor; assumption|]. split; [constructor|reflexivity].
  - leaf Hx. exists (DFloat f). split; [constructor; assumption|]. split; [constructor|reflexivity].
  - destruct (items_moved _ _ _ Hx HI) as (items' & HI' & HM).
    assert (HG : Forall2 (Stays TAny) items ds).
    { clear - HF IH. revert items ds HF. fix go 3. intros items ds [|y b l1 l2 Hy Hl]; constructor; [exact (IH _ _ _ Hy)|exact (go _ _ Hl)]. }
    destruct (stays_list _ _ _ _ HM HG) as (ds' & H1 & H2 & _). exists (DSeq ds'). split; [eapply D_any_items; eassumption|]. split; [constructor; exact H2|].
    intros O. inversion O as [? HL| | | | |]; subst. destruct HL.
  - destruct (members_moved _ _ HM _ Hx) as (m & ms' & HM' & HP & HMm).
    assert (HG : Forall2 (fun (a : str * node) (e : str * data) => fst e = fst a /\ Stays TAny (snd a) (snd e)) ms es).
    { clear - HF IH. revert ms es HF. fix go 3. intros ms es [|a e l1 l2 [Ea Ha] Hl]; constructor; [exact (conj Ea (IH _ _ _ Ha))|exact (go _ _ Hl)]. }
    destruct (stays_members _ _ _ _ _ HP HMm HG) as (es' & es'' & HPe & HSe & HDe). exists (DMap es''). split; [eapply D_any_members; eassumption|].
    split; [eapply Same_map; [exact HPe|exact HSe]|]. intros O. inversion O as [? HL| | | | |]; subst. destruct HL.
Qed.

(** ** Rearranging can be undone *)
Lemma F2_perm_flip {A B} (R : A -> B -> Prop) (S : B -> A -> Prop) l m l' : (forall a b, In a l -> R a b -> S b a) -> Permutation l m -> Forall2 R m l' ->
  exists m', Permutation l' m' /\ Forall2 S m' l.
Proof.
  intros H HP HF. assert (Forall2 S l' m) as HF'.
  { assert (forall a b, In a m -> R a b -> S b a) as H' by (intros a b Ha; apply H; eapply Permutation_in; [apply Permutation_sym, HP|exact Ha]).
    clear H HP. induction HF as [|a b m l' Hab _ IH]; constructor; [apply H'; [left; reflexivity|exact Hab]|]. apply IH. intros x y Hx. apply H'. right. exact Hx. }
  destruct (Permutation_Forall2 (P := fun a b => S b a) (Permutation_sym HP) (l2 := l')) as (m' & HPm & HFm).
  { clear - HF'. induction HF'; constructor; assumption. }
  exists m'. split; [exact HPm|]. clear - HFm. induction HFm; constructor; assumption.
Qed.
Lemma MExpr_sym : forall e e', MExpr e e' -> MExpr e' e.
Proof.
  induction e as [ |n|b|s|l IH|l IH] using expr_ind'; intros e' H; inversion H as [|? l' HF|? m l' HP HF]; subst; try constructor.
  - clear H. revert IH. induction HF as [|a b l l' Hab _ IHl]; intros IH; constructor; inversion IH; subst; auto.
  - assert (HH : forall a b : okey * expr, In a l -> fst b = fst a /\ MExpr (snd a) (snd b) -> fst a = fst b /\ MExpr (snd b) (snd a)).
    { intros a b Ha [E Hm]. rewrite Forall_forall in IH. exact (conj (eq_sym E) (IH a Ha _ Hm)). }
    destruct (F2_perm_flip _ (fun ke ke' => fst ke' = fst ke /\ MExpr (snd ke) (snd ke')) _ _ _ HH HP HF) as (m' & HP' & HF').
    eapply ME_object; eassumption.
Qed.
Lemma MBody_sym : forall b b', MBody b b' -> MBody b' b.
Proof.
  fix IH 3. intros b b' [b0 m b1 HP HFa HFb].
  assert (HH : forall a c : str * expr, In a (attr_list b0) -> fst c = fst a /\ MExpr (snd a) (snd c) -> fst a = fst c /\ MExpr (snd c) (snd a)).
  { intros a c Ha [E Hm]. exact (conj (eq_sym E) (MExpr_sym _ _ Hm)). }
  destruct (F2_perm_flip _ (fun a a' : str * expr => fst a' = fst a /\ MExpr (snd a) (snd a')) _ _ _ HH HP HFa) as (m' & HP' & HFa').
  apply (MB _ m'); [exact HP'|exact HFa'|]. clear - HFb IH. revert HFb. generalize (block_list b0) (block_list b1). fix go 3.
  intros l l' [|c c' l0 l0' (E1 & E2 & Hb) Hl]; constructor; [|exact (go _ _ Hl)]. split; [symmetry; exact E1|]. split; [symmetry; exact E2|exact (IH _ _ Hb)].
Qed.
