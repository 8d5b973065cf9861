(** * NomFacts: general lemmas about the combinators *)
From Coq Require Export ZifyBool ZifyN ZifyNat.
From Verif Require Import Base Nom.

(** ** Strings *)
Lemma str_eqb_refl s : str_eqb s s = true.
Proof. induction s as [|c s IH]; cbn [str_eqb]; [reflexivity|]. rewrite N.eqb_refl, IH. reflexivity. Qed.

Lemma str_eqb_eq a b : str_eqb a b = true <-> a = b.
Proof.
  split.
  - revert b; induction a as [|x a IH]; intros [|y b] H; cbn [str_eqb] in H; try discriminate; [reflexivity|].
    apply andb_true_iff in H as [H1 H2]. apply N.eqb_eq in H1. apply IH in H2. congruence.
  - intros ->. apply str_eqb_refl.
Qed.

Lemma str_eqb_neq a b : str_eqb a b = false <-> a <> b.
Proof.
  split; intros H.
  - intros ->. rewrite str_eqb_refl in H. discriminate.
  - destruct (str_eqb a b) eqn:E; [|reflexivity]. apply str_eqb_eq in E. contradiction.
Qed.

(** ** Suffixes *)
Definition suffix (r s : str) : Prop := exists w, s = w ++ r.

Lemma suffix_refl s : suffix s s.
Proof. exists []; reflexivity. Qed.
Lemma suffix_trans a b c : suffix a b -> suffix b c -> suffix a c.
Proof. intros [x ->] [y ->]. exists (y ++ x). rewrite app_assoc. reflexivity. Qed.
Lemma suffix_cons c s : suffix s (c :: s).
Proof. exists [c]; reflexivity. Qed.
Lemma suffix_app w s : suffix s (w ++ s).
Proof. exists w; reflexivity. Qed.
Lemma suffix_len r s : suffix r s -> (length r <= length s)%nat.
Proof. intros [w ->]. rewrite app_length. lia. Qed.
Lemma suffix_len_eq r s : suffix r s -> length r = length s -> r = s.
Proof. intros [w ->] H. rewrite app_length in H. destruct w; [reflexivity|]. cbn in H. lia. Qed.
Lemma suffix_neq_len r s : suffix r s -> r <> s -> (length r < length s)%nat.
Proof.
  intros H Hn. pose proof (suffix_len _ _ H) as Hl.
  destruct (Nat.eq_dec (length r) (length s)) as [E|E]; [|lia].
  exfalso; apply Hn, suffix_len_eq; assumption.
Qed.
#[export] Hint Resolve suffix_refl suffix_cons suffix_app : suffix.

(** The consumed text. *)
Lemma firstn_consumed (w r : str) : firstn (length (w ++ r) - length r) (w ++ r) = w.
Proof.
  rewrite app_length. replace (length w + length r - length r)%nat with (length w) by lia.
  rewrite firstn_app, Nat.sub_diag, firstn_all. cbn. apply app_nil_r.
Qed.

(** ** Good results: the remainder is a suffix, and there is enough fuel *)
Definition good {A} (x : res A) (s : str) : Prop :=
  match x with
  | Ok r _ => suffix r s
  | OutOfFuel => False
  | _ => True
  end.

Definition wf {A} (p : parser A) : Prop := forall s, good (p s) s.

Lemma good_weaken {A} (x : res A) s s' : suffix s s' -> good x s -> good x s'.
Proof. destruct x; cbn; intros H1 H2; try exact H2. eapply suffix_trans; eassumption. Qed.

Lemma good_bind {A B} (x : res A) (f : str -> A -> res B) s :
  good x s -> (forall r v, x = Ok r v -> suffix r s -> good (f r v) r) -> good (bind x f) s.
Proof.
  destruct x as [r v| | | |]; cbn [bind good]; intros H1 H2; try exact I; try contradiction.
  eapply good_weaken; [exact H1|]. apply H2; [reflexivity|exact H1].
Qed.

Lemma good_map_res {A B} (f : A -> B) x s : good x s -> good (map_res f x) s.
Proof. intros H. apply good_bind; [exact H|]. intros r v _ _. apply suffix_refl. Qed.

Lemma strip_prefix_spec t s r : strip_prefix t s = Some r <-> s = t ++ r.
Proof.
  revert s; induction t as [|x t IH]; intros s; cbn [strip_prefix].
  - cbn. split; [intros [= ->]; reflexivity | intros ->; reflexivity].
  - destruct s as [|y s]; [split; discriminate|].
    destruct (N.eqb_spec x y) as [->|Hn].
    + rewrite IH. cbn. split; [intros ->; reflexivity | intros [= ->]; reflexivity].
    + split; [discriminate|]. intros [= -> _]. contradiction.
Qed.

Lemma strip_prefix_app t r : strip_prefix t (t ++ r) = Some r.
Proof. apply strip_prefix_spec. reflexivity. Qed.

Lemma tag_app t r : tag t (t ++ r) = Ok r t.
Proof. unfold tag. rewrite strip_prefix_app. reflexivity. Qed.

Lemma tag_ok t s r v : tag t s = Ok r v -> s = t ++ r /\ v = t.
Proof.
  unfold tag. destruct (strip_prefix t s) eqn:E; [|discriminate].
  intros [= -> <-]. split; [apply strip_prefix_spec; exact E|reflexivity].
Qed.

Lemma tag_cases t s : (exists r, s = t ++ r /\ tag t s = Ok r t) \/ tag t s = Err.
Proof.
  unfold tag. destruct (strip_prefix t s) eqn:E; [left|right; reflexivity].
  apply strip_prefix_spec in E. eauto.
Qed.

Lemma wf_tag t : wf (tag t).
Proof.
  intros s. unfold tag. destruct (strip_prefix t s) eqn:E; cbn; [|exact I].
  apply strip_prefix_spec in E as ->. apply suffix_app.
Qed.

Lemma char_p_ok c s r v : char_p c s = Ok r v -> s = c :: r /\ v = c.
Proof.
  destruct s as [|x s]; cbn; [discriminate|]. destruct (N.eqb_spec x c) as [->|]; [|discriminate].
  intros [= -> <-]. split; reflexivity.
Qed.
Lemma char_p_eq c r : char_p c (c :: r) = Ok r c.
Proof. cbn. rewrite N.eqb_refl. reflexivity. Qed.
Lemma char_p_neq c x r : x <> c -> char_p c (x :: r) = Err.
Proof. intros H. cbn. apply N.eqb_neq in H. rewrite H. reflexivity. Qed.
Lemma wf_char c : wf (char_p c).
Proof. intros [|x s]; cbn; [exact I|]. destruct (x =? c); cbn; auto with suffix. Qed.

(** ** [span] *)
Lemma span_app p s a b : span p s = (a, b) -> s = a ++ b.
Proof.
  revert a b; induction s as [|c s IH]; intros a b; cbn [span].
  - intros [= <- <-]. reflexivity.
  - destruct (p c); [|intros [= <- <-]; reflexivity].
    destruct (span p s) as [a' b']. intros [= <- <-]. cbn. f_equal. apply IH. reflexivity.
Qed.

Definition stops (p : char -> bool) (s : str) : Prop :=
  match s with [] => True | c :: _ => p c = false end.

Lemma span_spec p s a b : span p s = (a, b) <-> s = a ++ b /\ forallb p a = true /\ stops p b.
Proof.
  revert a b; induction s as [|c s IH]; intros a b; cbn [span].
  - split.
    + intros [= <- <-]. cbn. auto.
    + intros (H & _ & _). symmetry in H. apply app_eq_nil in H as [-> ->]. reflexivity.
  - destruct (p c) eqn:Ec.
    + destruct (span p s) as [a' b'] eqn:Es. split.
      * intros [= <- <-]. destruct (proj1 (IH a' b') eq_refl) as (H1 & H2 & H3).
        cbn. rewrite Ec, H2. subst s. auto.
      * intros (H1 & H2 & H3). destruct a as [|x a].
        -- cbn in H1. subst b. cbn in H3. congruence.
        -- cbn in H1. injection H1 as <- H1. cbn in H2. apply andb_true_iff in H2 as [_ H2].
           assert (E : (a', b') = (a, b)) by (apply IH; auto). injection E as -> ->. reflexivity.
    + split.
      * intros [= <- <-]. cbn. auto.
      * intros (H1 & H2 & H3). destruct a as [|x a].
        -- cbn in H1. subst b. reflexivity.
        -- cbn in H1. injection H1 as <- H1. cbn in H2. rewrite Ec in H2. discriminate.
Qed.

Lemma span_eq p a b : forallb p a = true -> stops p b -> span p (a ++ b) = (a, b).
Proof. intros H1 H2. apply span_spec. auto. Qed.

Lemma wf_take_while p : wf (take_while p).
Proof.
  intros s. unfold take_while. destruct (span p s) as [a b] eqn:E. cbn.
  apply span_app in E as ->. apply suffix_app.
Qed.

Lemma take_while1_ok p s r v :
  take_while1 p s = Ok r v <-> s = v ++ r /\ v <> [] /\ forallb p v = true /\ stops p r.
Proof.
  unfold take_while1. destruct (span p s) as [a b] eqn:E.
  split.
  - destruct a as [|x a]; [discriminate|]. intros [= <- <-].
    apply span_spec in E as (H1 & H2 & H3). repeat split; auto. discriminate.
  - intros (H1 & H2 & H3 & H4).
    assert (E' : span p s = (v, r)) by (apply span_spec; auto).
    rewrite E' in E. injection E as <- <-. destruct v; [contradiction|reflexivity].
Qed.

Lemma take_while1_eq p v r :
  v <> [] -> forallb p v = true -> stops p r -> take_while1 p (v ++ r) = Ok r v.
Proof. intros. apply take_while1_ok. auto. Qed.

Lemma take_while1_err p s : stops p s -> take_while1 p s = Err.
Proof.
  intros H. unfold take_while1. replace (span p s) with (@nil char, s); [reflexivity|].
  symmetry. apply span_spec. cbn. auto.
Qed.

Lemma take_while1_cases p s :
  (exists r v, take_while1 p s = Ok r v) \/ take_while1 p s = Err.
Proof. unfold take_while1. destruct (span p s) as [[|x a] b]; eauto. Qed.

Lemma wf_take_while1 p : wf (take_while1 p).
Proof.
  intros s. destruct (take_while1_cases p s) as [(r & v & H)|H]; rewrite H; cbn; [|exact I].
  apply take_while1_ok in H as (-> & _). apply suffix_app.
Qed.

Lemma wf_take_while_m_n m n p : wf (take_while_m_n m n p).
Proof.
  intros s. unfold take_while_m_n. destruct (span p s) as [a b] eqn:E.
  destruct (Nat.leb m (length a)); cbn; [|exact I].
  exists (firstn (Nat.min n (length a)) s). symmetry. apply firstn_skipn.
Qed.

(** ** [take_until] *)
Lemma find_split_ok t s a b :
  find_split t s = Some (a, b) -> s = a ++ b /\ (exists r, b = t ++ r).
Proof.
  revert a b; induction s as [|c s IH]; intros a b; cbn [find_split].
  - destruct (strip_prefix t []) eqn:E; [|discriminate].
    intros [= <- <-]. apply strip_prefix_spec in E. split; [reflexivity|]. eauto.
  - destruct (strip_prefix t (c :: s)) eqn:E.
    + intros [= <- <-]. apply strip_prefix_spec in E. split; [reflexivity|]. eauto.
    + destruct (find_split t s) as [[a' b']|]; [|discriminate].
      intros [= <- <-]. destruct (IH _ _ eq_refl) as (-> & H). auto.
Qed.

Lemma wf_take_until t : wf (take_until t).
Proof.
  intros s. unfold take_until. destruct (find_split t s) as [[a b]|] eqn:E; cbn; [|exact I].
  apply find_split_ok in E as (-> & _). apply suffix_app.
Qed.

(** ** Structural combinators preserve [wf] *)
Lemma wf_alt {A} (p q : parser A) : wf p -> wf q -> wf (alt p q).
Proof. intros Hp Hq s. unfold alt. specialize (Hp s). destruct (p s); auto. Qed.
Lemma wf_opt {A} (p : parser A) : wf p -> wf (opt p).
Proof. intros Hp s. unfold opt. specialize (Hp s). destruct (p s); cbn in *; auto with suffix. Qed.
Lemma wf_peek {A} (p : parser A) : wf p -> wf (peek p).
Proof. intros Hp s. unfold peek. specialize (Hp s). destruct (p s); cbn in *; auto with suffix. Qed.
Lemma wf_pmap {A B} (f : A -> B) p : wf p -> wf (pmap f p).
Proof. intros Hp s. apply good_map_res, Hp. Qed.
Lemma wf_verify {A} (p : parser A) f : wf p -> wf (verify p f).
Proof. intros Hp s. apply good_bind; [apply Hp|]. intros r v _ _. destruct (f v); cbn; auto with suffix. Qed.
Lemma wf_recognize {A} (p : parser A) : wf p -> wf (recognize p).
Proof. intros Hp s. apply good_bind; [apply Hp|]. intros r v _ _. cbn. auto with suffix. Qed.
Lemma wf_preceded {A B} (p : parser A) (q : parser B) : wf p -> wf q -> wf (preceded p q).
Proof. intros Hp Hq s. apply good_bind; [apply Hp|]. intros r v _ _. apply Hq. Qed.
Lemma wf_terminated {A B} (p : parser A) (q : parser B) : wf p -> wf q -> wf (terminated p q).
Proof.
  intros Hp Hq s. apply good_bind; [apply Hp|]. intros r v _ _.
  apply good_bind; [apply Hq|]. intros r' v' _ _. cbn. auto with suffix.
Qed.
Lemma wf_delimited {A B C} (p : parser A) (q : parser B) (t : parser C) :
  wf p -> wf q -> wf t -> wf (delimited p q t).
Proof.
  intros Hp Hq Ht s. apply good_bind; [apply Hp|]. intros r v _ _.
  apply good_bind; [apply Hq|]. intros r' v' _ _.
  apply good_bind; [apply Ht|]. intros r'' v'' _ _. cbn. auto with suffix.
Qed.
Lemma wf_return_error {A} (p : parser A) : wf p -> wf (return_error p).
Proof. intros Hp s. unfold return_error. specialize (Hp s). destruct (p s); auto. Qed.
Lemma wf_eof : wf eof.
Proof. intros [|c s]; cbn; auto with suffix. Qed.
Lemma wf_eol : wf eol.
Proof. apply wf_alt; apply wf_tag. Qed.

(** ** [many0] *)

(** Pointwise version: [p] only needs to be good on strings not longer than
    the input. *)
Definition wf_upto {A} (n : nat) (p : parser A) : Prop :=
  forall s, (length s <= n)%nat -> good (p s) s.

Lemma wf_upto_of {A} (p : parser A) n : wf p -> wf_upto n p.
Proof. intros H s _. apply H. Qed.

Lemma wf_upto_le {A} (p : parser A) n m : (m <= n)%nat -> wf_upto n p -> wf_upto m p.
Proof. intros H1 H2 s H3. apply H2. lia. Qed.

(** The loop does not depend on its fuel once it is large enough. *)
Lemma many0_loop_fuel {A} (p : parser A) f1 f2 s :
  wf_upto (length s) p -> (length s < f1)%nat -> (length s < f2)%nat ->
  many0_loop f1 p s = many0_loop f2 p s.
Proof.
  revert f2 s; induction f1 as [|f1 IH]; intros [|f2] s Hp H1 H2; try lia.
  cbn [many0_loop]. pose proof (Hp s (Nat.le_refl _)) as Hs.
  destruct (p s) as [r v| | | |]; try reflexivity.
  destruct (str_eqb r s) eqn:E; [reflexivity|].
  cbn in Hs. apply str_eqb_neq in E. pose proof (suffix_neq_len _ _ Hs E) as Hl.
  rewrite (IH f2 r); [reflexivity| | lia | lia].
  eapply wf_upto_le; [|exact Hp]. lia.
Qed.

(** The defining equation of [many0!], without fuel. *)
Lemma many0_eq {A} (p : parser A) s :
  wf_upto (length s) p ->
  many0 p s =
    match p s with
    | Ok r v => if str_eqb r s then Ok s [] else map_res (cons v) (many0 p r)
    | Err => Ok s []
    | Fail q => Fail q
    | Panic => Panic
    | OutOfFuel => OutOfFuel
    end.
Proof.
  intros Hp. unfold many0. cbn [many0_loop]. pose proof (Hp s (Nat.le_refl _)) as Hs.
  destruct (p s) as [r v| | | |]; try reflexivity.
  destruct (str_eqb r s) eqn:E; [reflexivity|].
  cbn in Hs. apply str_eqb_neq in E. pose proof (suffix_neq_len _ _ Hs E) as Hl.
  rewrite (many0_loop_fuel p (length s) (S (length r)) r); [reflexivity| | lia | lia].
  eapply wf_upto_le; [|exact Hp]. lia.
Qed.

Lemma good_many0 {A} (p : parser A) s : wf_upto (length s) p -> good (many0 p s) s.
Proof.
  remember (length s) as n eqn:En.
  revert s En; induction n as [n IH] using lt_wf_ind; intros s -> Hp.
  rewrite many0_eq by exact Hp.
  pose proof (Hp s (Nat.le_refl _)) as Hs.
  destruct (p s) as [r v| | | |]; cbn in Hs; try exact I; try contradiction.
  - destruct (str_eqb r s) eqn:E; [apply suffix_refl|].
    apply str_eqb_neq in E. pose proof (suffix_neq_len _ _ Hs E) as Hl.
    apply good_map_res. eapply good_weaken; [exact Hs|].
    apply (IH (length r) Hl r eq_refl). eapply wf_upto_le; [|exact Hp]. lia.
  - cbn. apply suffix_refl.
Qed.

Lemma wf_many0 {A} (p : parser A) : wf p -> wf (many0 p).
Proof. intros Hp s. apply good_many0, wf_upto_of, Hp. Qed.

Lemma many1_eq {A} (p : parser A) s :
  many1 p s = bind (p s) (fun r v => map_res (cons v) (many0 p r)).
Proof. reflexivity. Qed.

Lemma wf_many1 {A} (p : parser A) : wf p -> wf (many1 p).
Proof.
  intros Hp s. rewrite many1_eq. apply good_bind; [apply Hp|]. intros r v _ _.
  apply good_map_res. apply wf_many0. exact Hp.
Qed.

(** ** [separated_list] *)
Definition sep_rest {A B} (sep : parser B) (p : parser A) (s : str) : res (list A) :=
  sep_loop (S (length s)) sep p s.

Lemma sep_loop_fuel {A B} (sep : parser B) (p : parser A) f1 f2 s :
  wf_upto (length s) sep -> wf_upto (length s) p ->
  (length s < f1)%nat -> (length s < f2)%nat ->
  sep_loop f1 sep p s = sep_loop f2 sep p s.
Proof.
  revert f2 s; induction f1 as [|f1 IH]; intros [|f2] s Hq Hp H1 H2; try lia.
  cbn [sep_loop]. pose proof (Hq s (Nat.le_refl _)) as Hs.
  destruct (sep s) as [s2 w| | | |]; try reflexivity. cbn in Hs.
  pose proof (suffix_len _ _ Hs) as Hl.
  destruct (Nat.eqb_spec (length s2) (length s)) as [E|E]; [reflexivity|].
  pose proof (Hp s2 Hl) as Hs2.
  destruct (p s2) as [s3 v| | | |]; try reflexivity. cbn in Hs2.
  pose proof (suffix_len _ _ Hs2) as Hl2.
  destruct (Nat.eqb_spec (length s3) (length s2)) as [E2|E2]; [reflexivity|].
  rewrite (IH f2 s3); [reflexivity| | | lia | lia];
    (eapply wf_upto_le; [|eassumption]; lia).
Qed.

Lemma sep_rest_eq {A B} (sep : parser B) (p : parser A) s :
  wf_upto (length s) sep -> wf_upto (length s) p ->
  sep_rest sep p s =
    match sep s with
    | Ok s2 _ =>
        if Nat.eqb (length s2) (length s) then Ok s []
        else
          match p s2 with
          | Ok s3 v =>
              if Nat.eqb (length s3) (length s2) then Err
              else map_res (cons v) (sep_rest sep p s3)
          | Err => Ok s []
          | Fail q => Fail q
          | Panic => Panic
          | OutOfFuel => OutOfFuel
          end
    | Err => Ok s []
    | Fail q => Fail q
    | Panic => Panic
    | OutOfFuel => OutOfFuel
    end.
Proof.
  intros Hq Hp. unfold sep_rest. cbn [sep_loop]. pose proof (Hq s (Nat.le_refl _)) as Hs.
  destruct (sep s) as [s2 w| | | |]; try reflexivity. cbn in Hs.
  pose proof (suffix_len _ _ Hs) as Hl.
  destruct (Nat.eqb_spec (length s2) (length s)) as [E|E]; [reflexivity|].
  pose proof (Hp s2 Hl) as Hs2.
  destruct (p s2) as [s3 v| | | |]; try reflexivity. cbn in Hs2.
  pose proof (suffix_len _ _ Hs2) as Hl2.
  destruct (Nat.eqb_spec (length s3) (length s2)) as [E2|E2]; [reflexivity|].
  rewrite (sep_loop_fuel sep p (length s) (S (length s3)) s3); [reflexivity| | | lia | lia];
    (eapply wf_upto_le; [|eassumption]; lia).
Qed.

Lemma good_sep_rest {A B} (sep : parser B) (p : parser A) s :
  wf_upto (length s) sep -> wf_upto (length s) p -> good (sep_rest sep p s) s.
Proof.
  remember (length s) as n eqn:En.
  revert s En; induction n as [n IH] using lt_wf_ind; intros s -> Hq Hp.
  rewrite sep_rest_eq by assumption.
  pose proof (Hq s (Nat.le_refl _)) as Hs.
  destruct (sep s) as [s2 w| | | |]; cbn in Hs; try exact I; try contradiction;
    [|apply suffix_refl].
  pose proof (suffix_len _ _ Hs) as Hl.
  destruct (Nat.eqb_spec (length s2) (length s)) as [E|E]; [apply suffix_refl|].
  pose proof (Hp s2 Hl) as Hs2.
  destruct (p s2) as [s3 v| | | |]; cbn in Hs2; try exact I; try contradiction;
    [|apply suffix_refl].
  pose proof (suffix_len _ _ Hs2) as Hl2.
  destruct (Nat.eqb_spec (length s3) (length s2)) as [E2|E2]; [exact I|].
  apply good_map_res. eapply good_weaken; [eapply suffix_trans; eassumption|].
  apply (IH (length s3)); [lia|reflexivity| |]; (eapply wf_upto_le; [|eassumption]; lia).
Qed.

Lemma separated_list_eq {A B} (sep : parser B) (p : parser A) s :
  separated_list sep p s =
    match p s with
    | Ok r v =>
        if Nat.eqb (length r) (length s) then Err
        else map_res (cons v) (sep_rest sep p r)
    | Err => Ok s []
    | Fail q => Fail q
    | Panic => Panic
    | OutOfFuel => OutOfFuel
    end.
Proof. reflexivity. Qed.

Lemma good_separated_list {A B} (sep : parser B) (p : parser A) s :
  wf_upto (length s) sep -> wf_upto (length s) p -> good (separated_list sep p s) s.
Proof.
  intros Hq Hp. rewrite separated_list_eq. pose proof (Hp s (Nat.le_refl _)) as Hs.
  destruct (p s) as [r v| | | |]; cbn in Hs; try exact I; try contradiction;
    [|apply suffix_refl].
  destruct (Nat.eqb_spec (length r) (length s)) as [E|E]; [exact I|].
  apply good_map_res. eapply good_weaken; [exact Hs|].
  pose proof (suffix_len _ _ Hs) as Hl.
  apply good_sep_rest; (eapply wf_upto_le; [|eassumption]; lia).
Qed.

(** ** [escaped_transform] *)
Lemma escaped_loop_fuel normal transform f1 f2 s :
  wf transform -> (length s < f1)%nat -> (length s < f2)%nat ->
  escaped_loop f1 normal transform s = escaped_loop f2 normal transform s.
Proof.
  intros Ht. revert f2 s; induction f1 as [|f1 IH]; intros [|f2] s H1 H2; try lia.
  cbn [escaped_loop]. destruct s as [|c s']; [reflexivity|].
  destruct (span normal (c :: s')) as [a b] eqn:E.
  destruct a as [|x a].
  - destruct (c =? c_backslash); [|reflexivity].
    destruct s' as [|c' s'']; [reflexivity|].
    pose proof (Ht (c' :: s'')) as Hs.
    destruct (transform (c' :: s'')) as [r v| | | |]; cbn [bind]; try reflexivity.
    cbn in Hs. apply suffix_len in Hs. cbn [length] in *.
    rewrite (IH f2 r); [reflexivity | lia | lia].
  - apply span_app in E. apply (f_equal (@length char)) in E.
    rewrite app_length in E. cbn [length] in *.
    rewrite (IH f2 b); [reflexivity | lia | lia].
Qed.

Lemma escaped_transform_eq normal transform s :
  wf transform ->
  escaped_transform normal transform s =
      match s with
      | [] => Ok [] []
      | c :: s' =>
          match span normal s with
          | (a :: a', b) => map_res (app (a :: a')) (escaped_transform normal transform b)
          | ([], _) =>
              if c =? c_backslash then
                match s' with
                | [] => Err
                | _ =>
                    bind (transform s') (fun r o =>
                      map_res (app o) (escaped_transform normal transform r))
                end
              else Ok s []
          end
      end.
Proof.
  intros Ht. unfold escaped_transform at 1. cbn [escaped_loop].
  destruct s as [|c s']; [reflexivity|].
  destruct (span normal (c :: s')) as [a b] eqn:E.
  destruct a as [|x a].
  - destruct (c =? c_backslash); [|reflexivity].
    destruct s' as [|c' s'']; [reflexivity|].
    pose proof (Ht (c' :: s'')) as Hs.
    destruct (transform (c' :: s'')) as [r v| | | |]; cbn [bind]; try reflexivity.
    cbn in Hs. apply suffix_len in Hs. cbn [length] in *.
    f_equal. unfold escaped_transform. apply escaped_loop_fuel; [exact Ht| lia | lia].
  - apply span_app in E. apply (f_equal (@length char)) in E.
    rewrite app_length in E. cbn [length] in *.
    f_equal. unfold escaped_transform. apply escaped_loop_fuel; [exact Ht| lia | lia].
Qed.

(** One normal character at a time. *)
Lemma escaped_transform_normal normal transform c s :
  wf transform -> normal c = true ->
  escaped_transform normal transform (c :: s)
  = map_res (cons c) (escaped_transform normal transform s).
Proof.
  intros Ht Hc. rewrite escaped_transform_eq by exact Ht. cbn [span]. rewrite Hc.
  destruct (span normal s) as [a b] eqn:E.
  destruct a as [|x a].
  - apply span_spec in E as (E & _ & _). cbn in E. subst b.
    destruct (escaped_transform normal transform s); reflexivity.
  - rewrite (escaped_transform_eq normal transform s) by exact Ht.
    pose proof (span_app _ _ _ _ E) as Es.
    destruct s as [|y s']; [discriminate|]. rewrite E.
    destruct (escaped_transform normal transform b); reflexivity.
Qed.

Lemma escaped_transform_stop normal transform c s :
  wf transform -> normal c = false -> c <> c_backslash ->
  escaped_transform normal transform (c :: s) = Ok (c :: s) [].
Proof.
  intros Ht H1 H2. rewrite escaped_transform_eq by exact Ht. cbn [span]. rewrite H1.
  apply N.eqb_neq in H2. rewrite H2. reflexivity.
Qed.

Lemma escaped_transform_esc normal transform s :
  wf transform -> normal c_backslash = false ->
  escaped_transform normal transform (c_backslash :: s)
  = match s with
    | [] => Err
    | _ => bind (transform s) (fun r o => map_res (app o) (escaped_transform normal transform r))
    end.
Proof. intros Ht H. rewrite escaped_transform_eq by exact Ht. cbn [span]. rewrite H. reflexivity. Qed.

Lemma escaped_transform_nil normal transform :
  wf transform -> escaped_transform normal transform [] = Ok [] [].
Proof. intros Ht. rewrite escaped_transform_eq by exact Ht. reflexivity. Qed.

Lemma wf_escaped_transform normal transform : wf transform -> wf (escaped_transform normal transform).
Proof.
  intros Ht s. remember (length s) as n eqn:En.
  revert s En; induction n as [n IH] using lt_wf_ind; intros s ->.
  rewrite escaped_transform_eq by exact Ht.
  destruct s as [|c s']; [apply suffix_refl|].
  destruct (span normal (c :: s')) as [a b] eqn:E.
  destruct a as [|x a].
  - destruct (c =? c_backslash); [|apply suffix_refl].
    destruct s' as [|c' s'']; [exact I|].
    eapply good_weaken; [apply suffix_cons|].
    apply good_bind; [apply Ht|]. intros r v _ Hs. apply suffix_len in Hs.
    apply good_map_res. apply (IH (length r)); [cbn [length] in *; lia|reflexivity].
  - apply span_app in E. rewrite E. eapply good_weaken; [apply suffix_app|].
    apply good_map_res. apply (IH (length b)); [|reflexivity].
    rewrite E, app_length. cbn [length]. lia.
Qed.

(** ** Approximation order: [OutOfFuel] is below every result *)
Definition le_res {A} (x y : res A) : Prop := x = OutOfFuel \/ x = y.
Definition ple {A} (p q : parser A) : Prop := forall s, le_res (p s) (q s).

Lemma le_refl {A} (x : res A) : le_res x x.
Proof. right; reflexivity. Qed.
Lemma ple_refl {A} (p : parser A) : ple p p.
Proof. intros s; apply le_refl. Qed.
Lemma le_trans {A} (x y z : res A) : le_res x y -> le_res y z -> le_res x z.
Proof. unfold le_res. intros [H|H] [H'|H']; subst; auto. Qed.

Lemma le_bind {A B} (x y : res A) (f g : str -> A -> res B) :
  le_res x y -> (forall r v, le_res (f r v) (g r v)) -> le_res (bind x f) (bind y g).
Proof.
  intros [->| ->] H; [left; reflexivity|]. destruct y; cbn [bind]; try apply le_refl. apply H.
Qed.
Lemma le_map_res {A B} (f : A -> B) x y : le_res x y -> le_res (map_res f x) (map_res f y).
Proof. intros H. apply le_bind; [exact H|]. intros; apply le_refl. Qed.
Lemma ple_pmap {A B} (f : A -> B) p q : ple p q -> ple (pmap f p) (pmap f q).
Proof. intros H s. apply le_map_res, H. Qed.
Lemma ple_alt {A} (p p' q q' : parser A) : ple p p' -> ple q q' -> ple (alt p q) (alt p' q').
Proof.
  intros H1 H2 s. unfold alt. destruct (H1 s) as [E|E]; rewrite E; [left; reflexivity|].
  destruct (p' s); try apply le_refl. apply H2.
Qed.
Lemma ple_opt {A} (p q : parser A) : ple p q -> ple (opt p) (opt q).
Proof. intros H s. unfold opt. destruct (H s) as [E|E]; rewrite E; [left; reflexivity|apply le_refl]. Qed.
Lemma ple_recognize {A} (p q : parser A) : ple p q -> ple (recognize p) (recognize q).
Proof. intros H s. apply le_bind; [apply H|]. intros; apply le_refl. Qed.
Lemma ple_preceded {A B} (p p' : parser A) (q q' : parser B) :
  ple p p' -> ple q q' -> ple (preceded p q) (preceded p' q').
Proof. intros H1 H2 s. apply le_bind; [apply H1|]. intros; apply H2. Qed.
Lemma ple_terminated {A B} (p p' : parser A) (q q' : parser B) :
  ple p p' -> ple q q' -> ple (terminated p q) (terminated p' q').
Proof.
  intros H1 H2 s. apply le_bind; [apply H1|]. intros r v. apply le_bind; [apply H2|].
  intros; apply le_refl.
Qed.
Lemma le_many0_loop {A} (p q : parser A) f s :
  ple p q -> le_res (many0_loop f p s) (many0_loop f q s).
Proof.
  intros H. revert s; induction f as [|f IH]; intros s; [left; reflexivity|].
  cbn [many0_loop]. destruct (H s) as [E|E]; rewrite E; [left; reflexivity|].
  destruct (q s); try apply le_refl. destruct (str_eqb rem s); [apply le_refl|].
  apply le_map_res, IH.
Qed.
Lemma ple_many0 {A} (p q : parser A) : ple p q -> ple (many0 p) (many0 q).
Proof. intros H s. apply le_many0_loop, H. Qed.
Lemma le_sep_loop {A B} (sep : parser B) (p q : parser A) f s :
  ple p q -> le_res (sep_loop f sep p s) (sep_loop f sep q s).
Proof.
  intros H. revert s; induction f as [|f IH]; intros s; [left; reflexivity|].
  cbn [sep_loop]. destruct (sep s) as [s2 w| | | |]; try apply le_refl.
  destruct (Nat.eqb (length s2) (length s)); [apply le_refl|].
  destruct (H s2) as [E|E]; rewrite E; [left; reflexivity|].
  destruct (q s2) as [s3 v| | | |]; try apply le_refl.
  destruct (Nat.eqb (length s3) (length s2)); [apply le_refl|]. apply le_map_res, IH.
Qed.
Lemma ple_separated_list {A B} (sep : parser B) (p q : parser A) :
  ple p q -> ple (separated_list sep p) (separated_list sep q).
Proof.
  intros H s. unfold separated_list. destruct (H s) as [E|E]; rewrite E; [left; reflexivity|].
  destruct (q s) as [s3 v| | | |]; try apply le_refl.
  destruct (Nat.eqb (length s3) (length s)); [apply le_refl|].
  apply le_map_res, le_sep_loop, H.
Qed.

(** Inversion of [bind]. *)
Lemma bind_ok {A B} (x : res A) (f : str -> A -> res B) r v :
  bind x f = Ok r v -> exists r' v', x = Ok r' v' /\ f r' v' = Ok r v.
Proof. destruct x; cbn [bind]; try discriminate. eauto. Qed.

Lemma map_res_ok {A B} (f : A -> B) x r w :
  map_res f x = Ok r w -> exists v, x = Ok r v /\ w = f v.
Proof. destruct x; cbn; try discriminate. intros [= -> <-]. eauto. Qed.

Lemma opt_some {A} (p : parser A) s r v : p s = Ok r v -> opt p s = Ok r (Some v).
Proof. intros H. unfold opt. rewrite H. reflexivity. Qed.
Lemma opt_none {A} (p : parser A) s : p s = Err -> opt p s = Ok s None.
Proof. intros H. unfold opt. rewrite H. reflexivity. Qed.
