(** * PropTakeTill: C58, the loop of [take_till_match!] over the indices *)
From Coq Require Import Lia Sorted.
From Verif Require Import Base Nom NomFacts Lex NumFacts StrFacts WsFacts HeredocFacts TakeTill PropLex.

Definition bytes_of (s : str) : nat := fold_right (fun c n => (utf8_len c + n)%nat) 0%nat s.
Lemma slice_app : forall a t, slice_from (a ++ t) (bytes_of a) = Some t /\ slice_to (a ++ t) (bytes_of a) = Some a.
Proof.
  intros a t. induction a as [|c a [IH1 IH2]]; [split; [destruct t|destruct t]; reflexivity|].
  change (bytes_of (c :: a)) with (utf8_len c + bytes_of a)%nat. pose proof (utf8_len_pos c) as Hc. cbn [app].
  destruct (utf8_len c + bytes_of a)%nat as [|n] eqn:E; [lia|]. cbn [slice_from slice_to].
  replace (Nat.leb (utf8_len c) (S n)) with true by (symmetry; apply Nat.leb_le; lia).
  replace (S n - utf8_len c)%nat with (bytes_of a) by lia. rewrite IH1, IH2. split; reflexivity.
Qed.
Lemma slice_from_some : forall s i t, slice_from s i = Some t -> exists a, s = a ++ t /\ bytes_of a = i.
Proof.
  intros s. induction s as [|c s IH]; intros i t H.
  - destruct i; [|discriminate]. injection H as <-. exists []. split; reflexivity.
  - destruct i as [|i]; [injection H as <-; exists []; split; reflexivity|]. cbn [slice_from] in H.
    destruct (Nat.leb (utf8_len c) (S i)) eqn:E; [|discriminate]. apply Nat.leb_le in E.
    destruct (IH _ _ H) as (a & -> & Ha). exists (c :: a). split; [reflexivity|]. change (bytes_of (c :: a)) with (utf8_len c + bytes_of a)%nat. lia.
Qed.
Lemma char_indices_spec : forall s off i, In i (char_indices off s) <-> exists a t, s = a ++ t /\ t <> [] /\ i = (off + bytes_of a)%nat.
Proof.
  intros s. induction s as [|c s IH]; intros off i; cbn [char_indices].
  - split; [intros []|]. intros (a & t & H & Ht & _). destruct a; [destruct t; [congruence|discriminate]|discriminate].
  - cbn [In]. rewrite IH. split.
    + intros [<-|(a & t & -> & Ht & ->)]; [exists [], (c :: s); repeat split; [discriminate|cbn; lia]|].
      exists (c :: a), t. repeat split; [exact Ht|]. change (bytes_of (c :: a)) with (utf8_len c + bytes_of a)%nat. lia.
    + intros (a & t & H & Ht & ->). destruct a as [|c' a].
      * left. cbn. lia.
      * injection H as <- ->. right. exists a, t. repeat split; [exact Ht|]. change (bytes_of (c :: a)) with (utf8_len c + bytes_of a)%nat. lia.
Qed.
(** The indices offered for a string are exactly the byte offsets of its characters,
    so slicing there never panics; the end of the string is not offered. *)
Theorem C58_safe_indices : forall s i,
  (In i (safe_indices s) <-> exists a t, s = a ++ t /\ t <> [] /\ i = bytes_of a) /\
  (In i (safe_indices s) -> slice_from s i <> None /\ slice_to s i <> None) /\
  (slice_from s i <> None -> In i (safe_indices s) \/ i = bytes_of s).
Proof.
  intros s i. pose proof (char_indices_spec s 0 i) as H. cbn [Nat.add] in H. split; [exact H|]. split.
  - intros Hi. apply H in Hi as (a & t & -> & _ & ->). destruct (slice_app a t) as [-> ->]. split; discriminate.
  - intros Hn. destruct (slice_from s i) as [t|] eqn:E; [|congruence]. destruct (slice_from_some _ _ _ E) as (a & -> & <-).
    destruct t as [|c t]; [right; rewrite app_nil_r; reflexivity|]. left. apply H. exists a, (c :: t). repeat split. discriminate.
Qed.
Theorem C58_safe_indices_increasing : forall s, StronglySorted lt (safe_indices s) /\ length (safe_indices s) = length s.
Proof.
  intros s. unfold safe_indices. generalize 0%nat as off. induction s as [|c s IH]; intros off; cbn [char_indices]; [split; [constructor|reflexivity]|].
  destruct (IH (off + utf8_len c)%nat) as [H1 H2]. split; [|cbn; rewrite H2; reflexivity]. constructor; [exact H1|]. apply Forall_forall. intros i Hi.
  apply char_indices_spec in Hi as (a & t & _ & _ & ->). pose proof (utf8_len_pos c). lia.
Qed.

(** The macro's loop on strings is the function of Lex.v: C58_take_till_match_first
    and _error speak about the code as written. *)
Theorem C58_loop : forall A (p : parser A) s, ttm_str p s = take_till_match p s.
Proof.
  intros A p s. unfold ttm_str, safe_indices.
  enough (H : forall a, ttm_loop p (slice_from (a ++ s)) (slice_to (a ++ s)) (char_indices (bytes_of a) s) =
                        map_res (fun pv => (a ++ fst pv, snd pv)) (take_till_match p s)).
  { specialize (H []). cbn [app] in H. change (bytes_of []) with 0%nat in H. rewrite H. destruct (take_till_match p s) as [r [? ?]| | | |]; reflexivity. }
  induction s as [|c s IH]; intros a; [reflexivity|]. cbn [char_indices ttm_loop take_till_match].
  destruct (slice_app a (c :: s)) as [-> ->].
  assert (Hrec : ttm_loop p (slice_from (a ++ c :: s)) (slice_to (a ++ c :: s)) (char_indices (bytes_of a + utf8_len c) s) =
                 map_res (fun pv => (a ++ fst pv, snd pv)) (map_res (fun pv => (c :: fst pv, snd pv)) (take_till_match p s))).
  { specialize (IH (a ++ [c])). rewrite <- app_assoc in IH. cbn [app] in IH.
    replace (bytes_of (a ++ [c])) with (bytes_of a + utf8_len c)%nat in IH.
    2:{ clear. induction a as [|x a IHa]; [cbn; lia|]. cbn [app]. change (bytes_of (x :: a ++ [c])) with (utf8_len x + bytes_of (a ++ [c]))%nat. change (bytes_of (x :: a)) with (utf8_len x + bytes_of a)%nat. lia. }
    rewrite IH. destruct (take_till_match p s) as [r [x v]| | | |]; cbn; try reflexivity. rewrite <- app_assoc. reflexivity. }
  destruct (p (c :: s)) as [r v| | | |]; [cbn; rewrite app_nil_r; reflexivity|exact Hrec|exact Hrec|reflexivity|reflexivity].
Qed.

(** REFUTED: an error iff the child succeeds nowhere.  A child that succeeds at the
    end of the input only is not asked there. *)
Theorem C58_end_refuted : exists (p : parser unit) s, take_till_match p s = Err /\ exists a t v r, s = a ++ t /\ p t = Ok r v.
Proof.
  exists (fun s => match s with [] => Ok [] tt | _ => Err end), (lit "a"). split; [reflexivity|].
  exists (lit "a"), [], tt, []. split; reflexivity.
Qed.

(** ** Slices *)
Lemma ttm_bytes_run : forall A (p : list N -> res A) a t n,
  ttm_bytes_loop p (a ++ t) (length a) (S n) =
  match p t with
  | Ok r v => Ok r (a, v)
  | Err | Fail _ => ttm_bytes_loop p (a ++ t) (S (length a)) n
  | Panic => Panic
  | OutOfFuel => OutOfFuel
  end.
Proof.
  intros A p a t n. cbn [ttm_bytes_loop]. unfold bslice_from, bslice_to.
  replace (Nat.leb (length a) (length (a ++ t))) with true by (symmetry; apply Nat.leb_le; rewrite app_length; lia).
  rewrite skipn_app, skipn_all, Nat.sub_diag, firstn_app, firstn_all, Nat.sub_diag. cbn [app skipn firstn]. rewrite app_nil_r. reflexivity.
Qed.
Lemma ttm_bytes_past : forall A (p : list N -> res A) s n, ttm_bytes_loop p s (S (length s)) (S n) = Panic.
Proof.
  intros A p s n. cbn [ttm_bytes_loop]. unfold bslice_from. replace (Nat.leb (S (length s)) (length s)) with false; [reflexivity|].
  symmetry. apply Nat.leb_gt. lia.
Qed.
Definition Total {A} (p : list N -> res A) : Prop := forall x, p x = Err \/ (exists q, p x = Fail q) \/ exists r v, p x = Ok r v.
Lemma ttm_bytes_outcome : forall A (p : list N -> res A) t a n, Total p -> (length t + 2 <= n)%nat ->
  (exists a1 t1 r v, t = a1 ++ t1 /\ p t1 = Ok r v /\ (forall x y, a1 = x ++ y -> y <> [] -> p (y ++ t1) = Err \/ (exists q, p (y ++ t1) = Fail q)) /\
     ttm_bytes_loop p (a ++ t) (length a) n = Ok r (a ++ a1, v)) \/
  ((forall a1 t1, t = a1 ++ t1 -> p t1 = Err \/ (exists q, p t1 = Fail q)) /\ ttm_bytes_loop p (a ++ t) (length a) n = Panic).
Proof.
  intros A p t. induction t as [|c t IH]; intros a n HT Hn.
  - destruct n as [|[|n]]; [cbn in Hn; lia|cbn in Hn; lia|]. rewrite ttm_bytes_run. destruct (HT []) as [E|[(q & E)|(r & v & E)]]; rewrite E.
    + right. split; [intros [|? ?] t1 H; [cbn in H; subst; eauto|discriminate]|]. rewrite app_nil_r. apply ttm_bytes_past.
    + right. split; [intros [|? ?] t1 H; [cbn in H; subst; eauto|discriminate]|]. rewrite app_nil_r. apply ttm_bytes_past.
    + left. exists [], [], r, v. rewrite !app_nil_r. repeat split; [exact E|]. intros [|? ?] y H Hy; [cbn in H; congruence|discriminate].
  - destruct n as [|n]; [cbn in Hn; lia|]. rewrite ttm_bytes_run.
    assert (HR : p (c :: t) = Err \/ (exists q, p (c :: t) = Fail q) ->
      (exists a1 t1 r v, c :: t = a1 ++ t1 /\ p t1 = Ok r v /\ (forall x y, a1 = x ++ y -> y <> [] -> p (y ++ t1) = Err \/ (exists q, p (y ++ t1) = Fail q)) /\
         ttm_bytes_loop p (a ++ c :: t) (S (length a)) n = Ok r (a ++ a1, v)) \/
      ((forall a1 t1, c :: t = a1 ++ t1 -> p t1 = Err \/ (exists q, p t1 = Fail q)) /\ ttm_bytes_loop p (a ++ c :: t) (S (length a)) n = Panic)).
    { intros Hc. specialize (IH (a ++ [c]) n HT ltac:(cbn in Hn; lia)). rewrite <- app_assoc in IH. cbn [app] in IH.
      replace (length (a ++ [c])) with (S (length a)) in IH by (rewrite app_length; cbn; lia).
      destruct IH as [(a1 & t1 & r & v & -> & H1 & H2 & H3)|[H1 H2]].
      - left. exists (c :: a1), t1, r, v. rewrite <- app_assoc in H3. repeat split; [exact H1| |exact H3].
        intros x y Hxy Hy. destruct x as [|x0 x]; [cbn in Hxy; subst y; exact Hc|]. injection Hxy as <- ->. apply (H2 x y); [reflexivity|exact Hy].
      - right. split; [|exact H2]. intros [|c' a1] t1 H; [cbn in H; subst; exact Hc|]. injection H as <- ->. apply (H1 a1). reflexivity. }
    destruct (HT (c :: t)) as [E|[(q & E)|(r & v & E)]]; rewrite E; [apply HR; eauto|apply HR; eauto|].
    left. exists [], (c :: t), r, v. rewrite app_nil_r. repeat split; [exact E|]. intros [|? ?] y H Hy; [cbn in H; congruence|discriminate].
Qed.
(** REFUTED for slices: where no match exists the macro panics (the indices it tries
    have no end). *)
Theorem C58_bytes_refuted : ttm_bytes (tag (lit "x")) (lit "abc") = Panic.
Proof. reflexivity. Qed.
(** What holds for slices, for every child that itself returns: the earliest match,
    the end of the input included, or else the panic; never an error. *)
Theorem C58_bytes_partial : forall A (p : list N -> res A) s, Total p ->
  (forall r a v, ttm_bytes p s = Ok r (a, v) <->
     exists t, s = a ++ t /\ p t = Ok r v /\ forall x y, a = x ++ y -> y <> [] -> p (y ++ t) = Err \/ (exists q, p (y ++ t) = Fail q)) /\
  (ttm_bytes p s = Panic <-> forall a t, s = a ++ t -> p t = Err \/ (exists q, p t = Fail q)) /\
  ttm_bytes p s <> Err /\ (forall q, ttm_bytes p s <> Fail q) /\ ttm_bytes p s <> OutOfFuel.
Proof.
  intros A p s HT. pose proof (ttm_bytes_outcome A p s [] (S (S (length s))) HT ltac:(lia)) as H. cbn [app length] in H. fold (ttm_bytes p s) in H.
  destruct H as [(a1 & t1 & r1 & v1 & Hs & H1 & H2 & H3)|[H1 H2]].
  - rewrite H3. split; [|split; [|split; [|split]; discriminate]].
    + intros r a v. split; [intros [= <- <- <-]; exists t1; auto|]. intros (t & Hs' & Ht & Hf). subst s.
      (* the two splits are the same *)
      assert (Ha : a1 = a).
      { apply app_eq_app in Hs' as (l & [[E1 E2]|[E1 E2]]).
        - destruct l as [|y l]; [rewrite app_nil_r in E1; congruence|]. exfalso. subst t.
          destruct (H2 a (y :: l) E1 ltac:(discriminate)) as [E|(? & E)]; congruence.
        - destruct l as [|y l]; [rewrite app_nil_r in E1; congruence|]. exfalso. subst t1.
          destruct (Hf a1 (y :: l) E1 ltac:(discriminate)) as [E|(? & E)]; congruence. }
      subst a. apply app_inv_head in Hs'. subst t. congruence.
    + split; [discriminate|]. intros H. destruct (H _ _ Hs) as [E|(? & E)]; congruence.
  - rewrite H2. split; [|split; [|split; [|split]; discriminate]].
    + intros r a v. split; [discriminate|]. intros (t & -> & Ht & _). destruct (H1 a t eq_refl) as [E|(? & E)]; congruence.
    + split; [intros _; exact H1|reflexivity].
Qed.
Example C58_bytes_case : ttm_bytes (tag (lit "b")) (lit "abc") = Ok (lit "c") (lit "a", lit "b") /\ Total (tag (lit "b")).
Proof.
  split; [reflexivity|]. intros x. destruct (simple_tag (lit "b") x) as [(r & v & E)|E]; rewrite E; eauto.
Qed.
Print Assumptions C58_safe_indices.
Print Assumptions C58_safe_indices_increasing.
Print Assumptions C58_loop.
Print Assumptions C58_end_refuted.
Print Assumptions C58_bytes_refuted.
Print Assumptions C58_bytes_partial.
