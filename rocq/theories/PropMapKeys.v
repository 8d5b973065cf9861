(** * Property theorems: the key types of map targets (C94) *)
From Coq Require Import ZArith.
From Verif Require Import Base Ast Grammar Blocks NumConv Parser Serde SerdeSpec SerdeProofs PropSerde.
Close Scope Z_scope.

(** C94: whatever is being read, a map with [String] keys is the reference.  With [char]
    keys the same map is got if every key is one character, and nothing otherwise; with
    borrowed keys only the empty map can be got, since keys are always handed over as
    copies. *)
Lemma map_all_other rec t l : forall k,
  match map_all rec KTString t l with
  | DeOk es => map_all rec k t l = if forallb (fun e => key_ok k (Owned (fst e))) es then DeOk es else DeErr (ECustom (match k with KTStr => CInvalidType | _ => CInvalidValue end))
  | _ => forall es, map_all rec k t l <> DeOk es
  end.
Proof.
  intros k. induction l as [|[c s|e|] l IH]; cbn; try discriminate; [reflexivity|].
  assert (Ek : key_ok k c = key_ok k (Owned (cow_str c))) by (destruct k; reflexivity).
  destruct (rec t s) as [d|e| |]; cbn; try (destruct (key_ok k c); discriminate).
  destruct (map_all rec KTString t l) as [es|e| |]; cbn; rewrite Ek.
  - rewrite IH. destruct (key_ok k (Owned (cow_str c))); [|reflexivity]. cbn. destruct (forallb _ es); reflexivity.
  - intros es. destruct (key_ok k _); [|discriminate]. destruct (map_all rec k t l) as [es'| | |]; cbn; try discriminate. elim (IH es' eq_refl).
  - intros es. destruct (key_ok k _); [|discriminate]. destruct (map_all rec k t l) as [es'| | |]; cbn; try discriminate. elim (IH es' eq_refl).
  - intros es. destruct (key_ok k _); [|discriminate]. destruct (map_all rec k t l) as [es'| | |]; cbn; try discriminate. elim (IH es' eq_refl).
Qed.
Lemma map_key_cases ord : Order ord -> forall k t s,
  (exists es, deserialize ord (TMap KTString t) s = DeOk (DMap es) /\
     deserialize ord (TMap k t) s = if forallb (fun e => key_ok k (Owned (fst e))) es then DeOk (DMap es) else DeErr (ECustom (match k with KTStr => CInvalidType | _ => CInvalidValue end))) \/
  ((forall d, deserialize ord (TMap KTString t) s <> DeOk d) /\ forall d, deserialize ord (TMap k t) s <> DeOk d).
Proof.
  intros Ho k t s. rewrite !deserialize_eq by exact Ho. cbn [method_of].
  destruct (call ord s _) as [ | | | | | | | | | |l| | ]; cbn [visit]; try (right; split; discriminate).
  pose proof (map_all_other (deserialize ord) t l k) as H. destruct (map_all (deserialize ord) KTString t l) as [es|e| |].
  - left. exists es. split; [reflexivity|]. rewrite H. destruct (forallb _ es); reflexivity.
  - right. split; [discriminate|]. intros d Hd. apply dmap_ok in Hd as (es & Hd & _). exact (H es Hd).
  - right. split; [discriminate|]. intros d Hd. apply dmap_ok in Hd as (es & Hd & _). exact (H es Hd).
  - right. split; [discriminate|]. intros d Hd. apply dmap_ok in Hd as (es & Hd & _). exact (H es Hd).
Qed.
Lemma one_char es : forallb (fun e : str * data => key_ok KTChar (Owned (fst e))) es = true <-> Forall (fun e => exists c, fst e = [c]) es.
Proof.
  rewrite forallb_forall, Forall_forall. cbn. split; intros H e He; specialize (H e He).
  - destruct (fst e) as [|c [|? ?]]; try discriminate. eauto.
  - destruct H as [c ->]. reflexivity.
Qed.
Theorem C94_char_keys : forall ord, Order ord -> forall t s d,
  deserialize ord (TMap KTChar t) s = DeOk d <->
  exists es, d = DMap es /\ deserialize ord (TMap KTString t) s = DeOk (DMap es) /\ Forall (fun e => exists c, fst e = [c]) es.
Proof.
  intros ord Ho t s d. destruct (map_key_cases ord Ho KTChar t s) as [(es & H1 & H2)|[H1 H2]].
  - rewrite H1, H2. destruct (forallb _ es) eqn:E.
    + apply one_char in E. split; [intros [= <-]; eauto|]. intros (es' & -> & [= ->] & _). reflexivity.
    + split; [discriminate|]. intros (es' & -> & [= <-] & H). apply one_char in H. congruence.
  - split; [intros H; elim (H2 _ H)|intros (es & _ & H & _); elim (H1 _ H)].
Qed.
Theorem C94_borrowed_keys : forall ord, Order ord -> forall t s d,
  deserialize ord (TMap KTStr t) s = DeOk d <-> d = DMap [] /\ deserialize ord (TMap KTString t) s = DeOk (DMap []).
Proof.
  intros ord Ho t s d. destruct (map_key_cases ord Ho KTStr t s) as [(es & H1 & H2)|[H1 H2]].
  - rewrite H1, H2. destruct es as [|e es]; cbn.
    + split; [intros [= <-]; auto|intros [-> _]; reflexivity].
    + split; [discriminate|intros [_ [=]]].
  - split; [intros H; elim (H2 _ H)|intros [_ H]; elim (H1 _ H)].
Qed.
(** and the error is then about the key *)
Theorem C94_key_errors : forall ord, Order ord -> forall t s es, deserialize ord (TMap KTString t) s = DeOk (DMap es) ->
  ((exists k d, In (k, d) es /\ forall c, k <> [c]) -> deserialize ord (TMap KTChar t) s = DeErr (ECustom CInvalidValue)) /\
  (es <> [] -> deserialize ord (TMap KTStr t) s = DeErr (ECustom CInvalidType)).
Proof.
  intros ord Ho t s es H. split.
  - intros (k & d & Hin & Hk). destruct (map_key_cases ord Ho KTChar t s) as [(es' & H1 & H2)|[H1 _]]; [|elim (H1 _ H)].
    assert (es' = es) by congruence. subst es'. rewrite H2. destruct (forallb _ es) eqn:E; [|reflexivity].
    apply one_char in E. rewrite Forall_forall in E. destruct (E _ Hin) as [c Hc]. elim (Hk c Hc).
  - intros Hne. destruct (map_key_cases ord Ho KTStr t s) as [(es' & H1 & H2)|[H1 _]]; [|elim (H1 _ H)].
    assert (es' = es) by congruence. subst es'. rewrite H2. destruct es; [congruence|reflexivity].
Qed.
Print Assumptions C94_char_keys.
Print Assumptions C94_borrowed_keys.
Print Assumptions C94_key_errors.
Example C94_nonvacuous :
  from_str ascii_ucd id_ord (TMap KTChar TBool) (lit ("a = true" ++ nl ++ "b = false" ++ nl)) = DeOk (DMap [(lit "a", DBool true); (lit "b", DBool false)]) /\
  from_str ascii_ucd id_ord (TMap KTChar TBool) (lit ("a = true" ++ nl ++ "bc = false" ++ nl)) = DeErr (ECustom CInvalidValue) /\
  from_str ascii_ucd id_ord (TMap KTStr TBool) (lit ("a = true" ++ nl)) = DeErr (ECustom CInvalidType) /\
  from_str ascii_ucd id_ord (TMap KTStr TBool) (lit nl) = DeOk (DMap []).
Proof. repeat split; vm_compute; reflexivity. Qed.
