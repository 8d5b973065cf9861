(** * DebugProofs: the text of a value determines it *)
From Coq Require Import ZArith SpecFloat.
From Verif Require Import Base NomFacts NumConv NumSpec NumProofs Kvp Value ReachSpec Debug DebugSpec.
Close Scope Z_scope.
Open Scope N_scope.
Open Scope list_scope.

(** Line ends and indentation taken out *)
Fixpoint flat (b : bool) (s : str) : str :=
  match s with
  | [] => []
  | c :: s' => if c =? 10 then flat true s' else if (c =? 32) && b then flat true s' else c :: flat false s'
  end.
Lemma flat_pad : forall s b p r, (p = true -> b = true) -> flat b (pad p s ++ r) = flat b (s ++ r).
Proof.
  induction s as [|c s IH]; intros b p r H; [reflexivity|]. cbn [pad]. rewrite <- app_assoc.
  assert (E : flat b ((c :: pad (c =? 10) s) ++ r) = flat b ((c :: s) ++ r)).
  { cbn [app flat]. destruct (c =? 10) eqn:E; [apply IH; reflexivity|]. destruct ((c =? 32) && b) eqn:E2; [apply IH; discriminate|]. f_equal. apply IH. discriminate. }
  destruct p; [|exact E]. rewrite (H eq_refl) in *. exact E.
Qed.
Definition NoLf (t : str) := ~ In 10 t.
Lemma flat_nolf t : NoLf t -> forall r, flat false (t ++ r) = t ++ flat false r.
Proof.
  induction t as [|c t IH]; intros H r; [reflexivity|]. cbn [app flat]. destruct (N.eqb_spec c 10) as [->|_]; [destruct H; left; reflexivity|].
  rewrite andb_false_r. f_equal. apply IH. intros Hi. apply H. right. exact Hi.
Qed.
Definition Flat (d c : str) : Prop := forall b r, flat b (d ++ r) = c ++ flat false r.
Lemma Flat_token c t : c <> 32 -> NoLf (c :: t) -> Flat (c :: t) (c :: t).
Proof.
  intros Hc H b r. cbn [app flat]. destruct (N.eqb_spec c 10) as [->|_]; [destruct H; left; reflexivity|].
  destruct (N.eqb_spec c 32) as [->|_]; [congruence|]. cbn [andb]. f_equal. apply flat_nolf. intros Hi. apply H. right. exact Hi.
Qed.
Definition cfields (l : list str) : str := flat_map (fun f => f ++ [44]) l.
Definition ctuple (name : str) (fields : list str) : str := name ++ [40] ++ cfields fields ++ [41].
Definition clist (l : list str) : str := [91] ++ cfields l ++ [93].
Definition cmap (l : list (str * str)) : str := [123] ++ cfields (map (fun kv => fst kv ++ [58; 32] ++ snd kv) l) ++ [125].
Lemma flat_fields ds cs : Forall2 Flat ds cs -> forall r,
  flat true (flat_map (fun f => pad true (f ++ lit "," ++ [10])) ds ++ r) = cfields cs ++ flat true r.
Proof.
  induction 1 as [|d c ds cs H _ IH]; intros r; [reflexivity|]. cbn [flat_map cfields]. rewrite <- !app_assoc, flat_pad by auto. rewrite <- app_assoc, H.
  cbn. f_equal. f_equal. apply IH.
Qed.
Lemma flat_entries (ds cs : list (str * str)) : Forall2 (fun d c => Flat (fst d) (fst c) /\ Flat (snd d) (snd c)) ds cs -> forall r,
  flat true (flat_map (fun kv => pad true (fst kv ++ lit ": " ++ snd kv ++ lit "," ++ [10])) ds ++ r) =
  cfields (map (fun kv => fst kv ++ [58; 32] ++ snd kv) cs) ++ flat true r.
Proof.
  induction 1 as [|d c ds cs [H1 H2] _ IH]; intros r; [reflexivity|]. cbn [flat_map map cfields]. rewrite <- !app_assoc, flat_pad by auto. rewrite <- !app_assoc, H1.
  cbn. rewrite <- ?app_assoc, H2. cbn. rewrite <- ?app_assoc. cbn. do 5 f_equal. apply IH.
Qed.
Lemma Flat_tuple name ds cs : NoLf name -> (forall n, name = 32 :: n -> False) -> Forall2 Flat ds cs -> Flat (debug_tuple name ds) (ctuple name cs).
Proof.
  intros Hn Hs H b r. unfold debug_tuple, ctuple. rewrite <- !app_assoc.
  assert (T : Flat (name ++ [40]) (name ++ [40])).
  { destruct name as [|c n]; [apply Flat_token; [discriminate|intros [E|[]]; discriminate]|]. cbn [app]. apply Flat_token; [intros ->; eapply Hs; reflexivity|].
    intros Hi. cbn in Hi. apply (in_app_iff (c :: n) [40]) in Hi as [Hi|[E|[]]]; [exact (Hn Hi)|discriminate]. }
  specialize (T b). change (lit "(") with [40]. rewrite app_assoc, T, <- !app_assoc. do 2 f_equal. cbn [flat app]. cbn. rewrite (flat_fields _ _ H). reflexivity.
Qed.
Lemma Flat_list ds cs : Forall2 Flat ds cs -> Flat (debug_list ds) (clist cs).
Proof.
  intros H b r. unfold debug_list, clist. rewrite <- !app_assoc. cbn [lit app]. cbn. destruct H as [|d c ds cs Hd H].
  - cbn. destruct b; reflexivity.
  - f_equal. cbn [app flat]. cbn [N.eqb]. assert (HF : Forall2 Flat (d :: ds) (c :: cs)) by (constructor; assumption).
    change (flat true (flat_map (fun f => pad true (f ++ lit "," ++ [10])) (d :: ds) ++ [93] ++ r) = cfields (c :: cs) ++ [93] ++ flat false r).
    rewrite (flat_fields _ _ HF). reflexivity.
Qed.
Lemma Flat_map (ds cs : list (str * str)) : Forall2 (fun d c => Flat (fst d) (fst c) /\ Flat (snd d) (snd c)) ds cs -> Flat (debug_map ds) (cmap cs).
Proof.
  intros H b r. unfold debug_map, cmap. rewrite <- !app_assoc. cbn [lit app]. cbn. destruct H as [|d c ds cs Hd H].
  - cbn. destruct b; reflexivity.
  - f_equal. assert (HF : Forall2 (fun d c : str * str => Flat (fst d) (fst c) /\ Flat (snd d) (snd c)) (d :: ds) (c :: cs)) by (constructor; assumption).
    change (flat true (flat_map (fun kv => pad true (fst kv ++ lit ": " ++ snd kv ++ lit "," ++ [10])) (d :: ds) ++ [125] ++ r) =
      cfields (map (fun kv => fst kv ++ [58; 32] ++ snd kv) (c :: cs)) ++ [125] ++ flat false r).
    rewrite (flat_entries _ _ HF). reflexivity.
Qed.

(** ** Hexadecimal digits *)
Definition hex_value (d : N) : N := if d <? 58 then d - 48 else d - 87.
Definition hex_num (s : str) : N := fold_left (fun a d => 16 * a + hex_value d) s 0.
Lemma hex_digit_value n : n < 16 -> hex_value (hex_digit n) = n.
Proof. intros H. unfold hex_value, hex_digit. destruct (N.ltb_spec n 10) as [L|L]; [destruct (N.ltb_spec (48 + n) 58)|destruct (N.ltb_spec (87 + n) 58)]; lia. Qed.
Lemma hex_loop_value fuel : forall n acc, (n < 2 ^ N.of_nat fuel) -> n <> 0 \/ fuel <> O -> exists d, hex_loop fuel n acc = d ++ acc /\ hex_num d = n /\ d <> [] /\ forall c, In c d -> (48 <= c <= 57) \/ (97 <= c <= 102).
Proof.
  induction fuel as [|f IH]; intros n acc Hn Hz.
  - cbn in Hn. destruct Hz as [Hz|Hz]; [lia|congruence].
  - cbn [hex_loop]. assert (Hm : n mod 16 < 16) by (apply N.mod_upper_bound; lia).
    assert (HD : (48 <= hex_digit (n mod 16) <= 57) \/ (97 <= hex_digit (n mod 16) <= 102)) by (unfold hex_digit; destruct (N.ltb_spec (n mod 16) 10); lia).
    assert (Hdiv := N.div_mod n 16 ltac:(discriminate)). destruct (N.eqb_spec (n / 16) 0) as [E|E].
    + exists [hex_digit (n mod 16)]. split; [reflexivity|]. split; [|split; [discriminate|intros c [<-|[]]; exact HD]]. unfold hex_num. cbn [fold_left]. rewrite hex_digit_value by exact Hm. lia.
    + destruct (IH (n / 16) (hex_digit (n mod 16) :: acc)) as (d & Ed & Hv & Hne & Hc); [|left; exact E|].
      * apply N.div_lt_upper_bound; [lia|]. rewrite Nat2N.inj_succ, N.pow_succ_r' in Hn. lia.
      * exists (d ++ [hex_digit (n mod 16)]). rewrite Ed, <- app_assoc. split; [reflexivity|]. split.
        -- unfold hex_num in *. rewrite fold_left_app, Hv. cbn [fold_left]. rewrite hex_digit_value by exact Hm. lia.
        -- split; [destruct d; discriminate|]. intros c Hi. apply in_app_iff in Hi as [Hi|[<-|[]]]; [apply Hc, Hi|exact HD].
Qed.
Lemma size_bound n : n < 2 ^ N.of_nat (S (N.size_nat n)).
Proof.
  rewrite Nat2N.inj_succ, N.pow_succ_r'. destruct n as [|p]; [cbn; lia|]. cbn [N.size_nat]. assert (H := N.size_gt (Npos p)).
  assert (E : N.of_nat (Pos.size_nat p) = N.size (N.pos p)). { cbn [N.size]. clear. induction p as [p IH|p IH|]; cbn [Pos.size_nat Pos.size]; [| |reflexivity]; rewrite Nat2N.inj_succ, IH; cbn; reflexivity. }
  rewrite E. lia.
Qed.
Lemma hex_str_value n : hex_num (hex_str n) = n /\ hex_str n <> [] /\ forall c, In c (hex_str n) -> (48 <= c <= 57) \/ (97 <= c <= 102).
Proof.
  destruct (hex_loop_value (S (N.size_nat n)) n [] (size_bound n)) as (d & E & H); [right; discriminate|]. unfold hex_str. rewrite E, app_nil_r. exact H.
Qed.

(** Two texts up to a character that is in neither *)
Lemma split_unique (q : N) t t' r r' : ~ In q t -> ~ In q t' -> t ++ q :: r = t' ++ q :: r' -> t = t' /\ r = r'.
Proof.
  revert t'. induction t as [|c t IH]; intros [|c' t'] H H' E; cbn in E.
  - injection E as ->. auto.
  - injection E as -> ->. destruct H'. left. reflexivity.
  - injection E as -> _. destruct H. left. reflexivity.
  - injection E as -> E. destruct (IH t') as [-> ->]; [intros Hi; apply H; right; exact Hi|intros Hi; apply H'; right; exact Hi|exact E|auto].
Qed.

Section WithStd.
Context (printable short : N -> bool) (show_float : spec_float -> str).
Let esc := escape_debug printable short.
(** ** Strings *)
Inductive Esc : N -> str -> Prop :=
| Esc_letter c x : In (c, x) [(9, 116); (13, 114); (10, 110); (34, 34); (92, 92); (39, 39); (0, 48)] -> Esc c [92; x]
| Esc_plain c : c <> 9 -> c <> 13 -> c <> 10 -> c <> 34 -> c <> 92 -> Esc c [c]
| Esc_hex c : Esc c ([92; 117; 123] ++ hex_str c ++ [125]).
Lemma esc_spec c : Esc c (esc c).
Proof.
  unfold esc, escape_debug. destruct (N.eqb_spec c 9) as [->|H1]; [apply Esc_letter; cbn; auto|]. destruct (N.eqb_spec c 13) as [->|H2]; [apply Esc_letter; cbn; auto|].
  destruct (N.eqb_spec c 10) as [->|H3]; [apply Esc_letter; cbn; auto|]. destruct (N.eqb_spec c 34) as [->|H4]; [apply Esc_letter; cbn; tauto|].
  destruct (N.eqb_spec c 92) as [->|H5]; [apply Esc_letter; cbn; tauto|].
  destruct ((c =? 39) && short c) eqn:E6; [apply andb_true_iff in E6 as [E6 _]; apply N.eqb_eq in E6 as ->; apply Esc_letter; cbn; tauto|].
  destruct ((c =? 0) && short c) eqn:E7; [apply andb_true_iff in E7 as [E7 _]; apply N.eqb_eq in E7 as ->; apply Esc_letter; cbn; tauto|]. destruct (printable c); [apply Esc_plain; assumption|]. apply Esc_hex.
Qed.
Lemma letter_inj c x c' x' : In (c, x) [(9, 116); (13, 114); (10, 110); (34, 34); (92, 92); (39, 39); (0, 48)] -> In (c', x') [(9, 116); (13, 114); (10, 110); (34, 34); (92, 92); (39, 39); (0, 48)] -> x = x' -> c = c'.
Proof. cbn. intros H H' ->. repeat (destruct H as [H|H]; [repeat (destruct H' as [H'|H']; [congruence|]); destruct H'|]). destruct H. Qed.
Lemma letter_not_u c : ~ In (c, 117) [(9, 116); (13, 114); (10, 110); (34, 34); (92, 92); (39, 39); (0, 48)].
Proof. cbn. intros H. repeat (destruct H as [H|H]; [discriminate H|]). exact H. Qed.
Lemma Esc_unique c d c' d' : Esc c d -> Esc c' d' -> forall r r', d ++ r = d' ++ r' -> c = c' /\ r = r'.
Proof.
  intros [c0 x Hx|c0 H1 H2 H3 H4 H5|c0] [c1 x' Hx'|c1 H1' H2' H3' H4' H5'|c1] r r' E; cbn [app] in E.
  - injection E as Ex ->. split; [eapply letter_inj; eassumption|reflexivity].
  - injection E as Ex _. congruence.
  - injection E as Ex _. subst x. destruct (letter_not_u _ Hx).
  - injection E as Ex _. congruence.
  - injection E as -> ->. auto.
  - injection E as Ex _. congruence.
  - injection E as Ex _. subst x'. destruct (letter_not_u _ Hx').
  - injection E as Ex _. congruence.
  - injection E as E. rewrite <- !app_assoc in E. destruct (hex_str_value c0) as (V & _ & Hc). destruct (hex_str_value c1) as (V' & _ & Hc').
    apply split_unique in E as [E ->]; [split; [congruence|reflexivity]| |]; intros Hi; [apply Hc in Hi|apply Hc' in Hi]; lia.
Qed.
Lemma Esc_not_quote c d r r' : Esc c d -> d ++ r = 34 :: r' -> False.
Proof. intros [c0 x Hx|c0 H1 H2 H3 H4 H5|c0] E; cbn [app] in E; injection E as E _; congruence. Qed.
Lemma str_unique s : forall s' r r', flat_map esc s ++ 34 :: r = flat_map esc s' ++ 34 :: r' -> s = s' /\ r = r'.
Proof.
  induction s as [|c s IH]; intros [|c' s'] r r' E; cbn [flat_map app] in E; rewrite <- ?app_assoc in E.
  - injection E as ->. auto.
  - symmetry in E. destruct (Esc_not_quote _ _ _ _ (esc_spec c') E).
  - destruct (Esc_not_quote _ _ _ _ (esc_spec c) E).
  - destruct (Esc_unique _ _ _ _ (esc_spec c) (esc_spec c') _ _ E) as [-> E']. destruct (IH _ _ _ E') as [-> ->]. auto.
Qed.
Let dstr := debug_str printable short.
Lemma dstr_unique s s' r r' : dstr s ++ r = dstr s' ++ r' -> s = s' /\ r = r'.
Proof. unfold dstr, debug_str. rewrite <- !app_assoc. cbn [app]. intros E. injection E as E. apply str_unique, E. Qed.
Lemma dstr_nolf s : NoLf (dstr s).
Proof.
  unfold NoLf, dstr, debug_str. intros H. apply in_app_iff in H as [[H|[]]|H]; [discriminate|]. apply in_app_iff in H as [H|[H|[]]]; [|discriminate].
  apply in_flat_map in H as (c & _ & H). pose proof (esc_spec c) as He. unfold esc in He. destruct He as [c0 x Hx|c0 H1 H2 H3 H4 H5|c0].
  - cbn in H. destruct H as [H|[H|H]]; [discriminate| |exact H]. subst x. cbn in Hx. repeat (destruct Hx as [Hx|Hx]; [discriminate Hx|]). exact Hx.
  - cbn in H. destruct H as [H|H]; [congruence|exact H].
  - apply in_app_iff in H as [H|H]; [cbn in H; repeat (destruct H as [H|H]; [discriminate H|]); exact H|]. apply in_app_iff in H as [H|[H|[]]]; [|discriminate].
    apply (proj2 (proj2 (hex_str_value c0))) in H. lia.
Qed.
Lemma Flat_str s : Flat (dstr s) (dstr s).
Proof. apply Flat_token; [discriminate|apply dstr_nolf]. Qed.

(** ** Values *)
Definition ckey (k : key) : str :=
  match k with KeyIdent s => ctuple (lit "Identifier") [dstr s] | KeyString s => ctuple (lit "String") [dstr s] end.
Definition ckvp {K V} (dk : K -> str) (dv : V -> str) (p : kvp K V) : str :=
  match p with
  | Merged m => ctuple (lit "Merged") [cmap (map (fun kv => (dk (fst kv), dv (snd kv))) m)]
  | Unmerged l => ctuple (lit "Unmerged") [clist (map (fun kv => ctuple [] [dk (fst kv); dv (snd kv)]) l)]
  end.
Definition clabels (ls : list str) : str := clist (map dstr ls).
Fixpoint cvalue (v : value) : str :=
  match v with
  | VNull => lit "Null"
  | VInteger i => ctuple (lit "Integer") [int_to_string i]
  | VFloat f => ctuple (lit "Float") [show_float f]
  | VBoolean b => ctuple (lit "Boolean") [lit (if b then "true" else "false")]
  | VString s => ctuple (lit "String") [dstr s]
  | VList l => ctuple (lit "List") [clist (map cvalue l)]
  | VObject l => ctuple (lit "Object") [clist (map (ckvp ckey cvalue) l)]
  | VBlock b => ctuple (lit "Block") [ckvp clabels (ckvp ckey cvalue) b]
  end.
Ltac name := (let H := fresh in intros H; cbn in H; repeat (destruct H as [H|H]; [discriminate H|]); exact H).
Ltac name2 := (intros ? E; discriminate E).
Lemma one_field d c : Flat d c -> Forall2 Flat [d] [c].
Proof. repeat constructor; assumption. Qed.
Lemma Flat_key k : Flat (debug_key printable short k) (ckey k).
Proof. destruct k as [s|s]; cbn [debug_key ckey]; (apply Flat_tuple; [name|name2|apply one_field, Flat_str]). Qed.
Lemma F2_map {A B C} (R : B -> C -> Prop) (f : A -> B) (g : A -> C) l : Forall (fun x => R (f x) (g x)) l -> Forall2 R (map f l) (map g l).
Proof. induction 1; constructor; assumption. Qed.
Lemma Flat_kvp {K V} (dk ck : K -> str) (dv cv : V -> str) p : (forall k, Flat (dk k) (ck k)) -> Forall (fun kv => Flat (dv (snd kv)) (cv (snd kv))) (entries p) ->
  Flat (debug_kvp dk dv p) (ckvp ck cv p).
Proof.
  intros Hk HF. destruct p as [m|l]; cbn [debug_kvp ckvp entries] in *; (apply Flat_tuple; [name|name2|apply one_field]).
  - apply Flat_map, F2_map. eapply Forall_impl; [|exact HF]. intros kv H. cbn. auto.
  - apply Flat_list, F2_map. eapply Forall_impl; [|exact HF]. intros kv H. cbn beta in *. apply Flat_tuple; [intros []|name2|]. repeat constructor; auto.
Qed.
Lemma int_chars z c : In c (int_to_string z) -> c = 45 \/ 48 <= c <= 57.
Proof.
  unfold int_to_string, dec_str.
  assert (K : forall fuel n acc, (forall c, In c acc -> 48 <= c <= 57) -> forall c, In c (dec_loop fuel n acc) -> 48 <= c <= 57).
  { induction fuel as [|f IH]; intros n acc Ha d; cbn [dec_loop]; [apply Ha|].
    assert (Hm : n mod 10 < 10) by (apply N.mod_upper_bound; lia).
    assert (Ha' : forall e, In e ((48 + n mod 10) :: acc) -> 48 <= e <= 57) by (intros e [<-|He]; [lia|apply Ha, He]).
    destruct (n / 10 =? 0); [apply Ha'|]. apply IH, Ha'. }
  destruct (z <? 0)%Z; [intros [<-|H]; [auto|]|intros H]; right; eapply K; try exact H; intros ? [].
Qed.
Lemma int_nonempty z : int_to_string z <> [].
Proof.
  unfold int_to_string. destruct (z <? 0)%Z; [discriminate|]. unfold dec_str. cbn [dec_loop].
  assert (K : forall fuel n acc, acc <> [] -> dec_loop fuel n acc <> []) by (induction fuel as [|f IH]; intros n acc Ha; cbn [dec_loop]; [exact Ha|]; destruct (n / 10 =? 0); [discriminate|apply IH; discriminate]).
  destruct (_ =? 0); [discriminate|apply K; discriminate].
Qed.
Lemma int_inj z z' : int_to_string z = int_to_string z' -> z = z'.
Proof. intros E. pose proof (int_to_string_text z) as H. rewrite E in H. eapply IntegerText_unique; [exact H|apply int_to_string_text]. Qed.
Lemma Flat_plain t : t <> [] -> (forall c, In c t -> c <> 10 /\ c <> 32) -> Flat t t.
Proof. intros Hn H. destruct t as [|c t]; [congruence|]. apply Flat_token; [apply H; left; reflexivity|]. intros Hi. apply H in Hi. tauto. Qed.

Context (HS : GoodFloatTexts show_float).
Notation Ok := (FloatsIn (NotNaN 53 1024)).
Notation OkMap := (FloatsInMap (NotNaN 53 1024)).
Let dval := debug_value printable short show_float.
Lemma Flat_values : (forall v, Ok v -> Flat (dval v) (cvalue v)) /\ (forall p, OkMap p -> Flat (debug_mapvalues printable short show_float p) (ckvp ckey cvalue p)).
Proof.
  apply value_map_ind.
  - intros _. apply Flat_token; [discriminate|name].
  - intros i _. apply Flat_tuple; [name|name2|]. apply one_field, Flat_plain; [apply int_nonempty|]. intros c H. apply int_chars in H. lia.
  - intros f H. inversion H as [| |f' Hf| | | | |]; subst. apply Flat_tuple; [name|name2|]. apply one_field, Flat_plain; [apply HS, Hf|]. intros c Hc. apply (proj2 HS) in Hf as [_ Hf]. apply Hf in Hc. tauto.
  - intros b _. apply Flat_tuple; [name|name2|]. apply one_field. destruct b; (apply Flat_token; [discriminate|name]).
  - intros s _. apply Flat_tuple; [name|name2|]. apply one_field, Flat_str.
  - intros l IH H. inversion H as [| | | | |l' HF| |]; subst. apply Flat_tuple; [name|name2|]. apply one_field, Flat_list, F2_map. rewrite Forall_forall in *. intros x Hx. apply (IH x Hx (HF x Hx)).
  - intros l IH H. inversion H as [| | | | | |l' HF|]; subst. apply Flat_tuple; [name|name2|]. apply one_field, Flat_list, F2_map. rewrite Forall_forall in *. intros x Hx. apply (IH x Hx (HF x Hx)).
  - intros b IH H. inversion H as [| | | | | | |b' HF]; subst. apply Flat_tuple; [name|name2|]. apply one_field, Flat_kvp.
    + intros ls. apply Flat_list, F2_map, Forall_forall. intros s _. apply Flat_str.
    + rewrite Forall_forall in *. intros x Hx. apply (IH x Hx (HF x Hx)).
  - intros p IH H. inversion H as [p' HF]; subst. apply Flat_kvp; [apply Flat_key|]. rewrite Forall_forall in *. intros x Hx. apply (IH x Hx (HF x Hx)).
Qed.

(** ** Reading back *)
Lemma fields_unique {A} (q : N) (c : A -> str) (D : A -> Prop) l : (forall x, exists h t, c x = h :: t /\ h <> q) ->
  Forall (fun x => forall y r r', D x -> D y -> c x ++ r = c y ++ r' -> x = y /\ r = r') l ->
  forall l' r r', Forall D l -> Forall D l' -> cfields (map c l) ++ q :: r = cfields (map c l') ++ q :: r' -> l = l' /\ r = r'.
Proof.
  intros Hc H. induction H as [|x l Hx _ IH]; intros [|x' l'] r r' HD HD' E; cbn [map cfields flat_map app] in E; rewrite <- ?app_assoc in E.
  - injection E as ->. auto.
  - destruct (Hc x') as (h & t & Ex & Hq). rewrite Ex in E. cbn in E. injection E as E _. congruence.
  - destruct (Hc x) as (h & t & Ex & Hq). rewrite Ex in E. cbn in E. injection E as E _. congruence.
  - inversion HD; inversion HD'; subst. destruct (Hx x' _ _ ltac:(assumption) ltac:(assumption) E) as [-> E']. cbn [app] in E'. injection E' as E'.
    destruct (IH l' r r' ltac:(assumption) ltac:(assumption) E') as [-> ->]. auto.
Qed.
Lemma clist_unique {A} (c : A -> str) (D : A -> Prop) l : (forall x, exists h t, c x = h :: t /\ h <> 93) ->
  Forall (fun x => forall y r r', D x -> D y -> c x ++ r = c y ++ r' -> x = y /\ r = r') l ->
  forall l' r r', Forall D l -> Forall D l' -> clist (map c l) ++ r = clist (map c l') ++ r' -> l = l' /\ r = r'.
Proof.
  intros Hc H l' r r' HD HD' E. unfold clist in E. rewrite <- !app_assoc in E. cbn [app] in E. injection E as E. exact (fields_unique 93 c D l Hc H l' r r' HD HD' E).
Qed.
Lemma ctuple_one name t t' r r' : ctuple name [t] ++ r = ctuple name [t'] ++ r' -> t ++ 44 :: 41 :: r = t' ++ 44 :: 41 :: r'.
Proof. unfold ctuple. cbn [cfields flat_map]. rewrite <- !app_assoc. intros E. apply app_inv_head in E. cbn [app] in E. injection E as E. rewrite <- ?app_assoc in E. cbn [app] in E. exact E. Qed.
Lemma close_eq (t t' : str) r r' : t = t' /\ 44 :: 41 :: r = 44 :: 41 :: r' -> t = t' /\ r = r'.
Proof. intros [H E]. injection E as ->. auto. Qed.
Lemma dstr_head s : exists h t, dstr s = h :: t /\ h <> 93.
Proof. eexists _, _. split; [reflexivity|discriminate]. Qed.
Lemma clabels_unique ls ls' r r' : clabels ls ++ r = clabels ls' ++ r' -> ls = ls' /\ r = r'.
Proof.
  apply (clist_unique dstr (fun _ => True)); [apply dstr_head| | |]; apply Forall_forall; auto. intros x _ y a b _ _. apply dstr_unique.
Qed.
Lemma ckey_unique k k' r r' : ckey k ++ r = ckey k' ++ r' -> k = k' /\ r = r'.
Proof.
  destruct k as [s|s], k' as [s'|s']; cbn [ckey]; intros E; try (exfalso; discriminate E); apply ctuple_one, dstr_unique in E as [-> E]; injection E as ->; auto.
Qed.
Lemma ctuple_two t1 t2 r : ctuple [] [t1; t2] ++ r = 40 :: t1 ++ 44 :: t2 ++ 44 :: 41 :: r.
Proof. unfold ctuple. cbn [cfields flat_map]. rewrite <- !app_assoc. cbn [app]. rewrite <- ?app_assoc. reflexivity. Qed.
Lemma ckvp_unique {K V} (ck : K -> str) (cv : V -> str) (D : V -> Prop) p :
  (forall k k' r r', ck k ++ r = ck k' ++ r' -> k = k' /\ r = r') -> (forall k, exists h t, ck k = h :: t /\ h <> 125) ->
  Forall (fun kv => forall y r r', D (snd kv) -> D y -> cv (snd kv) ++ r = cv y ++ r' -> snd kv = y /\ r = r') (entries p) ->
  forall p' r r', Forall (fun kv => D (snd kv)) (entries p) -> Forall (fun kv => D (snd kv)) (entries p') -> ckvp ck cv p ++ r = ckvp ck cv p' ++ r' -> p = p' /\ r = r'.
Proof.
  intros Hk Hh H p' r r' HD HD' E. destruct p as [m|l], p' as [m'|l']; cbn [ckvp entries] in *; try (exfalso; discriminate E); apply ctuple_one in E.
  - unfold cmap in E. rewrite <- !app_assoc in E. cbn [app] in E. injection E as E. rewrite !map_map in E. cbn [fst snd] in E.
    destruct (fields_unique 125 (fun kv : K * V => ck (fst kv) ++ 58 :: 32 :: cv (snd kv)) (fun kv => D (snd kv)) m) with (l' := m') (r := 44 :: 41 :: r) (r' := 44 :: 41 :: r') as [-> E'].
    + intros [k v]. cbn. destruct (Hh k) as (h & t & -> & Hq). eexists _, _. split; [reflexivity|exact Hq].
    + eapply Forall_impl; [|exact H]. intros [k v] Hv [k' v'] a b Da Db X. cbn [fst snd] in *. rewrite <- !app_assoc in X. cbn [app] in X. apply Hk in X as [-> X]. injection X as X.
      apply Hv in X as [-> ->]; auto.
    + exact HD.
    + exact HD'.
    + exact E.
    + injection E' as ->. auto.
  - destruct (clist_unique (fun kv : K * V => ctuple [] [ck (fst kv); cv (snd kv)]) (fun kv => D (snd kv)) l) with (l' := l') (r := 44 :: 41 :: r) (r' := 44 :: 41 :: r') as [-> E'].
    + intros [k v]. eexists _, _. split; [reflexivity|discriminate].
    + eapply Forall_impl; [|exact H]. intros [k v] Hv [k' v'] a b Da Db X. cbn [fst snd] in *. rewrite !ctuple_two in X. injection X as X. apply Hk in X as [-> X]. injection X as X.
      apply Hv in X as [-> X]; auto. injection X as ->. auto.
    + exact HD.
    + exact HD'.
    + exact E.
    + injection E' as ->. auto.
Qed.
Lemma ckvp_head {K V} (ck : K -> str) (cv : V -> str) p : exists h t, ckvp ck cv p = h :: t /\ h <> 93.
Proof. destruct p; eexists _, _; (split; [reflexivity|discriminate]). Qed.
Lemma cvalue_head v : exists h t, cvalue v = h :: t /\ h <> 93.
Proof. destruct v; eexists _, _; (split; [reflexivity|discriminate]). Qed.
Lemma values_unique :
  (forall v v' r r', Ok v -> Ok v' -> cvalue v ++ r = cvalue v' ++ r' -> v = v' /\ r = r') /\
  (forall p p' r r', OkMap p -> OkMap p' -> ckvp ckey cvalue p ++ r = ckvp ckey cvalue p' ++ r' -> p = p' /\ r = r').
Proof.
  apply value_map_ind.
  - intros v' r r' _ _ E. destruct v'; try (exfalso; discriminate E). apply app_inv_head in E. auto.
  - intros i v' r r' _ _ E. destruct v'; try (exfalso; discriminate E). cbn [cvalue] in E. apply ctuple_one in E.
    apply split_unique in E as [E Er]; [injection Er as ->; apply int_inj in E as ->; auto| |]; intros Hi; apply int_chars in Hi; lia.
  - intros f v' r r' H H' E. destruct v' as [| |g| | | | |]; try (exfalso; discriminate E). inversion H as [| |f' Hf| | | | |]; inversion H' as [| |g' Hg| | | | |]; subst. cbn [cvalue] in E. apply ctuple_one in E.
    apply split_unique in E as [E Er]; [injection Er as ->; apply (proj1 HS) in E as ->; auto|intros Hi; apply (proj2 HS) in Hf as [_ K]; apply K in Hi; tauto|intros Hi; apply (proj2 HS) in Hg as [_ K]; apply K in Hi; tauto].
  - intros b v' r r' _ _ E. destruct v' as [| | |b'| | | |]; try (exfalso; discriminate E). cbn [cvalue] in E. apply ctuple_one in E. destruct b, b'; try (exfalso; discriminate E); injection E as ->; auto.
  - intros s v' r r' _ _ E. destruct v' as [| | | |s'| | |]; try (exfalso; discriminate E). cbn [cvalue] in E. apply ctuple_one, dstr_unique in E as [-> E]. injection E as ->. auto.
  - intros l IH v' r r' H H' E. destruct v' as [| | | | |l'| |]; try (exfalso; discriminate E). inversion H; inversion H'; subst. cbn [cvalue] in E. apply ctuple_one in E.
    destruct (clist_unique cvalue Ok l) with (l' := l') (r := 44 :: 41 :: r) (r' := 44 :: 41 :: r') as [-> E']; try assumption; [apply cvalue_head|injection E' as ->; auto].
  - intros l IH v' r r' H H' E. destruct v' as [| | | | | |l'|]; try (exfalso; discriminate E). inversion H; inversion H'; subst. cbn [cvalue] in E. apply ctuple_one in E.
    destruct (clist_unique (ckvp ckey cvalue) OkMap l) with (l' := l') (r := 44 :: 41 :: r) (r' := 44 :: 41 :: r') as [-> E']; try assumption; [apply ckvp_head|injection E' as ->; auto].
  - intros b IH v' r r' H H' E. destruct v' as [| | | | | | |b']; try (exfalso; discriminate E). inversion H; inversion H'; subst. cbn [cvalue] in E. apply ctuple_one in E.
    destruct (ckvp_unique clabels (ckvp ckey cvalue) OkMap b) with (p' := b') (r := 44 :: 41 :: r) (r' := 44 :: 41 :: r') as [-> E']; try assumption; [apply clabels_unique|intros ls; eexists _, _; split; [reflexivity|discriminate]|injection E' as ->; auto].
  - intros p IH p' r r' H H' E. inversion H; inversion H'; subst.
    apply (ckvp_unique ckey cvalue Ok p) with (r := r) (r' := r') in E; try assumption; [apply ckey_unique|intros [k|k]; eexists _, _; (split; [reflexivity|discriminate])].
Qed.
Theorem debug_value_inj v v' : Ok v -> Ok v' -> dval v = dval v' -> v = v'.
Proof.
  intros H H' E. pose proof (proj1 Flat_values v H false []) as F. pose proof (proj1 Flat_values v' H' false []) as F'. rewrite E in F. rewrite F in F'. apply (proj1 values_unique) in F'; tauto.
Qed.
Theorem debug_mapvalues_inj p p' : OkMap p -> OkMap p' -> debug_mapvalues printable short show_float p = debug_mapvalues printable short show_float p' -> p = p'.
Proof.
  intros H H' E. pose proof (proj2 Flat_values p H false []) as F. pose proof (proj2 Flat_values p' H' false []) as F'. rewrite E in F. rewrite F in F'. apply (proj2 values_unique) in F'; tauto.
Qed.
End WithStd.
