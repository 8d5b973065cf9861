(** * DepthProofs: depth of the recursion - erasure and the bound *)
From Coq Require Import SpecFloat ZArith Lia.
From Verif Require Import Base Nom NomFacts Ast Lex Grammar WsFacts NumFacts StrFacts HeredocFacts Parser ParserFacts ExprProofs BodyProofs NumConv Utf8 Kvp Value OldParser OldFacts OldGrammar OldProofs DepthCount.
Close Scope Z_scope.
Open Scope nat_scope.

(** ** Erasure *)
Definition Erases {A} (cp : dparser A) (p : parser A) : Prop := forall s, fst (cp s) = p s.
Lemma er_flat {A} (p : parser A) : Erases (flat p) p.
Proof. intros s. reflexivity. Qed.
Lemma er_enter {A} (cp : dparser A) p : Erases cp p -> Erases (enter cp) p.
Proof. intros H s. apply H. Qed.
Lemma er_bind {A B} (x : res A * nat) (y : res A) (f : str -> A -> res B * nat) (g : str -> A -> res B) :
  fst x = y -> (forall r v, fst (f r v) = g r v) -> fst (dbind x f) = bind y g.
Proof. intros <- H. destruct x as [[r v| | | |] n]; cbn; auto. Qed.
Lemma er_alt {A} (cp cq : dparser A) p q : Erases cp p -> Erases cq q -> Erases (dalt cp cq) (alt p q).
Proof. intros Hp Hq s. unfold dalt, alt. specialize (Hp s). destruct (cp s) as [[r v| | | |] n]; cbn in *; rewrite <- Hp; auto. Qed.
Lemma er_opt {A} (cp : dparser A) p : Erases cp p -> Erases (dopt cp) (opt p).
Proof. intros Hp s. unfold dopt, opt. specialize (Hp s). destruct (cp s) as [[r v| | | |] n]; cbn in *; rewrite <- Hp; auto. Qed.
Lemma er_pmap {A B} (f : A -> B) cp p : Erases cp p -> Erases (dpmap f cp) (pmap f p).
Proof. intros Hp s. unfold dpmap, pmap. cbn. rewrite Hp. reflexivity. Qed.
Lemma er_preceded {A B} (cp : dparser A) p (cq : dparser B) q : Erases cp p -> Erases cq q -> Erases (dpreceded cp cq) (preceded p q).
Proof. intros Hp Hq s. apply er_bind; [apply Hp|intros; apply Hq]. Qed.
Lemma er_terminated {A B} (cp : dparser A) p (cq : dparser B) q : Erases cp p -> Erases cq q -> Erases (dterminated cp cq) (terminated p q).
Proof. intros Hp Hq s. apply er_bind; [apply Hp|]. intros r v. apply er_bind; [apply Hq|reflexivity]. Qed.
Lemma er_recognize {A} (cp : dparser A) p : Erases cp p -> Erases (drecognize cp) (recognize p).
Proof. intros Hp s. apply er_bind; [apply Hp|reflexivity]. Qed.
Lemma er_many0 {A} (cp : dparser A) p : Erases cp p -> Erases (dmany0 cp) (many0 p).
Proof.
  intros Hp s. unfold dmany0, many0. generalize (S (length s)) as f. intros f. revert s.
  induction f as [|f IH]; intros s; [reflexivity|]. cbn. pose proof (Hp s) as H. destruct (cp s) as [[r v| | | |] n]; cbn in H; rewrite <- H; try reflexivity.
  destruct (str_eqb r s); [reflexivity|]. cbn. rewrite IH. reflexivity.
Qed.
Lemma er_sep_loop {A B} (sep : parser B) (cp : dparser A) p : Erases cp p -> forall f s, fst (dsep_loop f sep cp s) = sep_loop f sep p s.
Proof.
  intros Hp. induction f as [|f IH]; intros s; [reflexivity|]. cbn. destruct (sep s) as [s2 w| | | |]; try reflexivity.
  destruct (length s2 =? length s); [reflexivity|]. pose proof (Hp s2) as H. destruct (cp s2) as [[r v| | | |] n]; cbn in H; rewrite <- H; try reflexivity.
  destruct (length r =? length s2); [reflexivity|]. cbn [fst]. rewrite IH. reflexivity.
Qed.
Lemma er_separated_list {A B} (sep : parser B) (cp : dparser A) p : Erases cp p -> Erases (dseparated_list sep cp) (separated_list sep p).
Proof.
  intros Hp s. unfold dseparated_list, separated_list. pose proof (Hp s) as H. destruct (cp s) as [[r v| | | |] n]; cbn in H; rewrite <- H; try reflexivity.
  destruct (length r =? length s); [reflexivity|]. cbn [fst]. rewrite (er_sep_loop sep cp p Hp). reflexivity.
Qed.
Lemma er_wrap {A} sp (cp : dparser A) p : Erases cp p -> Erases (dwrap sp cp) (wrap sp p).
Proof. intros H. apply er_preceded; [apply er_flat|exact H]. Qed.
Lemma er_iws {A} (cp : dparser A) p : Erases cp p -> Erases (dinline_whitespace_m cp) (inline_whitespace_m p).
Proof. intros H. apply er_terminated; [exact H|apply er_flat]. Qed.
Lemma er_ws {A} (cp : dparser A) p : Erases cp p -> Erases (dwhitespace_m cp) (whitespace_m p).
Proof. intros H. apply er_terminated; [exact H|apply er_flat]. Qed.
Create HintDb der.
#[local] Hint Resolve er_flat er_enter er_alt er_opt er_pmap er_preceded er_terminated er_recognize er_many0 er_separated_list er_wrap er_iws er_ws : der.
Ltac erase := repeat (apply er_bind; [first [apply er_flat|apply er_wrap; auto with der|apply er_ws; auto with der|auto with der]|intros ? ?]); try reflexivity.

Section U.
Variable U : ucd.
Lemma er_tuple ce e : Erases ce e -> Erases (dtuple ce) (tuple e).
Proof. intros H. unfold dtuple, tuple. auto 10 with der. Qed.
Lemma er_key ce e : Erases ce e -> Erases (dobject_element_identifier U ce) (object_element_identifier U e).
Proof. intros H. unfold dobject_element_identifier, object_element_identifier. auto with der. Qed.
Lemma er_element ce e : Erases ce e -> Erases (dobject_element U ce) (object_element U e).
Proof.
  intros H. apply er_iws. intros s. apply er_bind; [apply er_wrap, er_key, H|]. intros r1 k.
  apply er_bind; [reflexivity|]. intros r2 q. apply er_bind; [apply er_wrap, H|]. reflexivity.
Qed.
Lemma er_object_body ce e : Erases ce e -> Erases (dobject_body U ce) (object_body U e).
Proof. intros H. apply er_ws, er_many0, er_wrap, er_terminated; [apply er_element, H|apply er_flat]. Qed.
Lemma er_object ce e : Erases ce e -> Erases (dobject U ce) (object U e).
Proof.
  intros H s. apply er_bind; [reflexivity|]. intros r1 b. apply er_bind; [apply er_ws, er_wrap, er_object_body, H|]. intros r2 v.
  apply er_bind; reflexivity.
Qed.
Lemma er_bracket ce e : Erases ce e -> Erases (dbracket_expression ce) (bracket_expression e).
Proof.
  intros H s. apply er_bind; [reflexivity|]. intros r1 b. apply er_bind; [apply er_ws, er_wrap, H|]. intros r2 v.
  apply er_bind; reflexivity.
Qed.
Lemma er_expression_step ce e : Erases ce e -> Erases (dexpression_step U ce) (expression_step U e).
Proof.
  intros H. unfold dexpression_step, expression_step. repeat (apply er_alt; [apply er_flat|]).
  apply er_alt; [apply er_pmap, er_tuple, H|]. apply er_alt; [apply er_pmap, er_object, H|apply er_bracket, H].
Qed.
Lemma er_expression_f f : Erases (dexpression_f U f) (expression_f U f).
Proof. induction f as [|f IH]; [intros s; reflexivity|]. apply er_enter, er_expression_step, IH. Qed.
Theorem expression_erase : Erases (dexpression U) (expression U).
Proof. intros s. apply er_expression_f. Qed.
Lemma er_attribute : Erases (dattribute U) (attribute U).
Proof. apply er_iws. intros s. do 2 (apply er_bind; [reflexivity|]; intros ? ?). apply er_bind; [apply er_wrap, expression_erase|reflexivity]. Qed.
Lemma er_one_line : Erases (done_line_block U) (one_line_block U).
Proof.
  apply er_iws. intros s. do 3 (apply er_bind; [reflexivity|]; intros ? ?). apply er_bind; [apply er_wrap, er_opt, er_attribute|]. intros ? ?.
  apply er_bind; reflexivity.
Qed.
Lemma er_block cb b : Erases cb b -> Erases (dblock U cb) (block U b).
Proof.
  intros H. apply er_iws. intros s. do 4 (apply er_bind; [reflexivity|]; intros ? ?). apply er_bind; [apply er_wrap, H|]. intros ? ?.
  apply er_bind; reflexivity.
Qed.
Lemma er_body_step cb b : Erases cb b -> Erases (dbody_step U cb) (body_step U b).
Proof.
  intros H. apply er_ws, er_many0, er_wrap, er_terminated; [|apply er_flat].
  apply er_alt; [apply er_pmap, er_attribute|apply er_alt; [apply er_one_line|apply er_block, H]].
Qed.
Lemma er_body_f f : Erases (dbody_f U f) (body_f U f).
Proof. induction f as [|f IH]; [intros s; reflexivity|]. apply er_enter, er_body_step, IH. Qed.
Theorem config_file_erase : Erases (dconfig_file U) (config_file U).
Proof. apply er_terminated; [intros s; apply er_body_f|apply er_flat]. Qed.

Lemma er_map_expression cm m : Erases cm m -> Erases (dmap_expression cm) (map_expression m).
Proof.
  intros H s. apply er_bind; [reflexivity|]. intros r1 b. apply er_bind; [apply er_ws, er_wrap, H|]. intros r2 v.
  apply er_bind; reflexivity.
Qed.
Lemma er_single_value_step cv v cm m : Erases cv v -> Erases cm m -> Erases (dsingle_value_step U cv cm) (single_value_step U v m).
Proof.
  intros Hv Hm. unfold dsingle_value_step, single_value_step. repeat (apply er_alt; [apply er_flat|]).
  apply er_alt; [apply er_pmap; unfold dvlist, vlist; auto 10 with der|apply er_pmap, er_map_expression, Hm].
Qed.
Lemma er_old_attribute cv v cm m : Erases cv v -> Erases cm m -> Erases (dold_attribute U cv cm) (old_attribute U v m).
Proof.
  intros Hv Hm. apply er_iws, er_alt; [|apply er_alt]; intros s; (apply er_bind; [reflexivity|]; intros ? ?); (apply er_bind; [reflexivity|]; intros ? ?).
  - apply er_bind; [apply er_wrap, Hv|reflexivity].
  - apply er_bind; [apply er_wrap, er_map_expression, Hm|reflexivity].
  - apply er_bind; [apply er_wrap, er_map_expression, Hm|reflexivity].
Qed.
Lemma er_map_values_step cv v cm m : Erases cv v -> Erases cm m -> Erases (dmap_values_step U cv cm) (map_values_step U v m).
Proof.
  intros Hv Hm s. apply er_bind; [|reflexivity]. apply er_ws, er_many0, er_wrap, er_terminated; [apply er_old_attribute; assumption|apply er_flat].
Qed.
Lemma er_old_f f : Erases (fst (dold_f U f)) (fst (old_f U f)) /\ Erases (snd (dold_f U f)) (snd (old_f U f)).
Proof.
  induction f as [|f [IHv IHm]]; [split; intros s; reflexivity|]. cbn [dold_f old_f]. destruct (dold_f U f) as [cv cm], (old_f U f) as [v m]. cbn [fst snd] in *.
  split; apply er_enter; [apply er_single_value_step|apply er_map_values_step]; assumption.
Qed.
Theorem old_body_erase : Erases (dold_body U) (old_body U).
Proof. apply er_terminated; [intros s; apply er_old_f|apply er_flat]. Qed.
End U.


(** ** The bound *)
(** The opening brackets in a text, wherever they are *)
Definition is_open (c : N) : bool := (N.eqb c 91 || N.eqb c 123 || N.eqb c 40)%bool.
Definition openers (s : str) : nat := length (filter is_open s).
Lemma openers_app a b : openers (a ++ b) = openers a + openers b.
Proof. unfold openers. rewrite filter_app, app_length. reflexivity. Qed.
Lemma openers_suffix r s : suffix r s -> openers r <= openers s.
Proof. intros (w & ->). rewrite openers_app. lia. Qed.

Definition Dx {A} (d : nat) (x : res A * nat) (s : str) : Prop := snd x <= d /\ forall r v, fst x = Ok r v -> suffix r s.
Definition DB {A} (n d : nat) (p : dparser A) : Prop := forall s, openers s <= n -> Dx d (p s) s.
Lemma dx_bind {A B} d (x : res A * nat) (f : str -> A -> res B * nat) s :
  Dx d x s -> (forall r v, fst x = Ok r v -> suffix r s -> Dx d (f r v) r) -> Dx d (dbind x f) s.
Proof.
  intros [Hn Hs] Hf. destruct x as [[r v| | | |] n]; cbn in *; try (split; [assumption|discriminate]).
  specialize (Hs _ _ eq_refl). destruct (Hf r v eq_refl Hs) as [Hn' Hs']. split; cbn; [lia|]. intros r' v' E. exact (suffix_trans _ _ _ (Hs' _ _ E) Hs).
Qed.
Lemma dx_ok {A} d r (v : A) : Dx d (Ok r v, 0) r.
Proof. split; cbn; [lia|]. intros ? ? [= -> ->]. apply suffix_refl. Qed.
Lemma db_flat {A} n d (p : parser A) : wf p -> DB n d (flat p).
Proof. intros H s _. split; cbn; [lia|]. intros r v E. specialize (H s). rewrite E in H. exact H. Qed.
Lemma dx_flat {A} d (p : parser A) s : wf p -> Dx d (flat p s) s.
Proof. intros H. apply (db_flat (openers s)); auto. Qed.
Lemma db_alt {A} n d (p q : dparser A) : DB n d p -> DB n d q -> DB n d (dalt p q).
Proof.
  intros Hp Hq s Hs. specialize (Hp s Hs). specialize (Hq s Hs). unfold dalt. destruct (p s) as [[r v| | | |] k]; try exact Hp.
  destruct Hp as [Hp _], Hq as [Hq Hr]. split; cbn in *; [lia|exact Hr].
Qed.
Lemma db_opt {A} n d (p : dparser A) : DB n d p -> DB n d (dopt p).
Proof.
  intros Hp s Hs. destruct (Hp s Hs) as [H1 H2]. unfold dopt. destruct (p s) as [[r v| | | |] k]; split; cbn in *; try discriminate; try assumption.
  - intros ? ? [= -> <-]. eauto.
  - intros ? ? [= -> <-]. apply suffix_refl.
Qed.
Lemma db_pmap {A B} n d (f : A -> B) (p : dparser A) : DB n d p -> DB n d (dpmap f p).
Proof.
  intros Hp s Hs. destruct (Hp s Hs) as [H1 H2]. split; [exact H1|]. unfold dpmap. cbn. destruct (p s) as [[r v| | | |] k]; cbn in *; try discriminate.
  intros ? ? [= -> <-]. eauto.
Qed.
Lemma db_le {A} n m d (p : dparser A) : m <= n -> DB n d p -> DB m d p.
Proof. intros H Hp s Hs. apply Hp. lia. Qed.
Lemma db_bind {A B} n d (p : dparser A) (f : str -> A -> res B * nat) : DB n d p -> (forall v, DB n d (fun r => f r v)) -> DB n d (fun s => dbind (p s) f).
Proof. intros Hp Hf s Hs. apply dx_bind; [apply Hp, Hs|]. intros r v _ Hr. apply (Hf v). apply openers_suffix in Hr. lia. Qed.
Lemma db_preceded {A B} n d (p : dparser A) (q : dparser B) : DB n d p -> DB n d q -> DB n d (dpreceded p q).
Proof. intros Hp Hq. apply db_bind; auto. Qed.
Lemma db_terminated {A B} n d (p : dparser A) (q : dparser B) : DB n d p -> DB n d q -> DB n d (dterminated p q).
Proof. intros Hp Hq. apply db_bind; [exact Hp|]. intros v. apply db_bind; [exact Hq|]. intros w s _. apply dx_ok. Qed.
Lemma db_recognize {A} n d (p : dparser A) : DB n d p -> DB n d (drecognize p).
Proof. intros Hp s Hs. apply dx_bind; [apply Hp, Hs|]. intros r v _ _. apply dx_ok. Qed.
Lemma db_many0 {A} n d (p : dparser A) : DB n d p -> DB n d (dmany0 p).
Proof.
  intros Hp s. unfold dmany0. generalize (S (length s)). intros f. revert s. induction f as [|f IH]; intros s Hs; [split; cbn; [lia|discriminate]|].
  cbn [dmany0_loop]. destruct (Hp s Hs) as [H1 H2]. destruct (p s) as [[r v| | | |] k]; cbn in *; try (split; cbn; [assumption|discriminate]).
  - specialize (H2 _ _ eq_refl). destruct (str_eqb r s); [split; cbn; [exact H1|intros ? ? [= -> <-]; apply suffix_refl]|].
    destruct (IH r) as [I1 I2]; [apply openers_suffix in H2; lia|]. split; cbn; [lia|]. intros r' v'. destruct (dmany0_loop f p r) as [[a b| | | |] j]; cbn in *; try discriminate.
    intros [= -> <-]. exact (suffix_trans _ _ _ (I2 _ _ eq_refl) H2).
  - split; cbn; [exact H1|intros ? ? [= -> <-]; apply suffix_refl].
Qed.
Lemma db_sep_loop {A B} n d (sep : parser B) (p : dparser A) : wf sep -> DB n d p -> forall f, DB n d (dsep_loop f sep p).
Proof.
  intros Hsep Hp f. induction f as [|f IH]; intros s Hs; [split; cbn; [lia|discriminate]|]. cbn [dsep_loop]. specialize (Hsep s).
  destruct (sep s) as [s2 w| | | |]; cbn in Hsep; try (split; cbn; [lia|intros ? ? E; try discriminate E; injection E as -> <-; apply suffix_refl]).
  destruct (length s2 =? length s); [split; cbn; [lia|intros ? ? [= -> <-]; apply suffix_refl]|]. pose proof (openers_suffix _ _ Hsep).
  destruct (Hp s2) as [H1 H2]; [lia|]. destruct (p s2) as [[r v| | | |] k]; cbn in *; try (split; cbn; [assumption|intros ? ? E; try discriminate E; injection E as -> <-; apply suffix_refl]).
  destruct (length r =? length s2); [split; cbn; [exact H1|discriminate]|]. specialize (H2 _ _ eq_refl). pose proof (openers_suffix _ _ H2).
  destruct (IH r) as [I1 I2]; [lia|]. split; cbn; [lia|]. intros r' v'. destruct (dsep_loop f sep p r) as [[a b| | | |] j]; cbn in *; try discriminate.
  intros [= -> <-]. exact (suffix_trans _ _ _ (I2 _ _ eq_refl) (suffix_trans _ _ _ H2 Hsep)).
Qed.
Lemma db_separated {A B} n d (sep : parser B) (p : dparser A) : wf sep -> DB n d p -> DB n d (dseparated_list sep p).
Proof.
  intros Hsep Hp s Hs. unfold dseparated_list. destruct (Hp s Hs) as [H1 H2]. destruct (p s) as [[r v| | | |] k]; cbn [fst snd] in *; try (split; cbn; [assumption|intros ? ? E; try discriminate E; injection E as -> <-; apply suffix_refl]).
  destruct (length r =? length s); [split; cbn; [exact H1|discriminate]|]. specialize (H2 _ _ eq_refl). pose proof (openers_suffix _ _ H2).
  destruct (db_sep_loop n d sep p Hsep Hp (S (length r)) r) as [I1 I2]; [lia|]. cbn zeta.
  destruct (dsep_loop (S (length r)) sep p r) as [[a b| | | |] j]; cbn [fst snd map_res] in *; (split; cbn [fst snd map_res]; [lia|]); try discriminate.
  intros ? ? [= -> <-]. exact (suffix_trans _ _ _ (I2 _ _ eq_refl) H2).
Qed.
Lemma db_enter {A} n d (p : dparser A) : DB n d p -> DB n (S d) (enter p).
Proof. intros Hp s Hs. destruct (Hp s Hs) as [H1 H2]. split; cbn; [lia|exact H2]. Qed.
Lemma db_wrap_ws {A} n d (p : dparser A) : DB n d p -> DB n d (dwrap whitespace p).
Proof. intros H. apply db_preceded; [apply db_flat, wf_whitespace|exact H]. Qed.
Lemma db_wrap_iws {A} n d (p : dparser A) : DB n d p -> DB n d (dwrap inline_whitespace p).
Proof. intros H. apply db_preceded; [apply db_flat, wf_inline_whitespace|exact H]. Qed.
Lemma db_ws {A} n d (p : dparser A) : DB n d p -> DB n d (dwhitespace_m p).
Proof. intros H. apply db_terminated; [exact H|apply db_flat, wf_whitespace]. Qed.
Lemma db_iws {A} n d (p : dparser A) : DB n d p -> DB n d (dinline_whitespace_m p).
Proof. intros H. apply db_terminated; [exact H|apply db_flat, wf_inline_whitespace]. Qed.

(** A step that reads an opening bracket leaves one fewer. *)
Definition Opens {A} (p : parser A) : Prop := wf p /\ forall s r v, p s = Ok r v -> S (openers r) <= openers s.
Lemma db_open {A B} n d (p : parser A) (f : str -> A -> res B * nat) : Opens p -> (forall m, n = S m -> forall v, DB m d (fun r => f r v)) -> DB n d (fun s => dbind (flat p s) f).
Proof.
  intros [Hw Ho] Hf s Hs. apply dx_bind; [apply dx_flat, Hw|]. cbn. intros r v E Hr. specialize (Ho _ _ _ E).
  destruct n as [|m]; [lia|]. apply (Hf m eq_refl v). lia.
Qed.
Lemma opens_char c : is_open c = true -> Opens (char_p c).
Proof.
  intros Hc. split; [apply wf_char|]. intros [|x s] r v; cbn; [discriminate|]. destruct (N.eqb x c) eqn:E; [|discriminate]. apply N.eqb_eq in E as ->.
  intros [= -> _]. unfold openers. cbn [filter]. rewrite Hc. cbn. lia.
Qed.
Lemma opens_wrap_ws {A} (p : parser A) : Opens p -> Opens (whitespace_m (wrap whitespace p)).
Proof.
  intros [Hw Ho]. split; [apply wf_ws_m, wf_wrap_ws, Hw|]. intros s r v. unfold whitespace_m, wrap, terminated, preceded.
  pose proof (wf_whitespace s) as H0. destruct (whitespace s) as [s1 w| | | |]; cbn [bind]; try discriminate. cbn [good] in H0. apply openers_suffix in H0.
  destruct (p s1) as [s2 x| | | |] eqn:E; cbn [bind]; try discriminate. specialize (Ho _ _ _ E). pose proof (wf_whitespace s2) as H1. destruct (whitespace s2) as [s3 y| | | |]; cbn [bind]; try discriminate.
  cbn [good] in H1. apply openers_suffix in H1. intros Hq. inversion Hq. subst. lia.
Qed.
Lemma opens_wrap_iws {A} (p : parser A) : Opens p -> Opens (wrap inline_whitespace p).
Proof.
  intros [Hw Ho]. split; [apply wf_wrap_iws, Hw|]. intros s r v. unfold wrap, preceded.
  pose proof (wf_inline_whitespace s) as H0. destruct (inline_whitespace s) as [s1 w| | | |]; cbn [bind]; try discriminate. cbn [good] in H0. apply openers_suffix in H0.
  destruct (p s1) as [s2 x| | | |] eqn:E; cbn [bind]; try discriminate. specialize (Ho _ _ _ E). intros Hq. inversion Hq. subst. lia.
Qed.
Lemma opens_tag c : is_open c = true -> Opens (tag [c]).
Proof.
  intros Hc. split; [apply wf_tag|]. intros [|x s] r v; unfold tag; cbn; [discriminate|]. destruct (N.eqb_spec c x) as [<-|E]; [|destruct s; discriminate]. intros H. assert (r = s) as -> by (destruct s; congruence). unfold openers. cbn [filter]. rewrite Hc. cbn. lia.
Qed.

Section Bound.
Variable U : ucd.
Lemma wf_comma : wf (wrap whitespace (char_p c_comma)).
Proof. apply wf_wrap_ws, wf_char. Qed.
Lemma wf_close : wf (terminated (whitespace_m (wrap whitespace (opt (char_p c_comma)))) (char_p c_rbracket)).
Proof. apply wf_terminated; [apply wf_ws_m, wf_wrap_ws, wf_opt, wf_char|apply wf_char]. Qed.
Lemma db_tuple n d p : (forall m, n = S m -> DB m d p) -> DB n d (dtuple p).
Proof.
  intros H. unfold dtuple, dpreceded. apply db_open; [apply opens_char; reflexivity|]. intros m E _.
  apply db_terminated; [|apply db_flat, wf_close]. apply db_ws, db_separated; [apply wf_comma|]. apply db_wrap_ws, H, E.
Qed.
Lemma db_element n d p : DB n d p -> DB n d (dobject_element U p).
Proof.
  intros H. apply db_iws, db_bind.
  { apply db_wrap_iws, db_alt; [apply db_flat, wf_pmap, wf_identifier|apply db_pmap, db_recognize, H]. }
  intros k. apply db_bind; [apply db_flat, wf_wrap_iws, wf_char|]. intros _. apply db_bind; [apply db_wrap_iws, H|]. intros e s _. apply dx_ok.
Qed.
Lemma db_object n d p : (forall m, n = S m -> DB m d p) -> DB n d (dobject U p).
Proof.
  intros H. unfold dobject. apply db_open; [apply opens_wrap_ws, opens_char; reflexivity|]. intros m E _. apply db_bind.
  { apply db_ws, db_wrap_ws, db_ws, db_many0, db_wrap_ws, db_terminated; [apply db_element, H, E|apply db_flat, wf_object_separator]. }
  intros v. apply db_bind; [apply db_flat, wf_char|]. intros _ s _. apply dx_ok.
Qed.
Lemma db_bracket n d p : (forall m, n = S m -> DB m d p) -> DB n d (dbracket_expression p).
Proof.
  intros H. unfold dbracket_expression. apply db_open; [apply opens_wrap_ws, opens_tag; reflexivity|]. intros m E _. apply db_bind.
  { apply db_ws, db_wrap_ws, H, E. }
  intros v. apply db_bind; [apply db_flat, wf_tag|]. intros _ s _. apply dx_ok.
Qed.
Lemma db_expression_f f : forall n, DB n (S n) (dexpression_f U f).
Proof.
  induction f as [|f IH]; intros n; [intros s _; split; cbn; [lia|discriminate]|]. cbn [dexpression_f]. apply db_enter.
  assert (H : forall m, n = S m -> DB m n (dexpression_f U f)) by (intros m ->; apply IH).
  unfold dexpression_step. apply db_alt; [apply db_flat, wf_pmap, wf_null|]. apply db_alt; [apply db_flat, wf_pmap, wf_number|].
  apply db_alt; [apply db_flat, wf_pmap, wf_boolean|]. apply db_alt; [apply db_flat, wf_pmap, wf_string_p|].
  apply db_alt; [apply db_pmap, db_tuple, H|]. apply db_alt; [apply db_pmap, db_object, H|apply db_bracket, H].
Qed.
Theorem expression_depth_bound s : expression_parse_depth U s <= openers s + 1.
Proof. destruct (db_expression_f (S (length s)) (openers s) s (Nat.le_refl _)) as [H _]. unfold expression_parse_depth, dexpression. lia. Qed.
Lemma db_attribute n : DB n (S n) (dattribute U).
Proof.
  apply db_iws, db_bind; [apply db_flat, wf_wrap_iws, wf_identifier|]. intros k. apply db_bind; [apply db_flat, wf_wrap_iws, wf_char|]. intros _.
  apply db_bind; [apply db_wrap_iws; intros s Hs; apply db_expression_f, Hs|]. intros e s _. apply dx_ok.
Qed.
Lemma db_mono {A} n d e (p : dparser A) : d <= e -> DB n d p -> DB n e p.
Proof. intros H Hp s Hs. destruct (Hp s Hs) as [H1 H2]. split; [lia|exact H2]. Qed.
Lemma db_one_line n : DB n (S n) (done_line_block U).
Proof.
  apply db_iws, db_bind; [apply db_flat, wf_wrap_iws, wf_identifier|]. intros k. apply db_bind; [apply db_flat, wf_wrap_iws, wf_block_labels|]. intros ls.
  apply db_bind; [apply db_flat, wf_wrap_iws, wf_tag|]. intros _. apply db_bind; [apply db_wrap_iws, db_opt, db_attribute|]. intros a.
  apply db_bind; [apply db_flat, wf_wrap_iws, wf_tag|]. intros _ s _. apply dx_ok.
Qed.
Lemma db_block n d pb : (forall m, n = S m -> DB m d pb) -> DB n d (dblock U pb).
Proof.
  intros H. apply db_iws, db_bind; [apply db_flat, wf_wrap_iws, wf_identifier|]. intros k. apply db_bind; [apply db_flat, wf_wrap_iws, wf_block_labels|]. intros ls.
  apply db_open; [apply opens_wrap_iws, opens_tag; reflexivity|]. intros m E _. apply db_bind; [apply db_flat, wf_wrap_iws, wf_newline|]. intros _.
  apply db_bind; [apply db_wrap_iws, H, E|]. intros b. apply db_bind; [apply db_flat, wf_wrap_iws, wf_tag|]. intros _ s _. apply dx_ok.
Qed.
Lemma db_body_f f : forall n, DB n (S (S n)) (dbody_f U f).
Proof.
  induction f as [|f IH]; intros n; [intros s _; split; cbn; [lia|discriminate]|]. cbn [dbody_f]. apply db_enter.
  apply db_ws, db_many0, db_wrap_ws, db_terminated; [|apply db_flat, wf_body_end].
  apply db_alt; [apply db_pmap, db_attribute|]. apply db_alt; [apply db_one_line|]. apply db_block. intros m ->. apply IH.
Qed.
Theorem parse_str_depth_bound s : parse_str_depth U s <= openers s + 2.
Proof.
  assert (H : DB (openers s) (S (S (openers s))) (dterminated (dbody_f U (S (length s))) (flat eof))) by (apply db_terminated; [apply db_body_f|apply db_flat, wf_eof]).
  destruct (H s (Nat.le_refl _)) as [H1 _]. unfold parse_str_depth, dconfig_file, dbody. unfold dterminated in *. lia.
Qed.

(** [value::from_str] *)
Lemma db_map_expression n d pm : (forall m, n = S m -> DB m d pm) -> DB n d (dmap_expression pm).
Proof.
  intros H. unfold dmap_expression. apply db_open; [apply opens_wrap_ws, opens_char; reflexivity|]. intros m E _. apply db_bind.
  { apply db_ws, db_wrap_ws, H, E. }
  intros v. apply db_bind; [apply db_flat, wf_char|]. intros _ s _. apply dx_ok.
Qed.
Lemma db_vlist n d p : (forall m, n = S m -> DB m d p) -> DB n d (dvlist p).
Proof.
  intros H. unfold dvlist, dpreceded. apply db_open; [apply opens_char; reflexivity|]. intros m E _.
  apply db_terminated; [|apply db_flat, wf_close]. apply db_ws, db_separated; [apply wf_comma|]. apply db_wrap_ws, H, E.
Qed.
Lemma wf_strings : wf (many0 (wrap inline_whitespace string_literal)).
Proof. apply wf_many0, wf_wrap_iws, wf_string_literal. Qed.
Lemma db_old_f f : forall n, DB n (2 * n + 1) (fst (dold_f U f)) /\ DB n (2 * n + 2) (snd (dold_f U f)).
Proof.
  induction f as [|f IH]; intros n; [split; intros s _; split; cbn; try lia; discriminate|]. cbn [dold_f].
  destruct (dold_f U f) as [pv pm]. cbn [fst snd] in *.
  assert (Hv : forall m, n = S m -> DB m (2 * n) pv) by (intros m ->; apply (db_mono _ (2 * m + 1)); [lia|apply IH]).
  assert (Hm : forall m, n = S m -> DB m (2 * n) pm) by (intros m ->; apply (db_mono _ (2 * m + 2)); [lia|apply IH]).
  assert (Hme : forall d, 2 * n <= d -> DB n d (dmap_expression pm)) by (intros d Hd; apply (db_mono _ (2 * n)); [exact Hd|apply db_map_expression, Hm]).
  split.
  - replace (2 * n + 1) with (S (2 * n)) by lia. apply db_enter. unfold dsingle_value_step.
    apply db_alt; [apply db_flat, wf_pmap, wf_null|]. apply db_alt; [apply db_flat, wf_literal_number|]. apply db_alt; [apply db_flat, wf_pmap, wf_boolean|].
    apply db_alt; [apply db_flat, wf_pmap, wf_string_p|]. apply db_alt; [apply db_pmap, db_vlist, Hv|apply db_pmap, Hme; lia].
  - replace (2 * n + 2) with (S (2 * n + 1)) by lia. apply db_enter. unfold dmap_values_step. apply db_bind; [|intros v s _; apply dx_ok].
    apply db_ws, db_many0, db_wrap_ws, db_terminated; [|apply db_flat, wf_old_separator]. apply db_iws, db_alt; [|apply db_alt].
    + apply db_bind; [apply db_flat, wf_wrap_iws, wf_literal_key|]. intros k. apply db_bind; [apply db_flat, wf_wrap_iws, wf_char|]. intros _.
      apply db_bind; [apply db_wrap_iws; apply IH|]. intros v s _. apply dx_ok.
    + apply db_bind; [apply db_flat, wf_wrap_iws, wf_identifier|]. intros k. apply db_bind; [apply db_flat, wf_wrap_iws, wf_opt, wf_char|]. intros _.
      apply db_bind; [apply db_wrap_iws, Hme; lia|]. intros v s _. apply dx_ok.
    + apply db_bind; [apply db_flat, wf_wrap_iws, wf_identifier|]. intros k. apply db_bind; [apply db_flat, wf_strings|]. intros ls.
      apply db_bind; [apply db_wrap_iws, Hme; lia|]. intros v s _. apply dx_ok.
Qed.
Theorem value_from_str_depth_bound s : value_from_str_depth U s <= 2 * openers s + 2.
Proof.
  assert (H : DB (openers s) (2 * openers s + 2) (dterminated (snd (dold_f U (S (length s)))) (flat eof))) by (apply db_terminated; [apply db_old_f|apply db_flat, wf_eof]).
  destruct (H s (Nat.le_refl _)) as [H1 _]. exact H1.
Qed.
End Bound.
