(** * WsFacts: white space, comments and line ends *)
From Verif Require Import Base Nom NomFacts Ast Lex Grammar.

(** ** All whitespace parsers are well behaved *)
Lemma wf_inline_comment : wf inline_comment.
Proof. apply wf_delimited; [apply wf_tag|apply wf_take_until|apply wf_tag]. Qed.
Lemma wf_hash_comment : wf hash_comment.
Proof. apply wf_delimited; [apply wf_tag|apply wf_take_while|apply wf_eol]. Qed.
Lemma wf_slash_comment : wf slash_comment.
Proof. apply wf_delimited; [apply wf_tag|apply wf_take_while|apply wf_eol]. Qed.

Definition iws_item : parser str := alt inline_comment (eat_separator [c_space; c_tab]).
Definition ws_item : parser str :=
  alt hash_comment (alt slash_comment (alt inline_comment
          (eat_separator [c_space; c_tab; c_cr; c_lf]))).

Lemma wf_iws_item : wf iws_item.
Proof. apply wf_alt; [apply wf_inline_comment|apply wf_take_while]. Qed.
Lemma wf_ws_item : wf ws_item.
Proof.
  apply wf_alt; [apply wf_hash_comment|]. apply wf_alt; [apply wf_slash_comment|].
  apply wf_alt; [apply wf_inline_comment|apply wf_take_while].
Qed.
Lemma wf_inline_whitespace : wf inline_whitespace.
Proof. apply wf_many0, wf_iws_item. Qed.
Lemma wf_whitespace : wf whitespace.
Proof. apply wf_many0, wf_ws_item. Qed.
Lemma wf_newline_item : wf newline_item.
Proof.
  apply wf_alt; [apply wf_hash_comment|]. apply wf_alt; [apply wf_slash_comment|].
  apply wf_alt; [|apply wf_eol]. apply wf_terminated; [apply wf_inline_comment|apply wf_eol].
Qed.
Lemma wf_newline : wf newline.
Proof. apply wf_many1, wf_newline_item. Qed.

(** ** Parsers that only succeed or fail recoverably *)
Definition simple {A} (p : parser A) : Prop :=
  forall s, (exists r v, p s = Ok r v) \/ p s = Err.

Lemma simple_tag t : simple (tag t).
Proof. intros s. unfold tag. destruct (strip_prefix t s); eauto. Qed.
Lemma simple_char c : simple (char_p c).
Proof. intros [|x s]; cbn; [auto|]. destruct (x =? c); eauto. Qed.
Lemma simple_alt {A} (p q : parser A) : simple p -> simple q -> simple (alt p q).
Proof. intros Hp Hq s. unfold alt. destruct (Hp s) as [(r & v & H)|H]; rewrite H; eauto. Qed.
Lemma simple_opt {A} (p : parser A) : simple p -> simple (opt p).
Proof. intros Hp s. unfold opt. destruct (Hp s) as [(r & v & H)|H]; rewrite H; eauto. Qed.
Lemma simple_peek {A} (p : parser A) : simple p -> simple (peek p).
Proof. intros Hp s. unfold peek. destruct (Hp s) as [(r & v & H)|H]; rewrite H; cbn; eauto. Qed.
Lemma simple_pmap {A B} (f : A -> B) p : simple p -> simple (pmap f p).
Proof. intros Hp s. unfold pmap. destruct (Hp s) as [(r & v & H)|H]; rewrite H; cbn; eauto. Qed.
Lemma simple_bind {A B} (x : res A) (f : str -> A -> res B) :
  (exists r v, x = Ok r v) \/ x = Err ->
  (forall r v, (exists r' v', f r v = Ok r' v') \/ f r v = Err) ->
  (exists r v, bind x f = Ok r v) \/ bind x f = Err.
Proof. intros [(r & v & ->)| ->] H; cbn; auto. Qed.
Lemma simple_take_while p : simple (take_while p).
Proof. intros s. unfold take_while. destruct (span p s); eauto. Qed.
Lemma simple_take_while1 p : simple (take_while1 p).
Proof. intros s. unfold take_while1. destruct (span p s) as [[|] ]; eauto. Qed.
Lemma simple_take_until t : simple (take_until t).
Proof. intros s. unfold take_until. destruct (find_split t s) as [[]|]; eauto. Qed.
Lemma simple_eol : simple eol.
Proof. apply simple_alt; apply simple_tag. Qed.
Lemma simple_delimited {A B C} (p : parser A) (q : parser B) (t : parser C) :
  simple p -> simple q -> simple t -> simple (delimited p q t).
Proof.
  intros Hp Hq Ht s. apply simple_bind; [apply Hp|]. intros r v.
  apply simple_bind; [apply Hq|]. intros r' v'. apply simple_bind; [apply Ht|]. eauto.
Qed.
Lemma simple_terminated {A B} (p : parser A) (q : parser B) :
  simple p -> simple q -> simple (terminated p q).
Proof.
  intros Hp Hq s. apply simple_bind; [apply Hp|]. intros r v.
  apply simple_bind; [apply Hq|]. eauto.
Qed.
Lemma simple_preceded {A B} (p : parser A) (q : parser B) :
  simple p -> simple q -> simple (preceded p q).
Proof. intros Hp Hq s. apply simple_bind; [apply Hp|]. intros r v. apply Hq. Qed.

Lemma many0_total {A} (p : parser A) : wf p -> simple p -> forall s, exists r v, many0 p s = Ok r v.
Proof.
  intros Hw Hs s. remember (length s) as n eqn:En.
  revert s En; induction n as [n IH] using lt_wf_ind; intros s ->.
  rewrite many0_eq by (apply wf_upto_of; exact Hw).
  destruct (Hs s) as [(r & v & H)|H]; rewrite H; [|eauto].
  destruct (str_eqb r s) eqn:E; [eauto|]. apply str_eqb_neq in E.
  pose proof (Hw s) as Hg. rewrite H in Hg. cbn in Hg.
  destruct (IH (length r) (suffix_neq_len _ _ Hg E) r eq_refl) as (r' & v' & H').
  rewrite H'. cbn. eauto.
Qed.
Lemma simple_many0 {A} (p : parser A) : wf p -> simple p -> simple (many0 p).
Proof. intros H1 H2 s. left. apply many0_total; assumption. Qed.
Lemma simple_many1 {A} (p : parser A) : wf p -> simple p -> simple (many1 p).
Proof.
  intros H1 H2 s. rewrite many1_eq. apply simple_bind; [apply H2|]. intros r v. left.
  destruct (many0_total p H1 H2 r) as (r' & v' & H'). rewrite H'. cbn. eauto.
Qed.

Lemma simple_inline_comment : simple inline_comment.
Proof. apply simple_delimited; [apply simple_tag|apply simple_take_until|apply simple_tag]. Qed.
Lemma simple_hash_comment : simple hash_comment.
Proof. apply simple_delimited; [apply simple_tag|apply simple_take_while|apply simple_eol]. Qed.
Lemma simple_slash_comment : simple slash_comment.
Proof. apply simple_delimited; [apply simple_tag|apply simple_take_while|apply simple_eol]. Qed.
Lemma simple_iws_item : simple iws_item.
Proof. apply simple_alt; [apply simple_inline_comment|apply simple_take_while]. Qed.
Lemma simple_ws_item : simple ws_item.
Proof.
  apply simple_alt; [apply simple_hash_comment|]. apply simple_alt; [apply simple_slash_comment|].
  apply simple_alt; [apply simple_inline_comment|apply simple_take_while].
Qed.
Lemma simple_newline_item : simple newline_item.
Proof.
  apply simple_alt; [apply simple_hash_comment|]. apply simple_alt; [apply simple_slash_comment|].
  apply simple_alt; [|apply simple_eol].
  apply simple_terminated; [apply simple_inline_comment|apply simple_eol].
Qed.
Lemma simple_newline : simple newline.
Proof. apply simple_many1; [apply wf_newline_item|apply simple_newline_item]. Qed.

(** ** Line ends *)
Lemma eol_eq e r : Eol e -> eol (e ++ r) = Ok r e.
Proof. intros [|]; reflexivity. Qed.
Lemma eol_ok s r v : eol s = Ok r v -> Eol v /\ s = v ++ r.
Proof.
  unfold eol, alt. destruct (tag_cases [c_lf] s) as [(r' & -> & H)|H]; rewrite H.
  - intros [= -> <-]. split; [constructor|reflexivity].
  - intros H'. apply tag_ok in H' as [-> ->]. split; [constructor|reflexivity].
Qed.
Lemma eol_err s : (forall e r, Eol e -> s <> e ++ r) -> eol s = Err.
Proof.
  intros H. destruct (simple_eol s) as [(r & v & E)|E]; [|exact E].
  apply eol_ok in E as [He ->]. exfalso. eapply H; [exact He|reflexivity].
Qed.
Lemma eol_first_err c s : c <> 10 -> c <> 13 -> eol (c :: s) = Err.
Proof. intros H1 H2. apply eol_err. intros e r [|] [= -> _]; contradiction. Qed.

(** ** Line comments *)
Lemma not_eol_NoEol t : forallb not_eol t = true <-> NoEol t.
Proof.
  unfold NoEol. rewrite forallb_forall. unfold not_eol.
  split; intros H c Hc; specialize (H c Hc); lia.
Qed.
Lemma eol_stops e r : Eol e -> stops not_eol (e ++ r).
Proof. intros [|]; reflexivity. Qed.

Lemma hash_comment_eq t e r : NoEol t -> Eol e -> hash_comment (35 :: t ++ e ++ r) = Ok r t.
Proof.
  intros Ht He. unfold hash_comment, delimited.
  change (35 :: t ++ e ++ r) with (lit "#" ++ t ++ e ++ r). rewrite tag_app. cbn [bind].
  unfold take_while. rewrite span_eq; [|apply not_eol_NoEol; exact Ht|apply eol_stops; exact He].
  cbn [bind]. rewrite eol_eq by exact He. reflexivity.
Qed.
Lemma slash_comment_eq t e r : NoEol t -> Eol e -> slash_comment (47 :: 47 :: t ++ e ++ r) = Ok r t.
Proof.
  intros Ht He. unfold slash_comment, delimited.
  change (47 :: 47 :: t ++ e ++ r) with (lit "//" ++ t ++ e ++ r). rewrite tag_app. cbn [bind].
  unfold take_while. rewrite span_eq; [|apply not_eol_NoEol; exact Ht|apply eol_stops; exact He].
  cbn [bind]. rewrite eol_eq by exact He. reflexivity.
Qed.
Lemma hash_comment_ok s r v :
  hash_comment s = Ok r v -> exists e, NoEol v /\ Eol e /\ s = 35 :: v ++ e ++ r.
Proof.
  unfold hash_comment, delimited. intros H.
  apply bind_ok in H as (r1 & v1 & H1 & H). apply tag_ok in H1 as [-> _].
  apply bind_ok in H as (r2 & v2 & H2 & H). unfold take_while in H2.
  destruct (span not_eol r1) as [a b] eqn:E. injection H2 as <- <-.
  apply span_spec in E as (-> & Ha & _).
  apply bind_ok in H as (r3 & v3 & H3 & H). injection H as <- <-.
  apply eol_ok in H3 as [He ->]. exists v3. split; [apply not_eol_NoEol; exact Ha|auto].
Qed.
Lemma slash_comment_ok s r v :
  slash_comment s = Ok r v -> exists e, NoEol v /\ Eol e /\ s = 47 :: 47 :: v ++ e ++ r.
Proof.
  unfold slash_comment, delimited. intros H.
  apply bind_ok in H as (r1 & v1 & H1 & H). apply tag_ok in H1 as [-> _].
  apply bind_ok in H as (r2 & v2 & H2 & H). unfold take_while in H2.
  destruct (span not_eol r1) as [a b] eqn:E. injection H2 as <- <-.
  apply span_spec in E as (-> & Ha & _).
  apply bind_ok in H as (r3 & v3 & H3 & H). injection H as <- <-.
  apply eol_ok in H3 as [He ->]. exists v3. split; [apply not_eol_NoEol; exact Ha|auto].
Qed.
Lemma hash_comment_first c s : c <> 35 -> hash_comment (c :: s) = Err.
Proof.
  intros H. destruct (simple_hash_comment (c :: s)) as [(r & v & E)|E]; [|exact E].
  apply hash_comment_ok in E as (e & _ & _ & [= -> _]). contradiction.
Qed.
Lemma slash_comment_first c s : c <> 47 -> slash_comment (c :: s) = Err.
Proof.
  intros H. destruct (simple_slash_comment (c :: s)) as [(r & v & E)|E]; [|exact E].
  apply slash_comment_ok in E as (e & _ & _ & [= -> _]). contradiction.
Qed.

(** ** Inline comments *)
Lemma find_split_first t b r :
  (forall x y, b <> x ++ [42; 47] ++ y) -> t = [42; 47] ->
  find_split t (b ++ t ++ r) = Some (b, t ++ r).
Proof.
  intros H ->. induction b as [|c b IH].
  - reflexivity.
  - cbn [app find_split].
    destruct (strip_prefix [42; 47] (c :: b ++ 42 :: 47 :: r)) eqn:E.
    + apply strip_prefix_spec in E. cbn [app] in E. injection E as -> E.
      destruct b as [|d b]; [discriminate E|]. cbn in E. injection E as -> E.
      exfalso. apply (H [] b). reflexivity.
    + change (b ++ 42 :: 47 :: r) with (b ++ [42; 47] ++ r).
      rewrite IH; [reflexivity|]. intros x y ->. apply (H (c :: x) y). reflexivity.
Qed.
Lemma find_split_no t s a b : t = [42; 47] ->
  find_split t s = Some (a, b) -> forall x y, a <> x ++ [42; 47] ++ y.
Proof.
  intros ->. revert a b; induction s as [|c s IH]; intros a b; cbn [find_split].
  - discriminate.
  - destruct (strip_prefix [42; 47] (c :: s)) eqn:E.
    + intros [= <- <-] x y Hx. destruct x; discriminate.
    + destruct (find_split [42; 47] s) as [[a' b']|] eqn:Es; [|discriminate].
      intros [= <- <-] x y Hx. destruct x as [|z x].
      * cbn in Hx. injection Hx as -> ->.
        apply find_split_ok in Es as (-> & _). cbn in E. discriminate.
      * cbn in Hx. injection Hx as -> Hx. eapply IH; [reflexivity|]. exact Hx.
Qed.

Lemma inline_comment_eq c r : InlineComment c -> exists v, inline_comment (c ++ r) = Ok r v.
Proof.
  intros [t Ht]. unfold inline_comment, delimited. rewrite <- app_assoc.
  change ([47; 42]) with (lit "/*"). rewrite tag_app. cbn [bind].
  unfold take_until. change (lit "*/") with ([42; 47]).
  rewrite <- app_assoc, (find_split_first [42; 47] t r Ht eq_refl). cbn [bind].
  change ([42; 47]) with (lit "*/"). rewrite tag_app. cbn [bind]. eauto.
Qed.
Lemma inline_comment_ok s r v :
  inline_comment s = Ok r v -> exists c, InlineComment c /\ s = c ++ r.
Proof.
  unfold inline_comment, delimited. intros H.
  apply bind_ok in H as (r1 & v1 & H1 & H). apply tag_ok in H1 as [-> _].
  apply bind_ok in H as (r2 & v2 & H2 & H). unfold take_until in H2.
  destruct (find_split (lit "*/") r1) as [[a b]|] eqn:E; [|discriminate]. injection H2 as <- <-.
  pose proof (find_split_no _ _ _ _ eq_refl E) as Hn.
  apply find_split_ok in E as (-> & _).
  apply bind_ok in H as (r3 & v3 & H3 & H). injection H as <- <-.
  apply tag_ok in H3 as [-> _].
  exists ([47; 42] ++ a ++ [42; 47]). split; [constructor; exact Hn|].
  rewrite <- !app_assoc. reflexivity.
Qed.
Lemma inline_comment_first c s : c <> 47 -> inline_comment (c :: s) = Err.
Proof.
  intros H. destruct (simple_inline_comment (c :: s)) as [(r & v & E)|E]; [|exact E].
  apply inline_comment_ok in E as (? & [t _] & [= -> _]). contradiction.
Qed.
Lemma inline_comment_second c s : c <> 42 -> inline_comment (47 :: c :: s) = Err.
Proof.
  intros H. destruct (simple_inline_comment (47 :: c :: s)) as [(r & v & E)|E]; [|exact E].
  apply inline_comment_ok in E as (? & [t _] & [= -> _]). contradiction.
Qed.
Lemma slash_comment_second c s : c <> 47 -> slash_comment (47 :: c :: s) = Err.
Proof.
  intros H. destruct (simple_slash_comment (47 :: c :: s)) as [(r & v & E)|E]; [|exact E].
  apply slash_comment_ok in E as (e & _ & _ & [= -> _]). contradiction.
Qed.

(** ** The rest after white space *)
Definition iws_rest (s : str) : str := match inline_whitespace s with Ok r _ => r | _ => s end.
Definition ws_rest (s : str) : str := match whitespace s with Ok r _ => r | _ => s end.

Lemma inline_whitespace_eq s : exists v, inline_whitespace s = Ok (iws_rest s) v.
Proof.
  unfold iws_rest. destruct (many0_total iws_item wf_iws_item simple_iws_item s) as (r & v & H).
  unfold inline_whitespace. fold iws_item. rewrite H. eauto.
Qed.
Lemma whitespace_eq s : exists v, whitespace s = Ok (ws_rest s) v.
Proof.
  unfold ws_rest. destruct (many0_total ws_item wf_ws_item simple_ws_item s) as (r & v & H).
  unfold whitespace. fold ws_item. rewrite H. eauto.
Qed.

Lemma wrap_iws {A} (p : parser A) s : wrap inline_whitespace p s = p (iws_rest s).
Proof. unfold wrap, preceded. destruct (inline_whitespace_eq s) as [v H]. rewrite H. reflexivity. Qed.
Lemma wrap_ws {A} (p : parser A) s : wrap whitespace p s = p (ws_rest s).
Proof. unfold wrap, preceded. destruct (whitespace_eq s) as [v H]. rewrite H. reflexivity. Qed.
Lemma iws_m {A} (p : parser A) s :
  inline_whitespace_m p s = bind (p s) (fun r v => Ok (iws_rest r) v).
Proof.
  unfold inline_whitespace_m, terminated. destruct (p s) as [r v| | | |]; cbn [bind]; try reflexivity.
  destruct (inline_whitespace_eq r) as [w H]. rewrite H. reflexivity.
Qed.
Lemma ws_m {A} (p : parser A) s :
  whitespace_m p s = bind (p s) (fun r v => Ok (ws_rest r) v).
Proof.
  unfold whitespace_m, terminated. destruct (p s) as [r v| | | |]; cbn [bind]; try reflexivity.
  destruct (whitespace_eq r) as [w H]. rewrite H. reflexivity.
Qed.

Lemma iws_rest_step s :
  iws_rest s = match iws_item s with
               | Ok r _ => if str_eqb r s then s else iws_rest r
               | _ => s
               end.
Proof.
  unfold iws_rest at 1, inline_whitespace. fold iws_item.
  rewrite many0_eq by (apply wf_upto_of, wf_iws_item).
  destruct (simple_iws_item s) as [(r & v & H)|H]; rewrite H; [|reflexivity].
  destruct (str_eqb r s); [reflexivity|].
  destruct (inline_whitespace_eq r) as [w Hw]. unfold inline_whitespace in Hw. fold iws_item in Hw.
  rewrite Hw. reflexivity.
Qed.
Lemma ws_rest_step s :
  ws_rest s = match ws_item s with
               | Ok r _ => if str_eqb r s then s else ws_rest r
               | _ => s
               end.
Proof.
  unfold ws_rest at 1, whitespace. fold ws_item.
  rewrite many0_eq by (apply wf_upto_of, wf_ws_item).
  destruct (simple_ws_item s) as [(r & v & H)|H]; rewrite H; [|reflexivity].
  destruct (str_eqb r s); [reflexivity|].
  destruct (whitespace_eq r) as [w Hw]. unfold whitespace in Hw. fold ws_item in Hw.
  rewrite Hw. reflexivity.
Qed.

Definition blank2 (c : char) : bool := existsb (N.eqb c) [c_space; c_tab].
Definition blank4 (c : char) : bool := existsb (N.eqb c) [c_space; c_tab; c_cr; c_lf].
Lemma blank2_spec c : blank2 c = true <-> c = 32 \/ c = 9.
Proof. unfold blank2; cbn [existsb]. lia. Qed.
Lemma blank4_spec c : blank4 c = true <-> c = 32 \/ c = 9 \/ c = 10 \/ c = 13.
Proof. unfold blank4; cbn [existsb]. lia. Qed.

(** An item that consumes something can be dropped. *)
Lemma iws_rest_item s r v : iws_item s = Ok r v -> iws_rest s = iws_rest r.
Proof.
  intros H. rewrite iws_rest_step, H. destruct (str_eqb r s) eqn:E; [|reflexivity].
  apply str_eqb_eq in E as ->. rewrite iws_rest_step, H, str_eqb_refl. reflexivity.
Qed.
Lemma ws_rest_item s r v : ws_item s = Ok r v -> ws_rest s = ws_rest r.
Proof.
  intros H. rewrite ws_rest_step, H. destruct (str_eqb r s) eqn:E; [|reflexivity].
  apply str_eqb_eq in E as ->. rewrite ws_rest_step, H, str_eqb_refl. reflexivity.
Qed.

Lemma iws_item_eat s : inline_comment s = Err ->
  iws_item s = let (a, b) := span blank2 s in Ok b a.
Proof. intros H. unfold iws_item, alt. rewrite H. reflexivity. Qed.
Lemma ws_item_eat s :
  hash_comment s = Err -> slash_comment s = Err -> inline_comment s = Err ->
  ws_item s = let (a, b) := span blank4 s in Ok b a.
Proof. intros H1 H2 H3. unfold ws_item, alt. rewrite H1, H2, H3. reflexivity. Qed.

Lemma iws_rest_blank c s : c = 32 \/ c = 9 -> iws_rest (c :: s) = iws_rest s.
Proof.
  intros Hc. assert (Hi : iws_item (c :: s) = let (a, b) := span blank2 (c :: s) in Ok b a).
  { apply iws_item_eat. apply inline_comment_first. lia. }
  destruct (span blank2 (c :: s)) as [a b] eqn:E.
  rewrite (iws_rest_item _ _ _ Hi).
  cbn [span] in E. replace (blank2 c) with true in E by (symmetry; apply blank2_spec; exact Hc).
  destruct (span blank2 s) as [a' b'] eqn:E'. injection E as <- <-.
  destruct a' as [|x a'].
  - apply span_app in E'. cbn in E'. congruence.
  - pose proof (span_app _ _ _ _ E') as Es.
    assert (Hi' : iws_item s = Ok b' (x :: a')).
    { rewrite iws_item_eat; [rewrite E'; reflexivity|]. rewrite Es. cbn [app]. apply inline_comment_first.
      apply span_spec in E' as (_ & Ha & _). cbn [forallb] in Ha. apply andb_true_iff in Ha as [Ha _].
      apply blank2_spec in Ha. lia. }
    rewrite (iws_rest_item _ _ _ Hi'). reflexivity.
Qed.

Lemma ws_rest_blank c s : c = 32 \/ c = 9 \/ c = 10 \/ c = 13 -> ws_rest (c :: s) = ws_rest s.
Proof.
  intros Hc. assert (Hi : ws_item (c :: s) = let (a, b) := span blank4 (c :: s) in Ok b a).
  { apply ws_item_eat; [apply hash_comment_first|apply slash_comment_first|apply inline_comment_first]; lia. }
  destruct (span blank4 (c :: s)) as [a b] eqn:E.
  rewrite (ws_rest_item _ _ _ Hi).
  cbn [span] in E. replace (blank4 c) with true in E by (symmetry; apply blank4_spec; exact Hc).
  destruct (span blank4 s) as [a' b'] eqn:E'. injection E as <- <-.
  destruct a' as [|x a'].
  - apply span_app in E'. cbn in E'. congruence.
  - pose proof (span_app _ _ _ _ E') as Es.
    assert (Hi' : ws_item s = Ok b' (x :: a')).
    { apply span_spec in E' as E2. destruct E2 as (_ & Ha & _). cbn [forallb] in Ha.
      apply andb_true_iff in Ha as [Ha _]. apply blank4_spec in Ha.
      rewrite ws_item_eat; [rewrite E'; reflexivity| | |]; rewrite Es; cbn [app];
        [apply hash_comment_first|apply slash_comment_first|apply inline_comment_first]; lia. }
    rewrite (ws_rest_item _ _ _ Hi'). reflexivity.
Qed.

Lemma iws_rest_comment c s : InlineComment c -> iws_rest (c ++ s) = iws_rest s.
Proof.
  intros H. destruct (inline_comment_eq c s H) as [v E].
  apply (iws_rest_item _ _ v). unfold iws_item, alt. rewrite E. reflexivity.
Qed.
Lemma ws_rest_inline c s : InlineComment c -> ws_rest (c ++ s) = ws_rest s.
Proof.
  intros H. destruct (inline_comment_eq c s H) as [v E].
  apply (ws_rest_item _ _ v). unfold ws_item, alt.
  assert (H1 : hash_comment (c ++ s) = Err) by (destruct H; apply hash_comment_first; lia).
  assert (H2 : slash_comment (c ++ s) = Err) by (destruct H; apply slash_comment_second; lia).
  rewrite H1, H2, E. reflexivity.
Qed.
Lemma LineComment_item c s : LineComment c ->
  exists v, (hash_comment (c ++ s) = Ok s v) \/
            (hash_comment (c ++ s) = Err /\ slash_comment (c ++ s) = Ok s v).
Proof.
  intros [t e Ht He|t e Ht He].
  - exists t. left. cbn [app]. rewrite <- app_assoc. apply (hash_comment_eq t e s); assumption.
  - exists t. right. split; [apply hash_comment_first; lia|].
    cbn [app]. rewrite <- app_assoc. apply (slash_comment_eq t e s); assumption.
Qed.
Lemma ws_rest_line c s : LineComment c -> ws_rest (c ++ s) = ws_rest s.
Proof.
  intros H. destruct (LineComment_item c s H) as [v [E|[E1 E2]]]; apply (ws_rest_item _ _ v);
    unfold ws_item, alt; [rewrite E|rewrite E1, E2]; reflexivity.
Qed.

Lemma iws_rest_iws w s : Iws w -> iws_rest (w ++ s) = iws_rest s.
Proof.
  induction 1 as [|c w Hc _ IH|c w Hc _ IH]; [reflexivity| |].
  - cbn [app]. rewrite iws_rest_blank by exact Hc. exact IH.
  - rewrite <- app_assoc, iws_rest_comment by exact Hc. exact IH.
Qed.
Lemma ws_rest_ws w s : Ws w -> ws_rest (w ++ s) = ws_rest s.
Proof.
  induction 1 as [|c w Hc _ IH|c w Hc _ IH|c w Hc _ IH]; [reflexivity| | |].
  - cbn [app]. rewrite ws_rest_blank by exact Hc. exact IH.
  - rewrite <- app_assoc, ws_rest_inline by exact Hc. exact IH.
  - rewrite <- app_assoc, ws_rest_line by exact Hc. exact IH.
Qed.

(** What is skipped is white space. *)
Lemma Iws_blanks a : forallb blank2 a = true -> Iws a.
Proof.
  induction a as [|c a IH]; intros H; [constructor|]. cbn in H. apply andb_true_iff in H as [H1 H2].
  constructor; [apply blank2_spec; exact H1|auto].
Qed.
Lemma Ws_blanks a : forallb blank4 a = true -> Ws a.
Proof.
  induction a as [|c a IH]; intros H; [constructor|]. cbn in H. apply andb_true_iff in H as [H1 H2].
  constructor; [apply blank4_spec; exact H1|auto].
Qed.
Lemma Iws_app a b : Iws a -> Iws b -> Iws (a ++ b).
Proof.
  induction 1 as [|c w Hc _ IH|c w Hc _ IH]; intros Hb; [exact Hb| |].
  - cbn. constructor; auto.
  - rewrite <- app_assoc. constructor; auto.
Qed.
Lemma Ws_app a b : Ws a -> Ws b -> Ws (a ++ b).
Proof.
  induction 1 as [|c w Hc _ IH|c w Hc _ IH|c w Hc _ IH]; intros Hb; [exact Hb| | |].
  - cbn. constructor; auto.
  - rewrite <- app_assoc. constructor; auto.
  - rewrite <- app_assoc. apply Ws_line; auto.
Qed.
Lemma Iws_Ws w : Iws w -> Ws w.
Proof. induction 1; [constructor| |]; constructor; auto. destruct H; auto. Qed.
Lemma Ws_inline1 c : InlineComment c -> Ws c.
Proof. intros H. rewrite <- (app_nil_r c). constructor; [exact H|constructor]. Qed.
Lemma Iws_comment1 c : InlineComment c -> Iws c.
Proof. intros H. rewrite <- (app_nil_r c). constructor; [exact H|constructor]. Qed.
Lemma Ws_line1 c : LineComment c -> Ws c.
Proof. intros H. rewrite <- (app_nil_r c). apply Ws_line; [exact H|constructor]. Qed.
Lemma Ws_eol e : Eol e -> Ws e.
Proof. intros [|]; repeat (constructor; [auto|]); constructor. Qed.
Lemma Ws_LineEnd n : LineEnd n -> Ws n.
Proof. intros [e He|c Hc]; [apply Ws_eol|apply Ws_line1]; assumption. Qed.

Lemma LineComment_hash t e : NoEol t -> Eol e -> LineComment (35 :: t ++ e).
Proof. apply LC_hash. Qed.
Lemma LineComment_slash t e : NoEol t -> Eol e -> LineComment (47 :: 47 :: t ++ e).
Proof. apply LC_slash. Qed.

Lemma iws_item_sound s r v : iws_item s = Ok r v -> exists w, Iws w /\ s = w ++ r.
Proof.
  unfold iws_item, alt. destruct (simple_inline_comment s) as [(r' & v' & H)|H]; rewrite H.
  - intros [= -> _]. apply inline_comment_ok in H as (c & Hc & ->).
    exists c. split; [apply Iws_comment1; exact Hc|reflexivity].
  - unfold eat_separator, take_while. fold blank2. destruct (span blank2 s) as [a b] eqn:E. intros [= <- <-].
    apply span_spec in E as (-> & Ha & _). exists a. split; [apply Iws_blanks; exact Ha|reflexivity].
Qed.
Lemma ws_item_sound s r v : ws_item s = Ok r v -> exists w, Ws w /\ s = w ++ r.
Proof.
  unfold ws_item, alt. destruct (simple_hash_comment s) as [(r' & v' & H)|H]; rewrite H.
  { intros [= -> _]. apply hash_comment_ok in H as (e & Hv & He & ->).
    exists (35 :: v' ++ e). split; [apply Ws_line1, LineComment_hash; assumption|].
    cbn. rewrite <- app_assoc. reflexivity. }
  clear H. destruct (simple_slash_comment s) as [(r' & v' & H)|H]; rewrite H.
  { intros [= -> _]. apply slash_comment_ok in H as (e & Hv & He & ->).
    exists (47 :: 47 :: v' ++ e). split; [apply Ws_line1, LineComment_slash; assumption|].
    cbn. rewrite <- app_assoc. reflexivity. }
  clear H. destruct (simple_inline_comment s) as [(r' & v' & H)|H]; rewrite H.
  - intros [= -> _]. apply inline_comment_ok in H as (c & Hc & ->).
    exists c. split; [apply Ws_inline1; exact Hc|reflexivity].
  - unfold eat_separator, take_while. fold blank4. destruct (span blank4 s) as [a b] eqn:E. intros [= <- <-].
    apply span_spec in E as (-> & Ha & _). exists a. split; [apply Ws_blanks; exact Ha|reflexivity].
Qed.

Lemma iws_rest_sound s : exists w, Iws w /\ s = w ++ iws_rest s.
Proof.
  remember (length s) as n eqn:En. revert s En; induction n as [n IH] using lt_wf_ind; intros s ->.
  rewrite iws_rest_step.
  destruct (simple_iws_item s) as [(r & v & H)|H]; rewrite H; [|exists []; split; [constructor|reflexivity]].
  destruct (str_eqb r s) eqn:E; [exists []; split; [constructor|reflexivity]|].
  apply str_eqb_neq in E. destruct (iws_item_sound _ _ _ H) as (w & Hw & ->).
  assert (Hl : (length r < length (w ++ r))%nat) by (apply suffix_neq_len; [apply suffix_app|exact E]).
  destruct (IH _ Hl r eq_refl) as (w' & Hw' & Er). exists (w ++ w').
  split; [apply Iws_app; assumption|]. rewrite <- app_assoc, <- Er. reflexivity.
Qed.
Lemma ws_rest_sound s : exists w, Ws w /\ s = w ++ ws_rest s.
Proof.
  remember (length s) as n eqn:En. revert s En; induction n as [n IH] using lt_wf_ind; intros s ->.
  rewrite ws_rest_step.
  destruct (simple_ws_item s) as [(r & v & H)|H]; rewrite H; [|exists []; split; [constructor|reflexivity]].
  destruct (str_eqb r s) eqn:E; [exists []; split; [constructor|reflexivity]|].
  apply str_eqb_neq in E. destruct (ws_item_sound _ _ _ H) as (w & Hw & ->).
  assert (Hl : (length r < length (w ++ r))%nat) by (apply suffix_neq_len; [apply suffix_app|exact E]).
  destruct (IH _ Hl r eq_refl) as (w' & Hw' & Er). exists (w ++ w').
  split; [apply Ws_app; assumption|]. rewrite <- app_assoc, <- Er. reflexivity.
Qed.

Lemma ws_rest_idem s : ws_rest (ws_rest s) = ws_rest s.
Proof.
  destruct (ws_rest_sound s) as (w & Hw & Hs).
  transitivity (ws_rest (w ++ ws_rest s)); [symmetry; apply ws_rest_ws; exact Hw|]. congruence.
Qed.
Lemma iws_rest_idem s : iws_rest (iws_rest s) = iws_rest s.
Proof.
  destruct (iws_rest_sound s) as (w & Hw & Hs).
  transitivity (iws_rest (w ++ iws_rest s)); [symmetry; apply iws_rest_iws; exact Hw|]. congruence.
Qed.
Lemma ws_rest_iws_rest s : ws_rest (iws_rest s) = ws_rest s.
Proof.
  destruct (iws_rest_sound s) as (w & Hw & Hs).
  transitivity (ws_rest (w ++ iws_rest s)); [symmetry; apply ws_rest_ws, Iws_Ws; exact Hw|]. congruence.
Qed.
Lemma iws_rest_suffix s : suffix (iws_rest s) s.
Proof. destruct (iws_rest_sound s) as (w & _ & H). exists w. exact H. Qed.
Lemma ws_rest_suffix s : suffix (ws_rest s) s.
Proof. destruct (ws_rest_sound s) as (w & _ & H). exists w. exact H. Qed.

(** Text that is not white space. *)
Lemma iws_rest_nil : iws_rest [] = [].
Proof. reflexivity. Qed.
Lemma ws_rest_nil : ws_rest [] = [].
Proof. reflexivity. Qed.
Lemma iws_rest_stop c s : c <> 32 -> c <> 9 -> c <> 47 -> iws_rest (c :: s) = c :: s.
Proof.
  intros H1 H2 H3. rewrite iws_rest_step, iws_item_eat by (apply inline_comment_first; exact H3).
  cbn [span]. replace (blank2 c) with false by (symmetry; apply not_true_is_false; rewrite blank2_spec; lia).
  rewrite str_eqb_refl. reflexivity.
Qed.
Lemma ws_rest_stop c s : c <> 32 -> c <> 9 -> c <> 10 -> c <> 13 -> c <> 35 -> c <> 47 ->
  ws_rest (c :: s) = c :: s.
Proof.
  intros. rewrite ws_rest_step, ws_item_eat
    by (first [apply hash_comment_first|apply slash_comment_first|apply inline_comment_first]; lia).
  cbn [span]. replace (blank4 c) with false by (symmetry; apply not_true_is_false; rewrite blank4_spec; lia).
  rewrite str_eqb_refl. reflexivity.
Qed.
Lemma iws_rest_slash c s : c <> 42 -> iws_rest (47 :: c :: s) = 47 :: c :: s.
Proof.
  intros H. rewrite iws_rest_step, iws_item_eat by (apply inline_comment_second; exact H).
  cbn [span]. replace (blank2 47) with false by reflexivity.
  rewrite str_eqb_refl. reflexivity.
Qed.
Lemma iws_rest_LineEnd n s : LineEnd n -> iws_rest (n ++ s) = n ++ s.
Proof.
  intros [e [|]|c [t e Ht He|t e Ht He]]; cbn [app].
  - apply iws_rest_stop; lia.
  - apply iws_rest_stop; lia.
  - apply iws_rest_stop; lia.
  - apply iws_rest_slash. lia.
Qed.

(** ** [newline] *)
Lemma newline_item_sound s r v : newline_item s = Ok r v -> exists w, Ws w /\ s = w ++ r.
Proof.
  unfold newline_item, alt. destruct (simple_hash_comment s) as [(r' & v' & H)|H]; rewrite H.
  { intros [= -> _]. apply hash_comment_ok in H as (e & Hv & He & ->).
    exists (35 :: v' ++ e). split; [apply Ws_line1, LineComment_hash; assumption|].
    cbn. rewrite <- app_assoc. reflexivity. }
  clear H. destruct (simple_slash_comment s) as [(r' & v' & H)|H]; rewrite H.
  { intros [= -> _]. apply slash_comment_ok in H as (e & Hv & He & ->).
    exists (47 :: 47 :: v' ++ e). split; [apply Ws_line1, LineComment_slash; assumption|].
    cbn. rewrite <- app_assoc. reflexivity. }
  clear H. destruct (terminated inline_comment eol s) as [r' v'| | | |] eqn:H; try discriminate.
  - intros [= -> _]. unfold terminated in H. apply bind_ok in H as (r1 & v1 & H1 & H).
    apply bind_ok in H as (r2 & v2 & H2 & H). injection H as <- <-.
    apply inline_comment_ok in H1 as (c & Hc & ->). apply eol_ok in H2 as [He ->].
    exists (c ++ v2). split; [apply Ws_app; [apply Ws_inline1|apply Ws_eol]; assumption|].
    rewrite <- app_assoc. reflexivity.
  - intros H'. apply eol_ok in H' as [He ->]. exists v. split; [apply Ws_eol; exact He|reflexivity].
Qed.
Lemma newline_many_sound s r v : many0 newline_item s = Ok r v -> exists w, Ws w /\ s = w ++ r.
Proof.
  remember (length s) as n eqn:En. revert s r v En; induction n as [n IH] using lt_wf_ind; intros s r v ->.
  rewrite many0_eq by (apply wf_upto_of, wf_newline_item).
  destruct (simple_newline_item s) as [(r' & v' & H)|H]; rewrite H.
  - destruct (str_eqb r' s) eqn:E.
    + intros [= <- _]. exists []. split; [constructor|reflexivity].
    + apply str_eqb_neq in E. destruct (newline_item_sound _ _ _ H) as (w & Hw & ->).
      intros H'. apply map_res_ok in H' as (v2 & H' & _).
      assert (Hl : (length r' < length (w ++ r'))%nat) by (apply suffix_neq_len; [apply suffix_app|exact E]).
      destruct (IH _ Hl r' r v2 eq_refl H') as (w' & Hw' & Er).
      exists (w ++ w'). split; [apply Ws_app; assumption|]. rewrite <- app_assoc, <- Er. reflexivity.
  - intros [= <- _]. exists []. split; [constructor|reflexivity].
Qed.

Lemma newline_item_LineEnd n s : LineEnd n -> exists v, newline_item (n ++ s) = Ok s v.
Proof.
  intros [e He|c Hc].
  - exists e. unfold newline_item, alt, terminated.
    assert (H1 : hash_comment (e ++ s) = Err) by (destruct He; apply hash_comment_first; lia).
    assert (H2 : slash_comment (e ++ s) = Err) by (destruct He; apply slash_comment_first; lia).
    assert (H3 : inline_comment (e ++ s) = Err) by (destruct He; apply inline_comment_first; lia).
    rewrite H1, H2, H3. cbn [bind]. apply eol_eq. exact He.
  - destruct (LineComment_item c s Hc) as [v [E|[E1 E2]]]; exists v;
      unfold newline_item, alt; [rewrite E|rewrite E1, E2]; reflexivity.
Qed.

(** [newline] after inline white space has been skipped: one line end, then more
    white space. *)
Lemma newline_complete n s : LineEnd n ->
  exists r v, newline (n ++ s) = Ok r v /\ ws_rest r = ws_rest s.
Proof.
  intros Hn. unfold newline. rewrite many1_eq.
  destruct (newline_item_LineEnd n s Hn) as [v E]. rewrite E. cbn [bind].
  destruct (many0_total newline_item wf_newline_item simple_newline_item s) as (r & v' & H).
  rewrite H. cbn. exists r, (v :: v'). split; [reflexivity|].
  apply newline_many_sound in H as (w & Hw & ->). symmetry. apply ws_rest_ws. exact Hw.
Qed.

Lemma newline_sound s r v : newline s = Ok r v -> iws_rest s = s ->
  exists n w, LineEnd n /\ Ws w /\ s = n ++ w ++ r.
Proof.
  unfold newline. rewrite many1_eq. intros H Hi.
  apply bind_ok in H as (r1 & v1 & H1 & H). apply map_res_ok in H as (v2 & H & _).
  apply newline_many_sound in H as (w & Hw & ->).
  revert H1. unfold newline_item, alt.
  destruct (simple_hash_comment s) as [(r' & v' & H)|H]; rewrite H.
  { intros [= -> _]. apply hash_comment_ok in H as (e & Hv & He & ->).
    exists (35 :: v' ++ e), w. split; [apply LE_comment, LineComment_hash; assumption|].
    split; [exact Hw|]. cbn. rewrite <- app_assoc. reflexivity. }
  clear H. destruct (simple_slash_comment s) as [(r' & v' & H)|H]; rewrite H.
  { intros [= -> _]. apply slash_comment_ok in H as (e & Hv & He & ->).
    exists (47 :: 47 :: v' ++ e), w. split; [apply LE_comment, LineComment_slash; assumption|].
    split; [exact Hw|]. cbn. rewrite <- app_assoc. reflexivity. }
  clear H. destruct (terminated inline_comment eol s) as [r' v'| | | |] eqn:H; try discriminate.
  - intros _. exfalso. unfold terminated in H. apply bind_ok in H as (r0 & v0 & H1 & H).
    apply inline_comment_ok in H1 as (c & Hc & ->). rewrite iws_rest_comment in Hi by exact Hc.
    pose proof (iws_rest_suffix r0) as Hs. rewrite Hi in Hs. apply suffix_len in Hs.
    rewrite app_length in Hs. destruct Hc. cbn [length app] in Hs. lia.
  - intros H'. apply eol_ok in H' as [He ->]. exists v1, w.
    split; [apply LE_eol; exact He|]. auto.
Qed.

Lemma newline_err s :
  (forall n r, LineEnd n -> s <> n ++ r) -> iws_rest s = s -> newline s = Err.
Proof.
  intros H Hi. destruct (simple_newline s) as [(r & v & E)|E]; [|exact E].
  destruct (newline_sound _ _ _ E Hi) as (n & w & Hn & _ & ->).
  exfalso. eapply H; [exact Hn|reflexivity].
Qed.

Lemma newline_first_err c s : c <> 10 -> c <> 13 -> c <> 35 -> c <> 47 -> newline (c :: s) = Err.
Proof.
  intros H1 H2 H3 H4. unfold newline. rewrite many1_eq. unfold newline_item at 1, alt, terminated.
  rewrite hash_comment_first, slash_comment_first, inline_comment_first, eol_first_err by lia. reflexivity.
Qed.
