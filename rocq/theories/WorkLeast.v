(** * WorkLeast: every character that is read is paid for *)
From Coq Require Import Lia.
From Verif Require Import Base Nom NomFacts Ast Lex Grammar Parser CallCount CallProofs WorkCount.
Open Scope nat_scope.
Local Notation ln := (@length N).
(** a result of which the steps and what is left are together at least [n] *)
Definition PB {A} (n : nat) (x : res A * nat) : Prop := match fst x with Ok r _ => n <= snd x + ln r | _ => True end.
Definition Pays {A} (p : cparser A) : Prop := forall s, PB (ln s) (p s).
Lemma pb_bind {A B} n (x : res A * nat) (k : str -> A -> res B * nat) : PB n x -> (forall r v, PB (ln r) (k r v)) -> PB n (cbind x k).
Proof.
  unfold PB. intros H K. destruct x as [[r v| | | |] m]; cbn [cbind add fst snd] in *; try exact I. specialize (K r v). destruct (fst (k r v)); try exact I. lia.
Qed.
Lemma pb_ret {A} r (v : A) m : PB (ln r) (Ok r v, m). Proof. unfold PB. cbn. lia. Qed.
Lemma pb_err {A} n m : PB n (@Err A, m). Proof. exact I. Qed.
Lemma pb_add {A} n m (x : res A * nat) : PB n x -> PB n (add m x).
Proof. unfold PB. cbn [add fst snd]. destruct (fst x); lia. Qed.
Lemma pb_more {A} a b (x : res A * nat) : PB b x -> PB (a + b) (add a x).
Proof. unfold PB. cbn [add fst snd]. destruct (fst x); lia. Qed.
Lemma pb_map {A B} n (f : A -> B) (x : res A * nat) : PB n x -> PB n (map_res f (fst x), snd x).
Proof. unfold PB. destruct x as [[r v| | | |] m]; cbn; auto. Qed.
Create HintDb py.
#[local] Hint Resolve pb_ret pb_err : py.
Lemma py_alt {A} (p q : cparser A) : Pays p -> Pays q -> Pays (calt p q).
Proof. intros Hp Hq s. unfold calt. specialize (Hp s). destruct (p s) as [[r v| | | |] n]; try exact Hp. apply pb_add, Hq. Qed.
Lemma py_opt {A} (p : cparser A) : Pays p -> Pays (copt p).
Proof. intros Hp s. unfold copt. specialize (Hp s). destruct (p s) as [[r v| | | |] n]; try exact Hp. unfold PB. cbn. lia. Qed.
Lemma py_pmap {A B} (f : A -> B) (p : cparser A) : Pays p -> Pays (wpmap f p).
Proof. intros Hp s. unfold wpmap. specialize (Hp s). unfold PB in *. destruct (p s) as [[r v| | | |] n]; cbn in *; auto. Qed.
Lemma py_pre {A B} (p : cparser A) (q : cparser B) : Pays p -> Pays q -> Pays (cpreceded p q).
Proof. intros Hp Hq s. apply pb_bind; [apply Hp|]. intros r v. apply Hq. Qed.
Lemma py_term {A B} (p : cparser A) (q : cparser B) : Pays p -> Pays q -> Pays (cterminated p q).
Proof. intros Hp Hq s. apply pb_bind; [apply Hp|]. intros r v. apply pb_bind; [apply Hq|]. intros; apply pb_ret. Qed.
Lemma py_delim {A B C} (p : cparser A) (q : cparser B) (t : cparser C) : Pays p -> Pays q -> Pays t -> Pays (cdelimited p q t).
Proof. intros Hp Hq Ht s. apply pb_bind; [apply Hp|]. intros r v. apply pb_bind; [apply Hq|]. intros r' v'. apply pb_bind; [apply Ht|]. intros; apply pb_ret. Qed.
Lemma py_rec {A} (p : cparser A) : Pays p -> Pays (crecognize p).
Proof. intros Hp s. apply pb_bind; [apply Hp|]. intros; apply pb_ret. Qed.
Lemma py_peek {A} (p : cparser A) : Pays (cpeek p).
Proof. intros s. unfold cpeek, PB. destruct (p s) as [[r v| | | |] n]; cbn; auto. lia. Qed.
Lemma py_verify {A} (p : cparser A) f : Pays p -> Pays (cverify p f).
Proof. intros Hp s. apply pb_bind; [apply Hp|]. intros r v. destruct (f v); [apply pb_ret|exact I]. Qed.
Lemma py_rerr {A} (p : cparser A) : Pays p -> Pays (creturn_error p).
Proof. intros Hp s. unfold creturn_error. specialize (Hp s). destruct (p s) as [[r v| | | |] n]; try exact I. exact Hp. Qed.
Lemma py_mopt {B} (p : cparser str) (f : str -> option B) : Pays p -> Pays (cmap_opt p f).
Proof. intros Hp s. apply pb_bind; [apply Hp|]. intros r v. destruct (f v); [apply pb_ret|exact I]. Qed.
Lemma py_many_loop {A} (p : cparser A) : Pays p -> forall f, Pays (cmany0_loop f p).
Proof.
  intros Hp. induction f as [|f IH]; intros s; [exact I|]. cbn [cmany0_loop]. specialize (Hp s). destruct (p s) as [[r v| | | |] n]; try exact I; [|unfold PB; cbn; lia].
  destruct (str_eqb r s); [unfold PB; cbn; lia|]. specialize (IH r). cbn zeta. unfold PB in *. destruct (cmany0_loop f p r) as [[r' v'| | | |] m]; cbn in *; auto. lia.
Qed.
Lemma py_many0 {A} (p : cparser A) : Pays p -> Pays (cmany0 p).
Proof. intros Hp s. apply py_many_loop, Hp. Qed.
Lemma py_many1 {A} (p : cparser A) : Pays p -> Pays (cmany1 p).
Proof. intros Hp s. apply pb_bind; [apply Hp|]. intros r v. apply pb_map, py_many_loop, Hp. Qed.
Lemma py_sep_loop {A B} (q : cparser B) (p : cparser A) : Pays q -> Pays p -> forall f, Pays (wsep_loop f q p).
Proof.
  intros Hq Hp. induction f as [|f IH]; intros s; [exact I|]. cbn [wsep_loop]. specialize (Hq s). destruct (q s) as [[s2 v| | | |] n]; try exact I; [|unfold PB; cbn; lia].
  destruct (_ =? _); [unfold PB; cbn; lia|]. specialize (Hp s2). destruct (p s2) as [[s3 v3| | | |] m]; try exact I; [|unfold PB; cbn; lia].
  destruct (_ =? _); [exact I|]. specialize (IH s3). cbn zeta. unfold PB in *. destruct (wsep_loop f q p s3) as [[r' v'| | | |] k]; cbn in *; auto. lia.
Qed.
Lemma py_sep {A B} (q : cparser B) (p : cparser A) : Pays q -> Pays p -> Pays (wseparated_list q p).
Proof.
  intros Hq Hp s. unfold wseparated_list. pose proof (Hp s) as H. destruct (p s) as [[r v| | | |] n]; try exact I; [|unfold PB; cbn; lia].
  destruct (_ =? _); [exact I|]. pose proof (py_sep_loop q p Hq Hp (S (ln r)) r) as L. cbn zeta. unfold PB in *. destruct (wsep_loop _ q p r) as [[r' v'| | | |] k]; cbn in *; auto. lia.
Qed.
Lemma py_esc_loop normal t : Pays t -> forall f, Pays (wescaped_loop f normal t).
Proof.
  intros Ht. induction f as [|f IH]; intros s; [exact I|]. cbn [wescaped_loop]. destruct s as [|c s']; [unfold PB; cbn; lia|].
  destruct (span normal (c :: s')) as [[|a a'] b] eqn:E.
  - destruct (c =? c_backslash)%N; [|unfold PB; cbn; lia]. destruct s' as [|c' s'']; [exact I|].
    assert (X : PB (ln (c' :: s'')) (cbind (t (c' :: s'')) (fun r o => let x := wescaped_loop f normal t r in (map_res (app o) (fst x), snd x)))).
    { apply pb_bind; [apply Ht|]. intros r o. apply pb_map, IH. }
    unfold PB in *. cbn [add fst snd length] in *. destruct (fst (cbind _ _)); try exact I. lia.
  - apply span_spec in E as (E & _). rewrite E, app_length. specialize (IH b). cbn zeta. unfold PB in *. destruct (wescaped_loop f normal t b) as [[r' v'| | | |] k]; cbn in *; auto. lia.
Qed.
Lemma py_esc normal t : Pays t -> Pays (wescaped_transform normal t).
Proof. intros Ht s. apply py_esc_loop, Ht. Qed.
Lemma py_till {A} (p : cparser A) : Pays p -> Pays (wtake_till_match p).
Proof.
  intros Hp s. induction s as [|c s' IH]; [exact I|]. cbn [wtake_till_match]. specialize (Hp (c :: s')). destruct (p (c :: s')) as [[r v| |q| |] n]; try exact I.
  - unfold PB in *. cbn [fst snd length] in *. lia.
  - cbn zeta. unfold PB in *. destruct (wtake_till_match p s') as [[r' v'| | | |] k]; cbn in *; auto. lia.
  - cbn zeta. unfold PB in *. destruct (wtake_till_match p s') as [[r' v'| | | |] k]; cbn in *; auto. lia.
Qed.
(** ** The primitives *)
Lemma prefix_compared t s r : strip_prefix t s = Some r -> ln s <= compared t s + ln r.
Proof.
  revert s. induction t as [|x t IH]; intros s; [cbn; intros [= <-]; lia|]. destruct s as [|y s]; [discriminate|]. cbn. destruct (x =? y)%N; [|discriminate]. intros H. apply IH in H. cbn. lia.
Qed.
Lemma py_tag t : Pays (w_tag t).
Proof. intros s. unfold w_tag, prim, tag, PB. cbn. destruct (strip_prefix t s) eqn:E; cbn; auto. apply prefix_compared in E. lia. Qed.
Lemma py_char c : Pays (w_char c).
Proof. intros [|d s]; unfold w_char, prim, char_p, PB; cbn; auto. destruct (_ =? _)%N; cbn; auto. Qed.
Lemma span_len q s : ln s = ln (fst (span q s)) + ln (snd (span q s)).
Proof. destruct (span q s) as [a b] eqn:E. apply span_spec in E as (-> & _). apply app_length. Qed.
Lemma py_tw q : Pays (w_take_while q).
Proof. intros s. unfold w_take_while, prim, take_while, PB, run. pose proof (span_len q s). destruct (span q s); cbn in *. lia. Qed.
Lemma py_tw1 q : Pays (w_take_while1 q).
Proof. intros s. unfold w_take_while1, prim, take_while1, PB, run. pose proof (span_len q s). destruct (span q s) as [[|a a'] b]; cbn in *; auto; lia. Qed.
Lemma py_eof : Pays w_eof.
Proof. intros [|c s]; unfold w_eof, prim, eof, PB; cbn; auto. Qed.
#[local] Hint Resolve py_alt py_opt py_pmap py_pre py_term py_delim py_rec py_peek py_verify py_rerr py_mopt py_many0 py_many1 py_sep py_esc py_till py_tag py_char py_tw py_tw1 py_eof : py.
Lemma py_twmn m n q : Pays (w_take_while_m_n m n q).
Proof.
  intros s. unfold w_take_while_m_n, prim, take_while_m_n, PB, run. pose proof (span_len q s). destruct (span q s) as [a b]. cbn [fst snd] in *.
  destruct (m <=? ln a); cbn [fst snd]; [|exact I]. rewrite skipn_length. lia.
Qed.
Lemma py_tu t : Pays (w_take_until t).
Proof.
  intros s. unfold w_take_until, prim, take_until, PB. cbn [fst snd].
  assert (H : forall a b, find_split t s = Some (a, b) -> ln s <= searched t s + ln b).
  { induction s as [|c s IH]; intros a b H.
    - cbn. lia.
    - cbn [find_split searched] in *. destruct (strip_prefix t (c :: s)).
      + injection H as _ <-. lia.
      + destruct (find_split t s) as [[a' b']|]; [|discriminate]. injection H as _ <-. specialize (IH _ _ eq_refl). cbn [length]. lia. }
  destruct (find_split t s) as [[a b]|]; [|exact I]. exact (H _ _ eq_refl).
Qed.
#[local] Hint Resolve py_twmn py_tu : py.
Ltac pyb := repeat (first [apply pb_bind; [solve [match goal with |- PB (@length _ ?s) (?p ?s) => apply (fun H : Pays p => H s); auto 12 with py end]|intros ? ?] | apply pb_ret]).
(** ** The tokens *)
Lemma py_eol : Pays weol. Proof. unfold weol. auto with py. Qed.
#[local] Hint Resolve py_eol : py.
Lemma py_ic : Pays winline_comment. Proof. unfold winline_comment. auto with py. Qed.
Lemma py_hc : Pays whash_comment. Proof. unfold whash_comment. auto with py. Qed.
Lemma py_sc : Pays wslash_comment. Proof. unfold wslash_comment. auto with py. Qed.
Lemma py_eat l : Pays (weat_separator l). Proof. unfold weat_separator. auto with py. Qed.
#[local] Hint Resolve py_ic py_hc py_sc py_eat : py.
Lemma py_iws0 : Pays winline_whitespace. Proof. unfold winline_whitespace. auto with py. Qed.
Lemma py_ws0 : Pays wwhitespace. Proof. unfold wwhitespace. auto 10 with py. Qed.
Lemma py_ni : Pays wnewline_item. Proof. unfold wnewline_item. auto 10 with py. Qed.
#[local] Hint Resolve py_iws0 py_ws0 py_ni : py.
Lemma py_nl : Pays wnewline. Proof. unfold wnewline. auto with py. Qed.
Lemma py_wrap {A} sp (p : cparser A) : Pays sp -> Pays p -> Pays (wwrap sp p). Proof. intros. apply py_pre; assumption. Qed.
Lemma py_iws {A} (p : cparser A) : Pays p -> Pays (winline_whitespace_m p). Proof. intros. apply py_term; auto with py. Qed.
Lemma py_ws {A} (p : cparser A) : Pays p -> Pays (wwhitespace_m p). Proof. intros. apply py_term; auto with py. Qed.
#[local] Hint Resolve py_nl py_wrap py_iws py_ws : py.
Lemma py_id U : Pays (widentifier U). Proof. unfold widentifier. auto with py. Qed.
Lemma py_bool : Pays wboolean. Proof. unfold wboolean. auto with py. Qed.
Lemma py_null : Pays wnull. Proof. unfold wnull. auto with py. Qed.
Lemma py_digit : Pays wdigit. Proof. unfold wdigit. auto with py. Qed.
Lemma py_sign : Pays wsign_char. Proof. unfold wsign_char. auto with py. Qed.
#[local] Hint Resolve py_id py_bool py_null py_digit py_sign : py.
Lemma py_exp : Pays wexponent. Proof. apply py_opt. intros s. pyb. Qed.
Lemma py_dec : Pays (copt (fun s1 => let+ (q1, _dot) := w_char c_dot s1 in copt wdigit q1)).
Proof. apply py_opt. intros s. apply pb_bind; [apply py_char|]. intros r v. apply (py_opt _ py_digit). Qed.
#[local] Hint Resolve py_dec : py.
Lemma py_mant : Pays wmantissa.
Proof.
  apply py_alt; intros s.
  - apply pb_bind; [apply py_digit|]. intros r v. apply pb_bind; [apply py_dec|]. intros. apply pb_ret.
  - pyb.
Qed.
#[local] Hint Resolve py_exp py_mant : py.
Lemma py_num : Pays wnumber. Proof. intros s. unfold wnumber. pyb. Qed.
Lemma py_hex c n : Pays (whex_escape c n). Proof. unfold whex_escape. auto with py. Qed.
#[local] Hint Resolve py_num py_hex : py.
Lemma py_uni : Pays whex_to_unicode. Proof. unfold whex_to_unicode. auto 10 with py. Qed.
Lemma py_oct : Pays woctal_escape. Proof. unfold woctal_escape. auto with py. Qed.
#[local] Hint Resolve py_uni py_oct : py.
Lemma py_unesc : Pays wunescape. Proof. unfold wunescape. repeat (apply py_alt; [auto with py|]). auto with py. Qed.
#[local] Hint Resolve py_unesc : py.
Lemma py_quot : Pays wquoted_string. Proof. unfold wquoted_string. auto with py. Qed.
Lemma py_lit : Pays wstring_literal. Proof. unfold wstring_literal. auto with py. Qed.
Lemma py_sp0 : Pays wspace0. Proof. unfold wspace0. auto with py. Qed.
#[local] Hint Resolve py_quot py_lit py_sp0 : py.
Lemma py_hb U : Pays (wheredoc_begin U). Proof. intros s. unfold wheredoc_begin. pyb. Qed.
Lemma py_he h : Pays (wheredoc_end h). Proof. intros s. unfold wheredoc_end. pyb. Qed.
#[local] Hint Resolve py_hb py_he : py.
Lemma py_hd U : Pays (wheredoc_string U).
Proof.
  intros s. unfold wheredoc_string. apply pb_bind; [apply py_hb|]. intros r1 h. apply pb_bind; [|intros r v; destruct (unindent_heredoc _ _); [apply pb_ret|exact I]].
  apply (py_alt (wpmap (fun _ => ([] : str, O)) (wheredoc_end h)) (fun s1 => let+ (q1, _e) := weol s1 in wtake_till_match (wheredoc_end h) q1)); [auto with py|].
  intros s1. apply pb_bind; [apply py_eol|]. intros. apply py_till, py_he.
Qed.
#[local] Hint Resolve py_hd : py.
Lemma py_str U : Pays (wstring_p U). Proof. unfold wstring_p. auto with py. Qed.
#[local] Hint Resolve py_str : py.
(** ** Expressions and documents *)
Section U.
Context (U : ucd).
Lemma py_tuple p : Pays p -> Pays (wtuple p). Proof. intros H. unfold wtuple. auto 12 with py. Qed.
Lemma py_key p : Pays p -> Pays (wobject_element_identifier U p). Proof. intros H. unfold wobject_element_identifier. auto 12 with py. Qed.
#[local] Hint Resolve py_tuple py_key : py.
Lemma py_elem p : Pays p -> Pays (wobject_element U p). Proof. intros H. apply py_iws. intros s. pyb. Qed.
Lemma py_osep : Pays wobject_separator. Proof. unfold wobject_separator. auto 10 with py. Qed.
#[local] Hint Resolve py_elem py_osep : py.
Lemma py_obody p : Pays p -> Pays (wobject_body U p). Proof. intros H. unfold wobject_body. auto 10 with py. Qed.
#[local] Hint Resolve py_obody : py.
Lemma py_obj p : Pays p -> Pays (wobject U p). Proof. intros H s. unfold wobject. pyb. Qed.
Lemma py_br p : Pays p -> Pays (wbracket_expression p). Proof. intros H s. unfold wbracket_expression. pyb. Qed.
#[local] Hint Resolve py_obj py_br : py.
Lemma py_step p : Pays p -> Pays (wexpression_step U p). Proof. intros H. unfold wexpression_step. repeat (apply py_alt; [auto with py|]). auto with py. Qed.
Lemma py_expr_f f : Pays (wexpression_f U f). Proof. induction f as [|f IH]; [intros s; exact I|]. apply py_step, IH. Qed.
Theorem py_expr : Pays (wexpression U). Proof. intros s. apply py_expr_f. Qed.
#[local] Hint Resolve py_expr : py.
Lemma py_attr : Pays (wattribute U). Proof. apply py_iws. intros s. pyb. Qed.
Lemma py_label : Pays (wblock_label U). Proof. unfold wblock_label. auto with py. Qed.
#[local] Hint Resolve py_attr py_label : py.
Lemma py_labels : Pays (wblock_labels U). Proof. unfold wblock_labels. auto with py. Qed.
#[local] Hint Resolve py_labels : py.
Lemma py_one : Pays (wone_line_block U). Proof. apply py_iws. intros s. pyb. Qed.
Lemma py_block p : Pays p -> Pays (wblock U p). Proof. intros H. apply py_iws. intros s. pyb. Qed.
#[local] Hint Resolve py_one py_block : py.
Lemma py_bstep p : Pays p -> Pays (wbody_step U p). Proof. intros H. unfold wbody_step, wbody_element. auto 16 with py. Qed.
Lemma py_body_f f : Pays (wbody_f U f). Proof. induction f as [|f IH]; [intros s; exact I|]. apply py_bstep, IH. Qed.
Theorem py_config_file : Pays (wconfig_file U). Proof. apply py_term; [intros s; apply py_body_f|apply py_eof]. Qed.
End U.
