(** * PropErrors: C59, classification of parse errors *)
From Verif Require Import Base Utf8 IoSpec PropIo Errors.

(** ** Specification *)
(** The text shown for the input at which an error was raised: the input itself, or
    "UNKNOWN" when it is bytes that are not UTF-8. *)
Inductive ShownStr {I} (as_ref : I -> str) : I -> str -> Prop :=
| ShownStr_intro i : ShownStr as_ref i (as_ref i).
Inductive ShownBytes {I} (as_bytes : I -> list N) : I -> str -> Prop :=
| ShownBytes_utf8 i s : IsStr s -> as_bytes i = utf8 s -> ShownBytes as_bytes i s
| ShownBytes_other i : (forall s, IsStr s -> as_bytes i <> utf8 s) -> ShownBytes as_bytes i (lit "UNKNOWN").
(** What an error code stands for. *)
Inductive CodeError {IoE Utf8E I} (as_bytes : I -> list N) (shown : I -> str -> Prop) : I -> N -> error IoE Utf8E -> Prop :=
| CE_code_point i t : shown i t -> CodeError as_bytes shown i 0 (EInvalidUnicodeCodePoint t)
| CE_unicode i : CodeError as_bytes shown i 1 (EInvalidUnicode (as_bytes i))
| CE_number i t : shown i t -> CodeError as_bytes shown i 2 (EInvalidNumber t).
(** The entry of a context that decides: the only one, or the last one. *)
Inductive Decides {I E} : context I E -> I -> error_kind E -> Prop :=
| Decides_code i k : Decides (CCode i k) i k
| Decides_last l i k : Decides (CList (l ++ [(i, k)])) i k.
(** [from_err_*]: a failure whose deciding entry has a known code is that code's error,
    everything else is a [ParseError] with the text of the nom error. *)
Inductive Classified {IoE Utf8E I} (as_bytes : I -> list N) (shown : I -> str -> Prop) (display : nom_err I N -> str) :
  nom_err I N -> error IoE Utf8E -> Prop :=
| Cl_code c i n e : Decides c i (KCustom n) -> CodeError as_bytes shown i n e -> Classified as_bytes shown display (NFailure c) e
| Cl_other x : (forall c i n, x = NFailure c -> Decides c i (KCustom n) -> 3 <= n) ->
    Classified as_bytes shown display x (EParseError (display x)).
(** [make_custom_err_*]: entry by entry. *)
Inductive EntryAs {IoE Utf8E I} (as_bytes : I -> list N) (shown : I -> str -> Prop) : I * error_kind N -> I * error_kind (error IoE Utf8E) -> Prop :=
| EA_code i n e : CodeError as_bytes shown i n e -> EntryAs as_bytes shown (i, KCustom n) (i, KCustom e)
| EA_unknown i n : 3 <= n -> EntryAs as_bytes shown (i, KCustom n) (i, KCustom (EParseError (lit "UNKNOWN")))
| EA_nom i d : EntryAs as_bytes shown (i, KNom d) (i, KCustom (EParseError d)).
Inductive ContextAs {IoE Utf8E I} (as_bytes : I -> list N) (shown : I -> str -> Prop) : context I N -> context I (error IoE Utf8E) -> Prop :=
| CA_code i k k' : EntryAs as_bytes shown (i, k) (i, k') -> ContextAs as_bytes shown (CCode i k) (CCode i k')
| CA_list l l' : Forall2 (EntryAs as_bytes shown) l l' -> ContextAs as_bytes shown (CList l) (CList l').
Inductive ErrAs {IoE Utf8E I} (as_bytes : I -> list N) (shown : I -> str -> Prop) : nom_err I N -> nom_err I (error IoE Utf8E) -> Prop :=
| ErrA_incomplete n : ErrAs as_bytes shown (NIncomplete n) (NIncomplete n)
| ErrA_error c c' : ContextAs as_bytes shown c c' -> ErrAs as_bytes shown (NError c) (NError c')
| ErrA_failure c c' : ContextAs as_bytes shown c c' -> ErrAs as_bytes shown (NFailure c) (NFailure c').

(** ** Proofs *)
(** [convert] shows [shown] *)
Definition Shows {I} (convert : I -> option str) (shown : I -> str -> Prop) : Prop :=
  forall i t, shown i t <-> t = match convert i with Some s => s | None => lit "UNKNOWN" end.
Lemma shows_str I (as_ref : I -> str) : Shows (fun i => Some (as_ref i)) (ShownStr as_ref).
Proof. intros i t. split; [intros []; reflexivity|intros ->; constructor]. Qed.
Lemma shows_bytes I (as_bytes : I -> list N) : Shows (fun i => from_utf8 (as_bytes i)) (ShownBytes as_bytes).
Proof.
  intros i t. destruct (from_utf8 (as_bytes i)) as [s|] eqn:E.
  - destruct (from_utf8_sound _ _ _ (le_n _) E) as [Hs Eb]. split.
    + intros H. inversion H as [i' s' Hs' Eb' E1 E2|i' Hn E1 E2]; subst; [|elim (Hn s Hs Eb)].
      rewrite Eb', from_utf8_complete in E by assumption. congruence.
    + intros ->. constructor; assumption.
  - split.
    + intros H. inversion H as [i' s' Hs' Eb' E1 E2|i' Hn E1 E2]; subst; [|reflexivity].
      rewrite Eb', from_utf8_complete in E by assumption. discriminate.
    + intros ->. constructor 2. intros s Hs Eb. rewrite Eb, from_utf8_complete in E by assumption. discriminate.
Qed.

Lemma kind_none n : kind_from_u32 n = None <-> 3 <= n.
Proof.
  destruct n as [|[[p|p|]|[p|p|]|]]; cbn; split; intros H; try reflexivity; try discriminate H; lia.
Qed.
Section One.
Context {IoE Utf8E I : Type} (as_bytes : I -> list N) (convert : I -> option str) (shown : I -> str -> Prop) (HS : Shows convert shown).
Lemma code_some i n e : @from_input_and_code IoE Utf8E I as_bytes convert i n = Some e <-> CodeError as_bytes shown i n e.
Proof.
  unfold from_input_and_code. split.
  - destruct (kind_from_u32 n) as [[]|] eqn:E; intros H; try discriminate H; injection H as <-;
      assert (E2 : n = 0 \/ n = 1 \/ n = 2) by
        (assert (~ 3 <= n) by (intros G; apply kind_none in G; congruence); lia);
      destruct E2 as [-> | [-> | ->]]; try discriminate E; constructor; apply HS; reflexivity.
  - intros H. destruct H as [i t H|i|i t H]; cbn; try apply HS in H; subst; reflexivity.
Qed.
Lemma code_none i n : @from_input_and_code IoE Utf8E I as_bytes convert i n = None <-> 3 <= n.
Proof.
  rewrite <- kind_none. unfold from_input_and_code. destruct (kind_from_u32 n) as [[]|]; split; intros; congruence.
Qed.
Lemma last_opt_snoc {A} (l : list A) x : last_opt (l ++ [x]) = Some x.
Proof. unfold last_opt. rewrite rev_app_distr. reflexivity. Qed.
Lemma last_opt_none {A} (l : list A) : last_opt l = None -> l = [].
Proof. unfold last_opt. destruct (rev l) as [|a r] eqn:E; [|discriminate]. intros _. rewrite <- (rev_involutive l), E. reflexivity. Qed.
Lemma context_decides c i n : Decides c i (KCustom n) -> @from_context IoE Utf8E I as_bytes convert c = from_input_and_code as_bytes convert i n.
Proof.
  intros H. remember (KCustom n) as k eqn:Ek. destruct H; subst k; cbn [from_context]; [reflexivity|]. rewrite last_opt_snoc. reflexivity.
Qed.
Lemma context_none c : (forall i n, Decides c i (KCustom n) -> 3 <= n) -> @from_context IoE Utf8E I as_bytes convert c = None.
Proof.
  intros H. destruct c as [i [n|d]|l]; cbn [from_context].
  - apply code_none. apply (H i). constructor.
  - reflexivity.
  - destruct l as [|[i k] l' _] using rev_ind; [reflexivity|]. rewrite last_opt_snoc. destruct k as [n|d]; [|reflexivity].
    apply code_none. apply (H i). constructor.
Qed.
End One.

Lemma classify {IoE Utf8E I} as_bytes convert shown (HS : @Shows I convert shown) display e (x : error IoE Utf8E) :
  from_err as_bytes display convert e = x <-> Classified as_bytes shown display e x.
Proof.
  split.
  - intros <-. destruct e as [n|c|c]; try (apply Cl_other; intros; discriminate).
    cbn [from_err]. destruct (from_context as_bytes convert c) as [x|] eqn:E.
    + assert (H : exists i n, Decides c i (KCustom n) /\ from_input_and_code as_bytes convert i n = Some x).
      { destruct c as [i [n|d]|l]; cbn [from_context] in E; try discriminate E; [exists i, n; split; [constructor|exact E]|].
        destruct l as [|[i [n|d]] l' _] using rev_ind; [discriminate E|..]; rewrite last_opt_snoc in E; [|discriminate E].
        exists i, n. split; [constructor|exact E]. }
      destruct H as (i & n & H1 & H2). eapply Cl_code; [eassumption|]. eapply code_some; eassumption.
    + apply Cl_other. intros c' i n Ec H. injection Ec as <-. rewrite (context_decides _ _ _ _ _ H) in E. eapply code_none; eassumption.
  - intros H. destruct H as [c i n x H1 H2|e H].
    + cbn [from_err]. rewrite (context_decides _ _ _ _ _ H1). eapply code_some in H2; [|eassumption]. rewrite H2. reflexivity.
    + destruct e as [n|c|c]; try reflexivity. cbn [from_err]. rewrite context_none; [reflexivity|]. intros i n Hd. exact (H c i n eq_refl Hd).
Qed.
Lemma entry_as {IoE Utf8E I} as_bytes convert shown (HS : @Shows I convert shown) i k (y : I * error_kind (error IoE Utf8E)) :
  (i, convert_kind as_bytes convert i k) = y <-> EntryAs as_bytes shown (i, k) y.
Proof.
  split.
  - intros <-. unfold convert_kind. destruct k as [n|d]; [|constructor].
    destruct (from_input_and_code as_bytes convert i n) as [e|] eqn:E.
    + constructor. eapply code_some; eassumption.
    + apply EA_unknown. eapply code_none; eassumption.
  - intros H. unfold convert_kind. inversion H as [i' n e H1 E1 E2|i' n H1 E1 E2|i' d E1 E2]; subst; f_equal; f_equal.
    + eapply code_some in H1; [|eassumption]. rewrite H1. reflexivity.
    + eapply (@code_none IoE Utf8E I as_bytes convert i) in H1. rewrite H1. reflexivity.
Qed.
Lemma entry_as_fst {IoE Utf8E I} as_bytes shown x (y : I * error_kind (error IoE Utf8E)) : EntryAs as_bytes shown x y -> fst y = fst x.
Proof. intros []; reflexivity. Qed.
Lemma custom_as {IoE Utf8E I} as_bytes convert shown (HS : @Shows I convert shown) e (y : nom_err I (error IoE Utf8E)) :
  make_custom_error as_bytes convert e = y <-> ErrAs as_bytes shown e y.
Proof.
  assert (HL : forall l l', map (fun ik => (fst ik, convert_kind as_bytes convert (fst ik) (snd ik))) l = l' <-> Forall2 (@EntryAs IoE Utf8E I as_bytes shown) l l').
  { induction l as [|[i k] l IH]; intros l'; cbn [map]; split.
    - intros <-; constructor.
    - intros H; inversion H; reflexivity.
    - intros <-. constructor; [apply (entry_as _ _ _ HS); reflexivity|apply IH; reflexivity].
    - intros H; inversion H as [|x y' l0 l1 H1 H2]; subst. apply (entry_as _ _ _ HS) in H1. apply IH in H2. subst. reflexivity. }
  assert (HC : forall c c', convert_context as_bytes convert c = c' <-> @ContextAs IoE Utf8E I as_bytes shown c c').
  { intros [i k|l] c'; cbn [convert_context]; split.
    - intros <-. constructor. apply (entry_as _ _ _ HS). reflexivity.
    - intros H. inversion H as [i' k0 k' H1|]; subst. apply (entry_as _ _ _ HS) in H1. congruence.
    - intros <-. constructor. apply HL. reflexivity.
    - intros H. inversion H as [|l0 l' H1]; subst. apply HL in H1. congruence. }
  destruct e as [n|c|c]; cbn [make_custom_error]; split; intros H.
  - subst. constructor.
  - inversion H. reflexivity.
  - subst. constructor. apply HC. reflexivity.
  - inversion H as [|c0 c' H1|]; subst. apply HC in H1. congruence.
  - subst. constructor. apply HC. reflexivity.
  - inversion H as [| |c0 c' H1]; subst. apply HC in H1. congruence.
Qed.

(** ** Theorems *)
(** The codes: a kind survives the trip through [u32], and no other number is a kind. *)
Theorem C59_codes : (forall k, kind_from_u32 (kind_to_u32 k) = Some k) /\
  (forall n k, kind_from_u32 n = Some k -> n = kind_to_u32 k) /\
  (forall n, kind_from_u32 n = None <-> 3 <= n).
Proof.
  split; [intros []; reflexivity|]. split; [|exact kind_none].
  intros n k H. assert (E : n = 0 \/ n = 1 \/ n = 2) by (assert (~ 3 <= n) by (intros G; apply kind_none in G; congruence); lia).
  destruct E as [-> | [-> | ->]]; cbn in H; injection H as <-; reflexivity.
Qed.
(** [Error::from_err_str], used by [parse_str], [value::from_str] and [Expression::from_str] *)
Theorem C59_from_err_str : forall IoE Utf8E I as_bytes as_ref display (e : nom_err I N) (x : error IoE Utf8E),
  from_err_str as_bytes as_ref display e = x <-> Classified as_bytes (ShownStr as_ref) display e x.
Proof. intros. apply classify, shows_str. Qed.
Theorem C59_from_err_bytes : forall IoE Utf8E I as_bytes display (e : nom_err I N) (x : error IoE Utf8E),
  from_err_bytes as_bytes display e = x <-> Classified as_bytes (ShownBytes as_bytes) display e x.
Proof. intros. apply classify, shows_bytes. Qed.
(** [Error::make_custom_err_str] and [make_custom_err_bytes] (macros [map_err_str!], [map_err!]) *)
Theorem C59_make_custom_err_str : forall IoE Utf8E I as_bytes as_ref (e : nom_err I N) (y : nom_err I (error IoE Utf8E)),
  make_custom_err_str as_bytes as_ref e = y <-> ErrAs as_bytes (ShownStr as_ref) e y.
Proof. intros. apply custom_as, shows_str. Qed.
Theorem C59_make_custom_err_bytes : forall IoE Utf8E I as_bytes (e : nom_err I N) (y : nom_err I (error IoE Utf8E)),
  make_custom_err_bytes as_bytes e = y <-> ErrAs as_bytes (ShownBytes as_bytes) e y.
Proof. intros. apply custom_as, shows_bytes. Qed.
(** The conversions keep the inputs (hence the positions) and their order. *)
Theorem C59_positions : forall IoE Utf8E I as_bytes as_ref (l : list (I * error_kind N)) (l' : list (I * error_kind (error IoE Utf8E))),
  make_custom_err_str as_bytes as_ref (NFailure (CList l)) = NFailure (CList l') -> map fst l' = map fst l.
Proof.
  intros IoE Utf8E I as_bytes as_ref l l' H. apply C59_make_custom_err_str in H. inversion H as [| |c c' H1]; subst. inversion H1 as [|l0 l1 H2]; subst.
  clear H H1. induction H2 as [|x y l l' Hx _ IH]; [reflexivity|]. cbn. rewrite IH. f_equal. eapply entry_as_fst; eassumption.
Qed.
(** On text both ways of reading the input agree. *)
Theorem C59_bytes_str : forall IoE Utf8E (e : nom_err str N) display,
  (forall c i k, e = NFailure c -> Decides c i k -> IsStr i) ->
  @from_err_bytes IoE Utf8E _ utf8 display e = from_err_str utf8 (fun s => s) display e.
Proof.
  intros IoE Utf8E e display H. apply C59_from_err_bytes. assert (G := proj1 (C59_from_err_str IoE Utf8E _ utf8 (fun s => s) display e _) eq_refl).
  destruct G as [c i n x H1 H2|e H1]; [|constructor 2; assumption]. econstructor; [eassumption|].
  specialize (H _ _ _ eq_refl H1). destruct H2 as [i t H2|i|i t H2]; constructor; destruct H2; constructor; auto.
Qed.
(** [?] on a reading error and on a UTF-8 error: the error's own variant with the cause in it,
    so the cause can be got back and is not taken for a parse error. *)
Theorem C59_causes : forall IoE Utf8E, (forall e : IoE, @error_from_io IoE Utf8E e = EIOError e) /\ (forall e : Utf8E, @error_from_utf8 IoE Utf8E e = EInvalidUnicodeToParse e).
Proof. split; reflexivity. Qed.
Print Assumptions C59_causes.
Print Assumptions C59_codes.
Print Assumptions C59_from_err_str.
Print Assumptions C59_from_err_bytes.
Print Assumptions C59_make_custom_err_str.
Print Assumptions C59_make_custom_err_bytes.
Print Assumptions C59_positions.

(** Concrete cases: the test [unescaping_invalid_unicode_errors] (string.rs:262-266), a
    recoverable error with the same code, and bytes that are not UTF-8. *)
Example C59_failure : @from_err_str unit unit str utf8 (fun s => s) (fun _ => lit "x")
  (NFailure (CList [(lit "D800", KNom (lit "MapRes")); (lit "UD800", KCustom 0)])) = EInvalidUnicodeCodePoint (lit "UD800").
Proof. reflexivity. Qed.
Example C59_error_is_generic : @from_err_str unit unit str utf8 (fun s => s) (fun _ => lit "x") (NError (CCode (lit "UD800") (KCustom 0))) = EParseError (lit "x").
Proof. reflexivity. Qed.
Example C59_not_last : @from_err_str unit unit str utf8 (fun s => s) (fun _ => lit "x")
  (NFailure (CList [(lit "UD800", KCustom 0); (lit "a", KNom (lit "Alt"))])) = EParseError (lit "x").
Proof. reflexivity. Qed.
Example C59_bytes_unknown : @from_err_bytes unit unit (list N) (fun b => b) (fun _ => lit "x") (NFailure (CCode [255] (KCustom 2))) = EInvalidNumber (lit "UNKNOWN") /\
  @from_err_bytes unit unit (list N) (fun b => b) (fun _ => lit "x") (NFailure (CCode [255] (KCustom 1))) = EInvalidUnicode [255] /\
  @from_err_bytes unit unit (list N) (fun b => b) (fun _ => lit "x") (NFailure (CCode [65] (KCustom 2))) = EInvalidNumber (lit "A").
Proof. repeat split; reflexivity. Qed.
