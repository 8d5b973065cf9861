(** * PropSerdeErr: C86, the errors of deserialisation name their cause *)
From Coq Require Import Permutation SpecFloat.
From Verif Require Import Base Ast NomFacts Grammar Blocks NumConv NumSpec NumProofs PropNum
  Parser ExprProofs BodyProofs Printer Reprint PropLex Serde SerdeSpec SerdeProofs PropSerde SerdeErrSpec SerdeErrProofs.
Local Open Scope nat_scope.

(** Every error, for every target type and source. *)
Theorem C86_cause : forall ord, Order ord -> forall t s e, deserialize ord t s = DeErr e -> Cause e t s.
Proof. intros ord Ho t s e H. exact (error_cause ord Ho _ t s e (le_n _) H). Qed.

(** ** Numbers of parsed sources *)
Lemma SubExpr_own x e : SubExpr x e -> SubExpr (own_expr x) (own_expr e).
Proof.
  induction 1 as [|e l Hi _ IH|k e l Hi _ IH]; [constructor| |]; cbn [own_expr].
  - eapply SE_tuple; [apply (in_map own_expr), Hi|exact IH].
  - eapply SE_object; [apply (in_map (fun kv => (fst kv, own_expr (snd kv))) _ _ Hi)|exact IH].
Qed.
Lemma SubExpr_valid U x e : ValidExpr U e -> SubExpr x e -> ValidExpr U x.
Proof.
  intros HV H. induction H as [|e l Hi _ IH|k e l Hi _ IH]; [exact HV| |].
  - inversion HV as [| | | |l0 HF|]; subst. rewrite Forall_forall in HF. apply IH, HF, Hi.
  - inversion HV as [| | | | |l0 HF]; subst. rewrite Forall_forall in HF. apply IH. apply (HF _ Hi).
Qed.
Lemma HasExpr_number U b n : ValidDoc U (own_doc b) -> HasExpr (ENumber n) (SBody b) -> exists txt, NumLit n txt.
Proof.
  intros HV H. remember (SBody b) as s eqn:E. revert b HV E. induction H as [e He|nm e b0 Hi He|t ls bd b0 Hi _ IH|p bd bb Hi _ IH]; intros b HV [= ->].
  - unfold ValidDoc, own_doc in HV. rewrite Forall_forall in HV. apply (in_map own_elem) in Hi. apply HV in Hi. inversion Hi; subst.
    apply SubExpr_own in He. eapply SubExpr_valid in He; [|eassumption]. inversion He; subst. eauto.
  - unfold ValidDoc, own_doc in HV. rewrite Forall_forall in HV. apply (in_map own_elem) in Hi. apply HV in Hi. inversion Hi; subst.
    eapply IH; [|reflexivity]. assumption.
Qed.
(** [from_str]: an integer error means that the document has an integer literal outside
    the range of [i64]; there is never a float error; a parse error is the parser's. *)
Theorem C86_parsed : forall U ord, Order ord -> forall t txt e, from_str U ord t txt = DeErr e ->
  match e with
  | EParseError r => parse_str U txt = ErrR r
  | EParseInt => exists b n lt z, parse_str U txt = OkR b /\ HasExpr (ENumber n) (SBody b) /\ NumLit n lt /\ IntegerText lt z /\ ~ InRange I64 z
  | EParseFloat => False
  | _ => exists b, parse_str U txt = OkR b /\ Cause e t (SBody b)
  end.
Proof.
  intros U ord Ho t txt e H. unfold from_str in H. destruct (parse_str U txt) as [b|r| |] eqn:E; try discriminate.
  - pose proof (C86_cause ord Ho _ _ _ H) as HC. pose proof (proj1 (reprint U txt b E)) as HV.
    destruct e; try (exists b; auto; fail); try contradiction.
    + destruct HC as (n & Hn & Hf & Hi). destruct (HasExpr_number U b n HV Hn) as (lt & Hl).
      assert (Hs : is_signed n = true) by (unfold is_float in Hf; destruct (is_signed n); [reflexivity|discriminate]).
      destruct (NumLit_integer n lt Hl Hs) as (z & Hz & _). exists b, n, lt, z. repeat split; auto. intros Hr.
      assert (Hx : as_int I64 n = Some z) by (apply (i64_text n lt z Hl); auto). congruence.
    + destruct HC as (n & Hn & Hf & Hi). destruct (HasExpr_number U b n HV Hn) as (lt & Hl). rewrite (as_f64_literal n lt Hl) in Hi. discriminate.
  - injection H as <-. reflexivity.
Qed.

(** Which error an integer target gives for a number literal. *)
Theorem C86_integer_errors : forall ord, Order ord -> forall n lt it, NumLit n lt ->
  (deserialize ord (TInt it) (SExpr (ENumber n)) = DeErr EParseInt <-> exists z, IntegerText lt z /\ ~ InRange I64 z) /\
  (deserialize ord (TInt it) (SExpr (ENumber n)) = DeErr (ECustom CInvalidValue) <-> exists z, IntegerText lt z /\ InRange I64 z /\ ~ InRange it z) /\
  (deserialize ord (TInt it) (SExpr (ENumber n)) = DeErr (ECustom CInvalidType) <-> ~ exists z, IntegerText lt z).
Proof.
  intros ord Ho n lt it Hl. rewrite int_visit by exact Ho. destruct (is_float n) eqn:Ef.
  - assert (Es : is_signed n = false) by (unfold is_float in Ef; destruct (is_signed n); [discriminate|reflexivity]).
    assert (Hno : forall z, ~ IntegerText lt z) by (intros z; apply (NumLit_float_not_integer n lt z Hl Es)).
    rewrite (as_f64_literal n lt Hl). split; [|split].
    + split; [discriminate|]. intros (z & Hz & _). destruct (Hno z Hz).
    + split; [discriminate|]. intros (z & Hz & _). destruct (Hno z Hz).
    + split; [intros _ (z & Hz); exact (Hno z Hz)|reflexivity].
  - assert (Es : is_signed n = true) by (unfold is_float in Ef; destruct (is_signed n); [reflexivity|discriminate]).
    destruct (NumLit_integer n lt Hl Es) as (z & Hz & _).
    assert (Hu : forall z', IntegerText lt z' -> z' = z) by (intros z' Hz'; exact (C14_value_unique lt z' z Hz' Hz)).
    destruct (as_int I64 n) as [z0|] eqn:Ei.
    + apply (i64_text n lt z0 Hl) in Ei as [Hz0 Hr]. rewrite (Hu _ Hz0) in *. destruct (checked it z) as [z1|] eqn:Ec.
      * apply checked_range in Ec as [-> Hit]. split; [|split]; (split; [discriminate|]).
        -- intros (z' & Hz' & Hn). rewrite (Hu _ Hz') in Hn. contradiction.
        -- intros (z' & Hz' & _ & Hn). rewrite (Hu _ Hz') in Hn. contradiction.
        -- intros Hn. exfalso. eauto.
      * assert (Hit : ~ InRange it z).
        { intros Hit. assert (Hc : checked it z = Some z) by (apply checked_range; auto). congruence. }
        split; [|split].
        -- split; [discriminate|]. intros (z' & Hz' & Hn). rewrite (Hu _ Hz') in Hn. contradiction.
        -- split; [intros _; eauto|reflexivity].
        -- split; [discriminate|]. intros Hn. exfalso. eauto.
    + assert (Hr : ~ InRange I64 z).
      { intros Hr. assert (Hx : as_int I64 n = Some z) by (apply (i64_text n lt z Hl); auto). congruence. }
      split; [|split].
      * split; [intros _; eauto|reflexivity].
      * split; [discriminate|]. intros (z' & Hz' & Hn & _). rewrite (Hu _ Hz') in Hn. contradiction.
      * split; [discriminate|]. intros Hn. exfalso. eauto.
Qed.
Print Assumptions C86_cause.
Print Assumptions C86_parsed.
Print Assumptions C86_integer_errors.

Definition err86 (s : string) (t : ty) : dres data := from_str ascii_ucd id_ord t (lit s).
Example C86_nonvacuous :
  err86 ("b {" ++ nl ++ "a = [{k = 1, j = 2, k = 3}]" ++ nl ++ "}" ++ nl) TAny = DeErr (EObjectDuplicateKey (lit "k")) /\
  err86 ("b {" ++ nl ++ "a = 1" ++ nl ++ "a = 2" ++ nl ++ "}" ++ nl) TAny = DeErr (EBodyDuplicateKey (lit "a")) /\
  err86 ("b {" ++ nl ++ "a = 9223372036854775808" ++ nl ++ "}" ++ nl) TAny = DeErr EParseInt /\
  err86 ("a = [1, 2, 3]" ++ nl) (TStruct [(lit "a", TTuple [TAny; TAny])]) = DeErr (ETupleLength 2 3) /\
  err86 ("a = [{b = 1}]" ++ nl) (TMap KTString (TSeq (TStruct [(lit "c", TAny)]))) = DeErr (ECustom (CMissingField (lit "c"))) /\
  err86 ("a = [" ++ nl) TAny = DeErr (EParseError (RParse (Some (lit ("a = [" ++ nl))))).
Proof. repeat split; vm_compute; reflexivity. Qed.
