(** * Property theorems: the two ways to read a document have the same result (C131) *)
From Coq Require Import ZArith.
From Verif Require Import Base Ast Grammar Nom Lex Parser PropSyntax Blocks NumConv NumSpec Kvp PropKvp Value ValueSpec ValueProofs PropValue MergeExec PropMerge
  BodyProofs OldParser OldGrammar PropOld OldMeetsSpec PropOldMeets AgreeSpec AgreeProofs PropAgree Serde SerdeSpec SerdeProofs PropSerde DenSpec DenProofs PropDen TwoWaysSpec TwoWaysProofs.
Close Scope Z_scope.
Open Scope N_scope.
Open Scope list_scope.

(** C131: if the deserialiser reads a document for a self-describing target, and [value::from_str] reads it, and blocks
    of one type follow each other, then with merging [value::from_str] does succeed, and what it gives is the same data. *)
Theorem C131_from_str : forall U ord, Order ord -> forall s b d p, parse_str U s = OkR b -> Consecutive b ->
  Serde.from_str U ord TAny s = DeOk d -> OldParser.from_str U s None (VOk p) ->
  (exists m, OldParser.from_str U s (Some MBError) (VOk m) /\ MapData m d) /\
  (forall o, OldParser.from_str U s (Some MBError) o -> exists m m', o = VOk m /\ meq m m' /\ MapData m' d).
Proof.
  intros U ord Ho s b d p Hb HC HD HP.
  destruct (C71_agree U s b p Hb HP) as (l & -> & HA).
  apply (C70_from_str_grammar U s) in HP as (l0 & [= <-] & HV).
  destruct (C102_sound U ord Ho TAny (GT_leaf TAny I) s d HD) as (b' & Hb' & Hd). apply (C01_parse_str_grammar U) in Hb'. rewrite Hb in Hb'. injection Hb' as <-.
  destruct (bodies_two b l d HC HA Hd) as (m & HM & HMD). destruct (C90_document U s l HV (VOk (Merged m))) as (_ & HO & _).
  split.
  - exists (Merged m). split; [|exact HMD]. apply HO. left. exists (Merged m). split; [|reflexivity]. apply C67_exact_map, HM.
  - intros o Hr. destruct (C90_document U s l HV o) as (_ & HO' & _). apply HO' in Hr as [(r & Hr & ->)|(e & Hr & ->)].
    + exists r, (Merged m). split; [reflexivity|]. split; [|exact HMD]. apply C67_exact_map in Hr. eapply (proj2 MergesTo_det); eassumption.
    + exfalso. assert (exists r, map_merge (Unmerged l) (MOk r)) as Hx by (exists (Merged m); apply C67_exact_map, HM).
      apply C48_map in Hx. apply C48_map in Hr. exact (proj2 can_no_conflict _ _ Hx Hr).
Qed.
(** The same for the value of one expression; here no condition on blocks is needed. *)
Theorem C131_expression : forall e v d, ExprAs e v -> Den TAny (Expr e) d -> exists r, merge v (MOk r) /\ DataOf r d.
Proof.
  intros e v d Hv Hd. destruct (expr_two e v d Hv Hd) as (r & Hr & H). exists r. split; [apply C67_exact, Hr|exact H].
Qed.
Print Assumptions C131_from_str.
Print Assumptions C131_expression.

Definition tw_doc : str := lit "a = [1, ""x"", 2.5,]
svc {
  port = 80
}
svc {
  port = 443
  on = [true, null,]
}
m = {
  x = -1
  y = {
    z = """"
  }
}
one {
}
".
Definition tw_body := Eval vm_compute in match parse_str ascii_ucd tw_doc with OkR b => b | _ => [] end.
Definition tw_data := Eval vm_compute in match Serde.from_str ascii_ucd id_ord TAny tw_doc with DeOk (DMap es) => es | _ => [] end.
Definition tw_value := Eval vm_compute in match old_body ascii_ucd tw_doc with Ok _ p => p | _ => Unmerged [] end.
Lemma tw_body_eq : parse_str ascii_ucd tw_doc = OkR tw_body. Proof. vm_compute. reflexivity. Qed.
Lemma tw_data_eq : Serde.from_str ascii_ucd id_ord TAny tw_doc = DeOk (DMap tw_data). Proof. vm_compute. reflexivity. Qed.
Lemma tw_value_eq : old_body ascii_ucd tw_doc = Ok [] tw_value. Proof. vm_compute. reflexivity. Qed.
Example C131_nonvacuous : exists b es p m, parse_str ascii_ucd tw_doc = OkR b /\ Consecutive b /\
  Serde.from_str ascii_ucd id_ord TAny tw_doc = DeOk (DMap es) /\ OldParser.from_str ascii_ucd tw_doc None (VOk p) /\
  OldParser.from_str ascii_ucd tw_doc (Some MBError) (VOk m) /\ MapData m (DMap es) /\ length es = 4%nat.
Proof.
  assert (HC : Consecutive tw_body).
  { unfold tw_body. repeat first [apply Forall_nil|apply Forall_cons|exact I|apply cons_ok_body; [reflexivity|]]. }
  assert (HP : OldParser.from_str ascii_ucd tw_doc None (VOk tw_value)).
  { unfold OldParser.from_str. rewrite tw_value_eq. reflexivity. }
  destruct (C131_from_str ascii_ucd id_ord id_Order tw_doc tw_body (DMap tw_data) tw_value tw_body_eq HC tw_data_eq HP) as [(m & Hm & HM) _].
  exists tw_body, tw_data, tw_value, m. split; [exact tw_body_eq|]. split; [exact HC|]. split; [exact tw_data_eq|]. split; [exact HP|]. split; [exact Hm|]. split; [exact HM|reflexivity].
Qed.
(** Without the condition they differ: of blocks of one type that do not follow each other the deserialiser sees the
    last only (the finding of C31 and C40). *)
Definition tw_apart : str := lit "a {
}
b {
}
a {
}
".
Definition tw_one (d : dres data) : bool := match d with DeOk (DMap es) => forallb (fun e => match snd e with DMap _ => true | _ => false end) es | _ => false end.
Definition tw_two (m : mres mapvalues) : bool :=
  match m with MOk p => existsb (fun e => match snd e with VObject (_ :: _ :: _) => true | _ => false end) (entries p) | MErr _ => false end.
Example C131_apart : tw_one (Serde.from_str ascii_ucd id_ord TAny tw_apart) = true /\
  exists l, old_body ascii_ucd tw_apart = Ok [] (Unmerged l) /\ tw_two (xmap_merge (Unmerged l)) = true.
Proof. split; [vm_compute; reflexivity|]. eexists. split; vm_compute; reflexivity. Qed.
