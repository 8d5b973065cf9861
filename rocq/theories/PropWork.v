(** * PropWork: C132 - how many steps reading an expression takes

    The count is that of WorkCount.v: every character a primitive of nom looks at, again
    each time it is looked at, and every use of a primitive. *)
From Coq Require Import Lia.
From Verif Require Import Base Nom NomFacts Ast Lex Parser Grammar CallCount WorkCount WorkProofs WorkLeast WorkExpr.
Open Scope nat_scope.

(** The counted parsers are the parsers. *)
Theorem C132_counted : forall U s, fst (wexpression U s) = expression U s /\ fst (wconfig_file U s) = config_file U s.
Proof. intros U s. split; [apply we_expression|apply we_config_file]. Qed.
Print Assumptions C132_counted.
(** Whatever the text - accepted, rejected or making the parser panic, nested as deep as may be -
    the steps of [Expression::parse] are at most a thousand for each character and three hundred more. *)
Theorem C132_expression : forall U s, expression_parse_steps U s <= 1000 * length s + 300.
Proof. intros U s. destruct (EX_expression U) as (_ & H & _). apply H. Qed.
Print Assumptions C132_expression.
(** A success is paid by the characters it has read alone: what follows the expression does not count. *)
Theorem C132_prefix : forall U s r e, expression U s = Ok r e -> expression_parse_steps U s + 1000 * length r + 100 <= 1000 * length s.
Proof. intros U s r e H. destruct (EX_expression U) as (H1 & _). apply (H1 s r e). rewrite (we_expression U s). exact H. Qed.
Print Assumptions C132_prefix.
(** And no text is read for less than a step for each of its characters: *)
Theorem C132_expression_least : forall U s r e, expression U s = Ok r e -> length s <= expression_parse_steps U s + length r.
Proof. intros U s r e H. pose proof (py_expr U s) as X. unfold PB in X. rewrite (we_expression U s), H in X. exact X. Qed.
Print Assumptions C132_expression_least.
Theorem C132_parse_str_least : forall U s b, parse_str U s = OkR b -> length s <= parse_str_steps U s.
Proof.
  intros U s b H. pose proof (py_config_file U s) as X. unfold PB in X. rewrite (we_config_file U s) in X. unfold parse_str in H.
  destruct (config_file U s) as [r v| | | |] eqn:E; try discriminate. unfold config_file in E. apply bind_ok in E as (r1 & v1 & _ & E). apply bind_ok in E as (r2 & v2 & E & [= <- <-]).
  unfold eof in E. destruct r1; [|discriminate]. injection E as <- _. cbn in X. unfold parse_str_steps. lia.
Qed.
Print Assumptions C132_parse_str_least.
(** Cases: steps of some texts, read and not. *)
Example C132_cases :
  expression_parse_steps ascii_ucd (lit "") = 20 /\
  map (fun n => expression_parse_steps ascii_ucd (repeat 91%N n)) [1; 2; 3; 4; 9] = [70; 132; 194; 256; 566] /\
  expression_parse_steps ascii_ucd (lit "[1, 2, { a = ""x"", b = (true) } ]") = 409 /\
  expression_parse_steps ascii_ucd (lit "[1,2,]") = 125 /\ expression_parse_steps ascii_ucd (lit "[1,}") = 118 /\
  (exists e, expression ascii_ucd (lit "[1, 2, { a = ""x"", b = (true) } ]") = Ok [] e).
Proof. split; [|split; [|split; [|split; [|split]]]]; [vm_compute; reflexivity..|]. vm_compute. eexists. reflexivity. Qed.
