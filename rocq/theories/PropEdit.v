(** * PropEdit: C123 a part of a document can be replaced in place *)
From Verif Require Import Base Nom Ast Lex Grammar WsFacts Parser ExprProofs BodyProofs Locality DocProofs IoSpec EditSpec EditProofs.

(** C123, sub-expressions: whatever the document and whatever expression in it, at any depth, there is a stretch [t] of
    the text that is its text, and any other text that is read as a whole expression can stand there
    instead: the tree changes there and nowhere else. *)
Theorem C123_expression : forall U c b1 n x e b2 s, parse_str U s = OkR (bplug c (b1 ++ Attr n (plug x e) :: b2)) ->
  exists s1 t s2, s = s1 ++ t ++ s2 /\ expression U (t ++ s2) = Ok s2 e /\
    (forall t' e', expression U (t' ++ s2) = Ok s2 e' -> parse_str U (s1 ++ t' ++ s2) = OkR (bplug c (b1 ++ Attr n (plug x e') :: b2))) /\
    (forall t' e', expression U t' = Ok [] e' -> parse_str U (s1 ++ t' ++ s2) = OkR (bplug c (b1 ++ Attr n (plug x e') :: b2))).
Proof.
  intros U c b1 n x e b2 s H. apply parse_str_spec, doc_expr_edit in H as (s1 & t & s2 & -> & Ht & HD & HG).
  exists s1, t, s2. split; [reflexivity|]. split; [apply expression_spec, Ht|].
  split; intros t' e' He'; apply parse_str_spec, HG; apply expression_spec in He'; [exact He'|].
  apply GExpr_replace in He' as (t0 & -> & _ & He'). rewrite app_nil_r. apply He'; [exact HD|]. intros (e0 & r' & [|] & E); discriminate.
Qed.
Print Assumptions C123_expression.

(** C123, bodies: whatever the body - of the document, or of a block at any depth - and however it is cut into parts,
    there is a stretch of the text that consists of the texts of the parts, each a document by
    itself; and any documents can stand there instead, each on lines of its own: the body is
    then made of their elements, and nothing else changes.  (So parts can be inserted, removed, moved
    and replaced.) *)
Theorem C123_body : forall U c bs s, bs <> [] -> parse_str U s = OkR (bplug c (concat bs)) ->
  exists s1 xs s2, s = s1 ++ concat xs ++ s2 /\ Forall2 (fun x b => parse_str U x = OkR b) xs bs /\
    forall ts bs', Forall2 (fun t b => parse_str U t = OkR b) ts bs' ->
      parse_str U (s1 ++ [10] ++ concat (map (fun t => t ++ [10]) ts) ++ s2) = OkR (bplug c (concat bs')).
Proof.
  intros U c bs s Hn H. apply parse_str_spec, doc_body_edit in H as (s1 & x & s2 & -> & Hx & HG).
  assert (HX : forall bs x, GConfig U (concat bs) x -> bs <> [] -> exists xs, x = concat xs /\ Forall2 (fun x b => parse_str U x = OkR b) xs bs).
  { clear. induction bs as [|b bs IH]; intros x H Hn; [congruence|]. destruct bs as [|b' bs].
    - cbn [concat] in H. rewrite app_nil_r in H. exists [x]. split; [cbn; rewrite app_nil_r; reflexivity|]. constructor; [apply parse_str_spec, H|constructor].
    - cbn [concat] in H. apply GConfig_split in H as (x1 & x2 & -> & H1 & H2). destruct (IH x2 H2) as (xs & -> & HF); [discriminate|].
      exists (x1 :: xs). split; [reflexivity|]. constructor; [apply parse_str_spec, H1|exact HF]. }
  destruct (HX bs x Hx Hn) as (xs & -> & HF). exists s1, xs, s2. split; [reflexivity|]. split; [exact HF|].
  intros ts bs' HT. apply parse_str_spec, HG. clear - HT. intros r. induction HT as [|t b ts bs' Ht _ IH]; cbn [map concat].
  - apply (GB_nil U [] r). constructor.
  - rewrite <- !app_assoc. apply parse_str_spec in Ht. eapply GBody_app; [exact Ht|reflexivity|repeat constructor|exact IH].
Qed.
Print Assumptions C123_body.

(** A document with an expression inside an object inside a tuple inside a block inside a block, and its places *)
Definition edit_doc : str := lit "a = true
b ""l"" {
  c = null
  d { e = [null, { k = (true) }] }
}".
Example C123_nonvacuous :
  parse_str ascii_ucd edit_doc = OkR (bplug (Within [Attr (Borrowed (lit "a")) (EBool true)] (Borrowed (lit "b")) [LString (lit "l")]
      (Within [Attr (Borrowed (lit "c")) ENull] (Borrowed (lit "d")) [] Top []) [])
    ([] ++ Attr (Borrowed (lit "e")) (plug (InTuple [ENull] (InObject [] (KIdent (Borrowed (lit "k"))) Hole []) []) (EBool true)) :: [])) /\
  parse_str ascii_ucd edit_doc = OkR (bplug (Within [Attr (Borrowed (lit "a")) (EBool true)] (Borrowed (lit "b")) [LString (lit "l")] Top [])
    (concat [[Attr (Borrowed (lit "c")) ENull]; [Blk (Borrowed (lit "d")) [] [Attr (Borrowed (lit "e")) (ETuple [ENull; EObject [(KIdent (Borrowed (lit "k")), EBool true)]])]]])) /\
  expression ascii_ucd (lit "[ false ]") = Ok [] (ETuple [EBool false]).
Proof. split; [|split]; vm_compute; reflexivity. Qed.
(** An expression must be whole: one followed by something else cannot be put in any place. *)
Example C123_whole : expression ascii_ucd (lit "[ false ] ") = Ok (lit " ") (ETuple [EBool false]) /\
  parse_str ascii_ucd (lit "x = true") = OkR (bplug Top ([] ++ Attr (Borrowed (lit "x")) (plug Hole (EBool true)) :: [])) /\
  parse_str ascii_ucd (lit "x = true, false") = ErrR (RParse (Some (lit "x = true, false"))).
Proof. split; [|split]; vm_compute; reflexivity. Qed.
