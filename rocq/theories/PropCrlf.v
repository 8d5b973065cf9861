(** * PropCrlf: C125 the line ends of Unix and of Windows *)
From Coq Require Import ZArith.
From Verif Require Import Base Nom Ast Lex Grammar WsFacts Parser ExprProofs BodyProofs IoSpec NumConv Kvp Value OldParser OldGrammar OldProofs PropOld
  CrlfSpec CrlfFacts CrlfProofs VCrlfProofs.
Close Scope Z_scope.
Open Scope N_scope.
Open Scope list_scope.

(** C125: changing every line end of an accepted text from LF to CR LF gives an accepted text, whose tree is the
    same but for strings that go over line ends: these gain carriage returns before some of their line feeds. *)
Theorem C125_parse_str : forall U s b, ~ In 13 s -> parse_str U s = OkR b ->
  exists b', parse_str U (crlf s) = OkR b' /\ CrBody b b'.
Proof.
  intros U s b Hn H. apply parse_str_spec in H. apply (GConfig_crlf U b s) in H as (b' & Hb & H); [|exact Hn].
  exists b'. split; [apply parse_str_spec, H|exact Hb].
Qed.
Print Assumptions C125_parse_str.
(** ... so where no string (and no expression used as an object key) goes over a line end, the tree is the same. *)
Theorem C125_same : forall U s b, ~ In 13 s -> parse_str U s = OkR b -> OneLineBody b -> parse_str U (crlf s) = OkR b.
Proof.
  intros U s b Hn H HO. apply C125_parse_str in H as (b' & H & HC); [|exact Hn]. rewrite (CrBody_same _ _ HC HO) in H. exact H.
Qed.
Print Assumptions C125_same.
Theorem C125_value_from_str : forall U s l, ~ In 13 s -> from_str U s None (VOk (Unmerged l)) ->
  exists l', from_str U (crlf s) None (VOk (Unmerged l')) /\ CrEntries l l'.
Proof.
  intros U s l Hn H. apply C70_from_str_grammar in H as (l0 & [= <-] & H). apply VDoc_crlf in H as (l' & Hl & H); [|exact Hn].
  exists l'. split; [apply C70_from_str_grammar; eauto|exact Hl].
Qed.
Print Assumptions C125_value_from_str.

(** A document with comments, a quoted string and heredocs over several lines, blocks, objects and tuples *)
Definition lf_doc : str := lit "# comment
a = ""x\ny
z"" // c
b ""l"" { /* i
i */
  c = [1,
    {k = true
    }]
  d = <<-EOF
      one
        two
      EOF
}
".
Example C125_nonvacuous : ~ In 13 lf_doc /\
  parse_str ascii_ucd lf_doc = OkR [Attr (Borrowed (lit "a")) (EString (Owned (lit "x" ++ [10] ++ lit "y" ++ [10] ++ lit "z")));
    Blk (Borrowed (lit "b")) [LString (lit "l")]
     [Attr (Borrowed (lit "c")) (ETuple [ENumber (mk_number (Borrowed (lit "1")) true (Some (Borrowed (lit "1"))) None None);
        EObject [(KIdent (Borrowed (lit "k")), EBool true)]]);
      Attr (Borrowed (lit "d")) (EString (Owned (lit "one" ++ [10] ++ lit "  two")))]] /\
  parse_str ascii_ucd (crlf lf_doc) = OkR [Attr (Borrowed (lit "a")) (EString (Owned (lit "x" ++ [10] ++ lit "y" ++ [13; 10] ++ lit "z")));
    Blk (Borrowed (lit "b")) [LString (lit "l")]
     [Attr (Borrowed (lit "c")) (ETuple [ENumber (mk_number (Borrowed (lit "1")) true (Some (Borrowed (lit "1"))) None None);
        EObject [(KIdent (Borrowed (lit "k")), EBool true)]]);
      Attr (Borrowed (lit "d")) (EString (Owned (lit "one" ++ [13; 10] ++ lit "  two")))]].
Proof.
  split; [|split; vm_compute; reflexivity]. assert (forallb (fun c => negb (c =? 13)) lf_doc = true) as H by (vm_compute; reflexivity).
  rewrite forallb_forall in H. intros Hi. apply H in Hi. discriminate.
Qed.
Example C125_value_nonvacuous :
  from_str ascii_ucd (lit "a = ""x
y""
b {
  c = 1
}
") None (VOk (Unmerged [(KeyIdent (lit "a"), VString (lit "x" ++ [10] ++ lit "y")); (KeyIdent (lit "b"), VObject [Unmerged [(KeyIdent (lit "c"), VInteger 1)]])])).
Proof. vm_compute. reflexivity. Qed.
(** The text must not have carriage returns before: CR CR LF does not end a comment. *)
Example C125_cr : parse_str ascii_ucd ([35] ++ [13; 10]) = OkR [] /\ parse_str ascii_ucd (crlf ([35] ++ [13; 10])) = ErrR (RParse (Some ([35; 13; 13; 10]))).
Proof. split; vm_compute; reflexivity. Qed.
(** Not the other way round: an indented heredoc with a line of one character makes the parser panic with the
    line ends of Unix, but not with those of Windows. *)
Example C125_not_back : exists s, ~ In 13 s /\ parse_str ascii_ucd s = PanicR /\ exists b, parse_str ascii_ucd (crlf s) = OkR b.
Proof.
  exists (lit "a = <<-EOF
    x
}
    y
    EOF
"). split; [|split; [|]].
  - intros Hi. cbn in Hi. repeat (destruct Hi as [Hi|Hi]; [discriminate|]). exact Hi.
  - vm_compute. reflexivity.
  - eexists. vm_compute. reflexivity.
Qed.
