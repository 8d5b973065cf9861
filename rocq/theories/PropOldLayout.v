(** * PropOldLayout: C121, what [value::from_str] reads, as tokens and gaps *)
From Coq Require Import ZArith Lia.
From Verif Require Import Base Nom NomFacts Ast Lex Grammar WsFacts NumConv NumSpec Kvp Value OldGrammar OldParser OldProofs PropOld
  Locality DocProofs LayoutSpec LayoutProofs PropLayout OldLayoutSpec OldLayoutProofs.
Close Scope Z_scope.
Open Scope N_scope.
Open Scope list_scope.

(** A text is accepted with the value [m] exactly when [m] is a list of entries and the text is
    a layout of them with its gaps filled. *)
Theorem C121_exact : forall U s m,
  OldParser.from_str U s None (VOk m) <-> exists l ps, m = Unmerged l /\ ODoc U l ps /\ Filled ps s.
Proof.
  intros U s m. rewrite C70_from_str_grammar. split.
  - intros (l & -> & H). apply odoc_complete in H as (ps & H & Hs). eauto.
  - intros (l & ps & -> & H & Hs). exists l. split; [reflexivity|]. eapply odoc_sound; eassumption.
Qed.
(** Whatever else is put into the gaps, and whether or not values are merged, the outcome is the same: the
    value, or the merge error. *)
Theorem C121_refill : forall U l ps s s', ODoc U l ps -> Filled ps s -> Filled ps s' ->
  forall mb o, OldParser.from_str U s mb o <-> OldParser.from_str U s' mb o.
Proof.
  intros U l ps s s' H Hs Hs' mb o.
  assert (E : old_body U s = Ok [] (Unmerged l)) by (apply old_body_spec; exists l; split; [reflexivity|]; eapply odoc_sound; eassumption).
  assert (E' : old_body U s' = Ok [] (Unmerged l)) by (apply old_body_spec; exists l; split; [reflexivity|]; eapply odoc_sound; eassumption).
  unfold OldParser.from_str. rewrite E, E'. reflexivity.
Qed.
(** Every accepted document can be minified: no comments, no blanks, and a line feed only where the line
    must end; no other filling of the layout is shorter. *)
Theorem C121_minify : forall U s m, OldParser.from_str U s None (VOk m) ->
  exists l ps, m = Unmerged l /\ ODoc U l ps /\ Filled ps s /\ OldParser.from_str U (least ps) None (VOk m) /\
    (length (least ps) <= length s)%nat /\ forall s', Filled ps s' -> (length (least ps) <= length s')%nat.
Proof.
  intros U s m H. apply C121_exact in H as (l & ps & -> & HL & Hs). exists l, ps. split; [reflexivity|]. split; [exact HL|]. split; [exact Hs|].
  assert (HM : forall s', Filled ps s' -> (length (least ps) <= length s')%nat).
  { clear. intros s' Hs. induction Hs as [|t ps s Hs IH|g w ps s Hg Hs IH]; cbn [least flat_map]; [cbn; lia| |]; rewrite !app_length; fold (least ps); [lia|].
    enough (length (least_gap g) <= length w)%nat by lia. destruct Hg as [w Hw|w Hw|w Hw Hn|n [e [|]|c [t e Ht He|t e Ht He]]|e [|]|e w [|] Hw]; cbn [least_gap length app]; try lia.
    destruct w; [congruence|cbn; lia]. }
  split; [|split; [apply HM, Hs|exact HM]]. apply C121_exact. exists l, ps. split; [reflexivity|]. split; [exact HL|apply least_filled].
Qed.
Print Assumptions C121_exact.
Print Assumptions C121_refill.
Print Assumptions C121_minify.

(** A case: an attribute with a comma after it, a block with a label, an object with a brace on its own line *)
Definition C121_items : list item :=
  [Gap GapWs] ++ ([Tok (lit "a"); Gap GapInline; Tok [61]; Gap GapInline] ++ [Tok (lit "true")]) ++ [Gap GapWs; Tok [44]] ++
  [Gap GapWs] ++ ([Tok (lit "b")] ++ ([Gap GapInline; Tok [34; 120; 34]] ++ []) ++ [Gap GapWs; Tok [123]] ++ [Gap GapWs] ++ [Tok [125]]) ++ [Gap GapInline; Gap GapLine] ++
  [Gap GapWs] ++ ([Tok (lit "c"); Gap GapWs; Tok [123]] ++ ([Gap GapWs] ++ ([Tok [34; 107; 34]; Gap GapInline; Tok [61]; Gap GapInline] ++ [Tok (lit "null")]) ++ [Gap GapWs; Tok [44]] ++ [Gap GapWs]) ++ [Tok [125]]) ++ [Gap GapInline].
Definition C121_list : list (key * Value.value) :=
  [(KeyIdent (lit "a"), VBoolean true); (KeyIdent (lit "b"), VBlock (Unmerged [([lit "x"], Unmerged [])]));
   (KeyIdent (lit "c"), VObject [Unmerged [(KeyString (lit "k"), VNull)]])].
Example C121_case : ODoc ascii_ucd C121_list C121_items /\
  Filled C121_items (lit "a=true,b""x""{}" ++ [10] ++ lit "c{""k""=null,}") /\
  Filled C121_items (lit "a = true # one" ++ [10] ++ lit ", b /* two */ ""x"" // three" ++ [10] ++ lit "{ } # four" ++ [10] ++ lit "c" ++ [10] ++ lit "{ ""k"" = null" ++ [10] ++ lit ", } ").
Proof.
  split; [|split].
  - apply (OD_comma ascii_ucd _ _ _ ([Tok (lit "a"); Gap GapInline; Tok [61]; Gap GapInline] ++ [Tok (lit "true")]) false).
    { apply (OE_attr ascii_ucd _ (lit "a")); [|constructor]. apply (VK_ident ascii_ucd (lit "a")). apply (GIdent_intro ascii_ucd (lit "a")); [apply ident1; reflexivity|reflexivity]. }
    apply (OD_line ascii_ucd _ _ _ ([Tok (lit "b")] ++ ([Gap GapInline; Tok [34; 120; 34]] ++ []) ++ [Gap GapWs; Tok [123]] ++ [Gap GapWs] ++ [Tok [125]]) false).
    { apply (OE_block ascii_ucd (lit "b") [lit "x"] _ []); [apply ident1; reflexivity|discriminate| |constructor]. apply (OL_cons (lit "x") [120; 34]); [|constructor].
      apply GC_char; [repeat split; discriminate|]. constructor. }
    apply (OD_last ascii_ucd). apply (OE_object ascii_ucd (lit "c")); [apply ident1; reflexivity|].
    apply (ON_comma ascii_ucd _ _ _ ([Tok [34; 107; 34]; Gap GapInline; Tok [61]; Gap GapInline] ++ [Tok (lit "null")]) false); [|constructor].
    apply (OE_attr ascii_ucd _ [34; 107; 34]); [|constructor]. apply (VK_string ascii_ucd (lit "k") [107; 34; 61] [61]). apply GC_char; [repeat split; discriminate|]. constructor.
  - assert (H : Filled C121_items (fill_with C121_items [[]; []; []; []; []; []; []; []; []; [10]; []; []; []; []; []; []; []; []])) by (apply gaps_ok_sound; vm_compute; reflexivity).
    exact H.
  - assert (H : Filled C121_items (fill_with C121_items [[]; [32]; [32]; lit " # one" ++ [10]; [32]; lit " /* two */ "; lit " // three" ++ [10]; [32]; [32]; lit "# four" ++ [10]; []; [10]; [32]; [32]; [32]; [10]; [32]; [32]]));
      [apply gaps_ok_sound; vm_compute; reflexivity|].
    exact H.
Qed.
