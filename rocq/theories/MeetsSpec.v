(** * MeetsSpec: SPECIFICATION side: documents in which the reader meets something it
    cannot get over

    Two things stop the reader for good: a heredoc that cannot be unindented, and a
    backslash in a quoted text after which there is no escape sequence.  Written on top
    of the grammar ([Grammar.v]): everything up to that place is syntax, what comes
    after it does not matter. *)
From Verif Require Import Base Ast Grammar.

(** "<<-MARKER", a line end, content, and a closing line with blanks before the marker,
    where the content cannot be unindented by that many columns. *)
Definition BadHeredoc (U : ucd) (s : str) : Prop :=
  exists m e content b t r, s = [60; 60; 45] ++ m ++ e ++ content ++ t /\ MarkerText U m /\ Eol e /\
    Closing m b t r /\ b <> [] /\
    (forall x y b' r', e ++ content = x ++ y -> y <> [] -> ~ Closing m b' (y ++ t) r') /\
    forall out, ~ Unindent (length b) content out.

(** A quote, characters ([P]: those standing for themselves) and a backslash, after which
    [p] is left; [p] is not empty and does not begin with an escape sequence: either
    with no text of such a shape, or the longest such text is not the number of a character. *)
Definition BadEscape (P : char -> Prop) (p s : str) : Prop :=
  exists v s', s = [34] ++ s' /\ GChars P v s' ([92] ++ p) /\ p <> [] /\
    ~ (exists n t r, p = t ++ r /\ EscShape n t /\ Longest (fun t' => exists n', EscShape n' t') t r /\ ScalarValue n).

Section WithTables.
(** [T]: what to meet where a text stands as a value; [L]: where one stands as a label. *)
Context (U : ucd) (T L : str -> Prop).

Inductive MeetsTerm : str -> Prop :=
| MT_here s : T s -> MeetsTerm s
| MT_tuple s : MeetsItems s -> MeetsTerm ([91] ++ s)
| MT_object s : MeetsMembers s -> MeetsTerm ([123] ++ s)
| MT_paren w s : Ws w -> MeetsExpr s -> MeetsTerm ([40] ++ w ++ s)
with MeetsExpr : str -> Prop :=
| ME_term s : MeetsTerm s -> MeetsExpr s
| ME_lead w s : Ws w -> FirstIs 123 s \/ FirstIs 40 s -> MeetsTerm s -> MeetsExpr (w ++ s)
(** after "[": in the first element, or after an element and a comma *)
with MeetsItems : str -> Prop :=
| MI_here w s : Ws w -> MeetsExpr s -> MeetsItems (w ++ s)
| MI_next e w1 w2 s s' : Ws w1 -> Ws w2 -> GExpr U e s (w2 ++ [44] ++ s') -> MeetsItems s' -> MeetsItems (w1 ++ s)
(** after "{": in a key, in a value, or after a member *)
with MeetsMembers : str -> Prop :=
| MM_key w s : Ws w -> MeetsTerm s -> MeetsMembers (w ++ s)
| MM_value k w i1 i2 s s' : Ws w -> Iws i1 -> Iws i2 -> GKey U k s (i1 ++ [61] ++ i2 ++ s') -> MeetsExpr s' -> MeetsMembers (w ++ s)
| MM_next k e w i1 i2 i3 s s' s3 s4 : Ws w -> Iws i1 -> Iws i2 -> Iws i3 ->
    GKey U k s (i1 ++ [61] ++ i2 ++ s') -> GExpr U e s' (i3 ++ s3) ->
    (s3 = [44] ++ s4 \/ (exists n, LineEnd n /\ s3 = n ++ s4) \/ (s3 = s4 /\ FirstIs 125 s3)) ->
    MeetsMembers s4 -> MeetsMembers (w ++ s).

Inductive MeetsAttr : str -> Prop :=
| MA i i1 i2 s s' : Iws i1 -> Iws i2 -> GIdent U i s (i1 ++ [61] ++ i2 ++ s') -> MeetsExpr s' -> MeetsAttr s.
Inductive MeetsElem : str -> Prop :=
| MEl_attr s : MeetsAttr s -> MeetsElem s
| MEl_label t ls s s' s2 : GIdent U t s s' -> GLabels U ls s' s2 -> L s2 -> MeetsElem s
| MEl_one_line t ls i1 s s' s2 : Iws i1 -> GIdent U t s s' -> GLabels U ls s' ([123] ++ i1 ++ s2) -> MeetsAttr s2 -> MeetsElem s
| MEl_block t ls i1 n s s' s2 : Iws i1 -> LineEnd n -> GIdent U t s s' -> GLabels U ls s' ([123] ++ i1 ++ n ++ s2) ->
    MeetsBody s2 -> MeetsElem s
with MeetsBody : str -> Prop :=
| MB_here w s : Ws w -> MeetsElem s -> MeetsBody (w ++ s)
| MB_next el w i n s s2 : Ws w -> Iws i -> GElem U el s (i ++ n ++ s2) -> LineEnd n -> MeetsBody s2 -> MeetsBody (w ++ s).

Scheme MeetsTerm_mut := Induction for MeetsTerm Sort Prop
with MeetsExpr_mut := Induction for MeetsExpr Sort Prop
with MeetsItems_mut := Induction for MeetsItems Sort Prop
with MeetsMembers_mut := Induction for MeetsMembers Sort Prop.
Combined Scheme meets_mut from MeetsTerm_mut, MeetsExpr_mut, MeetsItems_mut, MeetsMembers_mut.
Scheme MeetsElem_mut := Induction for MeetsElem Sort Prop
with MeetsBody_mut := Induction for MeetsBody Sort Prop.
Combined Scheme meets_body_mut from MeetsElem_mut, MeetsBody_mut.
End WithTables.

(** The document meets a heredoc that cannot be unindented. *)
Definition MeetsHeredoc (U : ucd) : str -> Prop := MeetsBody U (BadHeredoc U) (fun _ => False).
Definition ExprMeetsHeredoc (U : ucd) : str -> Prop := MeetsExpr U (BadHeredoc U).
(** The document meets a bad escape; [p] is the text after its backslash. *)
Definition MeetsEscape (U : ucd) (p : str) : str -> Prop := MeetsBody U (BadEscape Plain p) (BadEscape PlainLine p).
Definition ExprMeetsEscape (U : ucd) (p : str) : str -> Prop := MeetsExpr U (BadEscape Plain p).
