(** * OldMeetsSpec: SPECIFICATION side: texts in which [value::from_str]'s reader meets
    something it cannot go on from: a heredoc that cannot be unindented, or a backslash
    with no escape sequence after it

    On top of the grammar of values ([OldGrammar.v]); the two kinds of trouble are
    [BadHeredoc] and [BadEscape] of [MeetsSpec.v].  What comes after does not matter. *)
From Verif Require Import Base Ast Grammar MeetsSpec Kvp Value OldGrammar.

Section WithTables.
Context (U : ucd).
(** trouble in a value, and in a quoted key or label *)
Section Trouble.
Context (T L : str -> Prop).

Inductive VMeets : str -> Prop :=
| VM_here s : T s -> VMeets s
| VM_list s : VMeetsItems s -> VMeets ([91] ++ s)
| VM_object w s : Ws w -> VMeetsEntries s -> VMeets (w ++ [123] ++ s)
(** after "[": in the first item, or after an item and a comma *)
with VMeetsItems : str -> Prop :=
| VMI_here w s : Ws w -> VMeets s -> VMeetsItems (w ++ s)
| VMI_next v w1 w2 s s' : Ws w1 -> Ws w2 -> VTerm U v s (w2 ++ [44] ++ s') -> VMeetsItems s' -> VMeetsItems (w1 ++ s)
(** in an entry, or after an entry and its separator *)
with VMeetsEntries : str -> Prop :=
| VMS_here w s : Ws w -> VMeetsEntry s -> VMeetsEntries (w ++ s)
| VMS_next k v w s s1 s2 : Ws w -> VEntry U k v s s1 -> VSep s1 s2 -> VMeetsEntries s2 -> VMeetsEntries (w ++ s)
(** in a quoted key, in the value of an attribute, in a label, or among the entries of an
    object or block *)
with VMeetsEntry : str -> Prop :=
| VME_key s : L s -> VMeetsEntry s
| VME_attr k i1 i2 s s' : Iws i1 -> Iws i2 -> VKey U k s (i1 ++ [61] ++ i2 ++ s') -> VMeets s' -> VMeetsEntry s
| VME_block t ls w s s1 s' : Ws w -> GIdent U (Borrowed t) s s1 -> VLabels ls s1 (w ++ [123] ++ s') -> VMeetsEntries s' -> VMeetsEntry s
| VME_label t ls i s s1 s' : Iws i -> GIdent U (Borrowed t) s s1 -> VLabels ls s1 (i ++ s') -> L s' -> VMeetsEntry s.

Scheme VMeets_mut := Induction for VMeets Sort Prop
with VMeetsItems_mut := Induction for VMeetsItems Sort Prop
with VMeetsEntries_mut := Induction for VMeetsEntries Sort Prop
with VMeetsEntry_mut := Induction for VMeetsEntry Sort Prop.
Combined Scheme vmeets_mut from VMeets_mut, VMeetsItems_mut, VMeetsEntries_mut, VMeetsEntry_mut.
End Trouble.

(** The whole text meets a heredoc that cannot be unindented ... *)
Definition VMeetsHeredoc : str -> Prop := VMeetsEntries (BadHeredoc U) (fun _ => False).
(** ... or a bad escape sequence, with [p] after its backslash.  Keys and labels must
    not contain line breaks. *)
Definition VMeetsEscape (p : str) : str -> Prop := VMeetsEntries (BadEscape Plain p) (BadEscape PlainLine p).
End WithTables.
