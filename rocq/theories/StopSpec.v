(** * StopSpec: SPECIFICATION of where a reader stops in a text that is not a document *)
From Verif Require Import Base Ast Grammar Value OldGrammar.

(** [rest] is what is left after the longest beginning of [s] that is a sequence of elements,
    each with the end of its line, and white space: every other such beginning ends earlier. *)
Definition StopsAt (U : ucd) (s rest : str) : Prop :=
  rest <> [] /\ (exists b, GBody U b s rest) /\ forall b' r', GBody U b' s r' -> exists w, r' = w ++ rest.
(** One element of a body with the end of its line (or the end of the text) after it. *)
Definition ElementLine (U : ucd) (s : str) : Prop :=
  exists el i s1, GElem U el s (i ++ s1) /\ Iws i /\ (s1 = [] \/ exists n s2, LineEnd n /\ s1 = n ++ s2).

(** The same for documents of [value::from_str]: entries, each with its separator. *)
Definition VStopsAt (U : ucd) (s rest : str) : Prop :=
  rest <> [] /\ (exists l, VEntries U l s rest) /\ forall l' r', VEntries U l' s r' -> exists w, r' = w ++ rest.
Definition EntryThen (U : ucd) (s : str) : Prop := exists k v s1 s2, VEntry U k v s s1 /\ VSep s1 s2.
