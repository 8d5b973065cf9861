(** * PubSpec: SPECIFICATION side: what each public parser function reads

    The functions of the public modules of [parser] take a text and return a value and
    the text left over.  Written on top of the grammar ([Grammar.v]) and of the texts the
    reader cannot get over ([MeetsSpec.v]). *)
From Verif Require Import Base Ast Grammar MeetsSpec.

(** [r] is left of [s] when all the white space there is has been skipped. *)
Definition SkipIws (s r : str) : Prop := exists w, s = w ++ r /\ Longest Iws w r.
Definition SkipWs (s r : str) : Prop := exists w, s = w ++ r /\ Longest Ws w r.

(** One [item] after the other, until [stop] holds of what is left *)
Inductive Run {A : Type} (item : A -> str -> str -> Prop) (stop : str -> Prop) : list A -> str -> str -> Prop :=
| Run_stop s : stop s -> Run item stop [] s s
| Run_item v l s s' r : item v s s' -> Run item stop l s' r -> Run item stop (v :: l) s r.

(** ** Pieces of white space, and the text a piece yields *)
Definition NoClose (t : str) : Prop := forall x y, t <> x ++ [42; 47] ++ y.
Definition BlankRun (P : char -> Prop) (b : str) : Prop := forall c, In c b -> P c.
Definition InlineBlank (c : char) : Prop := c = 32 \/ c = 9.
Definition AnyBlank (c : char) : Prop := c = 32 \/ c = 9 \/ c = 10 \/ c = 13.

Inductive IwsPiece : str -> str -> str -> Prop :=
| IP_comment t r : NoClose t -> IwsPiece t ([47; 42] ++ t ++ [42; 47] ++ r) r
| IP_blanks b r : b <> [] -> Longest (BlankRun InlineBlank) b r -> IwsPiece b (b ++ r) r.
Inductive WsPiece : str -> str -> str -> Prop :=
| WP_hash t e r : NoEol t -> Eol e -> WsPiece t ([35] ++ t ++ e ++ r) r
| WP_slash t e r : NoEol t -> Eol e -> WsPiece t ([47; 47] ++ t ++ e ++ r) r
| WP_comment t r : NoClose t -> WsPiece t ([47; 42] ++ t ++ [42; 47] ++ r) r
| WP_blanks b r : b <> [] -> Longest (BlankRun AnyBlank) b r -> WsPiece b (b ++ r) r.
(** What counts as a line end for [newline]: line comments, line ends, and an inline
    comment that ends its line *)
Inductive NlPiece : str -> str -> str -> Prop :=
| NP_hash t e r : NoEol t -> Eol e -> NlPiece t ([35] ++ t ++ e ++ r) r
| NP_slash t e r : NoEol t -> Eol e -> NlPiece t ([47; 47] ++ t ++ e ++ r) r
| NP_comment t e r : NoClose t -> Eol e -> NlPiece t ([47; 42] ++ t ++ [42; 47] ++ e ++ r) r
| NP_eol e r : Eol e -> NlPiece e (e ++ r) r.

(** As many pieces as there are *)
Definition All {A} (item : A -> str -> str -> Prop) : list A -> str -> str -> Prop :=
  Run item (fun s => forall v r, ~ item v s r).
Definition Newlines (l : list str) (s r : str) : Prop := l <> [] /\ All NlPiece l s r.

Section WithTables.
Context (U : ucd).

(** ** Objects *)
(** A key standing alone: as in the grammar, but an object or parenthesis may have white
    space before it, which is then part of the key's text. *)
Inductive KeyText : okey -> str -> str -> Prop :=
| KT_ident i s r : GIdent U i s r -> KeyText (KIdent i) s r
| KT_expr e t r : GExpr U e (t ++ r) r -> (forall i r', ~ GIdent U i (t ++ r) r') -> KeyText (KExpr (Borrowed t)) (t ++ r) r.

Inductive ObjElement : okey * expr -> str -> str -> Prop :=
| OE k e s s0 s1 s2 s3 s4 r :
    SkipIws s s0 -> KeyText k s0 s1 -> SkipIws s1 ([61] ++ s2) -> SkipIws s2 s3 -> GExpr U e s3 s4 -> SkipIws s4 r ->
    ObjElement (k, e) s r.

Inductive ObjSeparator : str -> str -> str -> Prop :=
| OS_comma r : ObjSeparator [44] ([44] ++ r) r
| OS_newline l s r : Newlines l s r -> ObjSeparator [] s r
| OS_end r : FirstIs 125 r -> ObjSeparator [] r r.

(** An element of an object with the white space before and the separator after it *)
Inductive ObjItem : okey * expr -> str -> str -> Prop :=
| OI ke s s0 s1 v r : SkipWs s s0 -> ObjElement ke s0 s1 -> ObjSeparator v s1 r -> ObjItem ke s r.

(** ** Labels and blocks *)
Inductive LabelItem : label -> str -> str -> Prop :=
| LI l s s0 s1 r : SkipIws s s0 -> GLabel U l s0 s1 -> SkipIws s1 r -> LabelItem l s r.

Inductive OneLine : element -> str -> str -> Prop :=
| OL_empty t ls s s1 s2 r : GIdent U t s s1 -> GLabels U ls s1 ([123] ++ s2) -> SkipIws s2 ([125] ++ r) -> OneLine (Blk t ls []) s r
| OL_attr t ls n v s s1 s2 s3 s4 r : GIdent U t s s1 -> GLabels U ls s1 ([123] ++ s2) -> SkipIws s2 s3 ->
    GAttr U n v s3 s4 -> SkipIws s4 ([125] ++ r) -> OneLine (Blk t ls [Attr n v]) s r.

Inductive MultiLine : element -> str -> str -> Prop :=
| ML t ls b n s s1 s2 s3 r : GIdent U t s s1 -> GLabels U ls s1 ([123] ++ s2) -> SkipIws s2 (n ++ s3) -> LineEnd n ->
    GBody U b s3 ([125] ++ r) -> MultiLine (Blk t ls b) s r.

(** An element of a body with the white space before and the line end after it *)
Inductive BodyItem : element -> str -> str -> Prop :=
| BI_line el s s0 s1 s2 l r : SkipWs s s0 -> GElem U el s0 s1 -> SkipIws s1 s2 -> Newlines l s2 r -> BodyItem el s r
| BI_last el s s0 s1 : SkipWs s s0 -> GElem U el s0 s1 -> SkipIws s1 [] -> BodyItem el s [].

(** ** What cannot be got over, for each function ([T], [L]: see [MeetsSpec]) *)
Section Bad.
Context (T L : str -> Prop).
Definition BadTuple (s : str) : Prop := exists s1, s = [91] ++ s1 /\ MeetsItems U T s1.
Definition BadObject (s : str) : Prop := exists s1, SkipWs s ([123] ++ s1) /\ MeetsMembers U T s1.
Definition BadParen (s : str) : Prop := exists s1 s2, SkipWs s ([40] ++ s1) /\ SkipWs s1 s2 /\ MeetsExpr U T s2.
Definition BadElement (s : str) : Prop := exists s0, SkipIws s s0 /\
  (MeetsExpr U T s0 \/
   exists k s1 s2 s3, KeyText k s0 s1 /\ SkipIws s1 ([61] ++ s2) /\ SkipIws s2 s3 /\ MeetsExpr U T s3).
Definition BadItem (s : str) : Prop := exists s0, SkipWs s s0 /\ BadElement s0.
Definition BadAttr (s : str) : Prop := exists s0, SkipIws s s0 /\ MeetsAttr U T s0.
Definition BadLabels (s : str) : Prop := exists ls s', GLabels U ls s s' /\ L s'.
Definition BadLabelItem (s : str) : Prop := exists s0, SkipIws s s0 /\ L s0.
Definition BadHead (s : str) : Prop := exists t s1, GIdent U t s s1 /\ BadLabels s1.
Definition BadOneLine (s : str) : Prop := exists s0, SkipIws s s0 /\
  (BadHead s0 \/ exists t ls s1 s2, GIdent U t s0 s1 /\ GLabels U ls s1 ([123] ++ s2) /\ BadAttr s2).
Definition BadMultiLine (s : str) : Prop := exists s0, SkipIws s s0 /\
  (BadHead s0 \/ exists t ls n s1 s2 s3, GIdent U t s0 s1 /\ GLabels U ls s1 ([123] ++ s2) /\ SkipIws s2 (n ++ s3) /\
     LineEnd n /\ MeetsBody U T L s3).
Definition BadBodyElement (s : str) : Prop := exists s0, SkipIws s s0 /\ MeetsElem U T L s0.
Definition BadBodyItem (s : str) : Prop := exists s0, SkipWs s s0 /\ MeetsElem U T L s0.
End Bad.

(** Neither a heredoc that cannot be unindented nor a bad escape is met. *)
Definition NothingBad (Bad : (str -> Prop) -> (str -> Prop) -> str -> Prop) (s : str) : Prop :=
  ~ Bad (BadHeredoc U) (fun _ => False) s /\ forall p, ~ Bad (BadEscape Plain p) (BadEscape PlainLine p) s.

(** Items up to where neither an item nor anything bad begins *)
Definition Upto {A} (item : A -> str -> str -> Prop) (Bad : (str -> Prop) -> (str -> Prop) -> str -> Prop) : list A -> str -> str -> Prop :=
  Run item (fun s => (forall v r, ~ item v s r) /\ NothingBad Bad s).
End WithTables.
