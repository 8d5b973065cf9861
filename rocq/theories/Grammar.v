(** * Grammar: the SPECIFICATION of the concrete syntax

    A declarative grammar of configuration files, written from the EBNF in the
    crate's documentation (body.rs:11-19, block.rs:5-8, expression.rs:20-48,
    object.rs:7-12, tuple.rs:5-9, whitespace.rs:1-26, identifier.rs:1-24) and
    independent of the parser model (only characters, the syntax tree and the
    Unicode tables [u_*] are shared).  [G e s r] reads: "[s] is a text of [e] followed by [r]".
    Deliberate deviations of the code from the documented EBNF are marked
    DEVIATION. *)
From Verif Require Import Base Ast.

(** [t] is the longest prefix of [t ++ r] belonging to the token class [T]. *)
Definition Longest (T : str -> Prop) (t r : str) : Prop :=
  T t /\ forall t' r', t ++ r = t' ++ r' -> T t' -> (length t' <= length t)%nat.

(** ** Line ends, comments and white space *)

Inductive Eol : str -> Prop :=
| Eol_lf : Eol [10]
| Eol_crlf : Eol [13; 10].

Definition NoEol (s : str) : Prop := forall c, In c s -> c <> 10 /\ c <> 13.

(** "# text" or "// text", including the line end *)
Inductive LineComment : str -> Prop :=
| LC_hash t e : NoEol t -> Eol e -> LineComment ([35] ++ t ++ e)
| LC_slash t e : NoEol t -> Eol e -> LineComment ([47; 47] ++ t ++ e).

(** "/*" text "*/", the text not containing "*/" *)
Inductive InlineComment : str -> Prop :=
| IC t : (forall x y, t <> x ++ [42; 47] ++ y) -> InlineComment ([47; 42] ++ t ++ [42; 47]).

(** What ends the line of a body element or object element: a line end or
    a line comment ("a line comment is considered equivalent to a newline"). *)
Inductive LineEnd : str -> Prop :=
| LE_eol e : Eol e -> LineEnd e
| LE_comment c : LineComment c -> LineEnd c.

(** Inline white space: blanks and inline comments.  DEVIATION: tabs count as
    white space. *)
Inductive Iws : str -> Prop :=
| Iws_nil : Iws []
| Iws_blank c w : c = 32 \/ c = 9 -> Iws w -> Iws (c :: w)
| Iws_comment c w : InlineComment c -> Iws w -> Iws (c ++ w).

(** White space where newlines are ignored: blanks, CR, LF and comments. *)
Inductive Ws : str -> Prop :=
| Ws_nil : Ws []
| Ws_blank c w : c = 32 \/ c = 9 \/ c = 10 \/ c = 13 -> Ws w -> Ws (c :: w)
| Ws_inline c w : InlineComment c -> Ws w -> Ws (c ++ w)
| Ws_line c w : LineComment c -> Ws w -> Ws (c ++ w).

(** ASCII letters and digits, and the code points that are characters *)
Definition Letter (c : char) : Prop := 65 <= c <= 90 \/ 97 <= c <= 122.
Definition DecDigit (c : char) : Prop := 48 <= c <= 57.
Definition ScalarValue (n : N) : Prop := n <= 55295 \/ 57344 <= n <= 1114111.

Section WithTables.
Context (U : ucd).

(** Unicode's ID_Start, ID_Continue and Alphabetic/Numeric: spelled out on ASCII, given
    by the tables elsewhere *)
Definition IdStart (c : char) : Prop := Letter c \/ (128 <= c /\ u_id_start U c = true).
Definition IdContinue (c : char) : Prop :=
  IdStart c \/ DecDigit c \/ c = 95 \/ (128 <= c /\ u_id_continue U c = true).
Definition AlphaNumeric (c : char) : Prop :=
  Letter c \/ DecDigit c \/ (128 <= c /\ u_alphanumeric U c = true).

(** ** Identifiers: [(ID_Start | '_') (ID_Continue | '-')*].  DEVIATION: '_' may
    start an identifier. *)
Definition IdentText (t : str) : Prop :=
  exists c cs, t = c :: cs /\ (IdStart c \/ c = 95) /\
    forall d, In d cs -> IdContinue d \/ d = 45.

Definition GIdent (i : cow) (s r : str) : Prop :=
  exists t, i = Borrowed t /\ s = t ++ r /\ Longest IdentText t r.

(** ** Numbers *)
Definition Digits (d : str) : Prop := forall c, In c d -> 48 <= c <= 57.

(** An optional sign and whether it means positive *)
Inductive Sign : bool -> str -> Prop :=
| Sign_none : Sign true []
| Sign_plus : Sign true [43]
| Sign_minus : Sign false [45].

(** Whole part and fraction *)
Inductive Mantissa : option str -> option str -> str -> Prop :=
| M_int d : d <> [] -> Digits d -> Mantissa (Some d) None d
| M_dec d f : d <> [] -> Digits d -> Digits f -> Mantissa (Some d) (Some f) (d ++ [46] ++ f)
| M_frac f : f <> [] -> Digits f -> Mantissa None (Some f) ([46] ++ f).

Inductive Exponent : option exponent_t -> str -> Prop :=
| X_none : Exponent None []
| X_some e b sg d : e = 101 \/ e = 69 -> Sign b sg -> d <> [] -> Digits d ->
    Exponent (Some (mk_exponent b (Borrowed d))) ([e] ++ sg ++ d).

(** [NumLit n t]: [t] is a number literal, read as [n]. *)
Inductive NumLit : number_t -> str -> Prop :=
| NL b sg w f m x xt :
    Sign b sg -> Mantissa w f m -> Exponent x xt ->
    NumLit (mk_number (Borrowed (sg ++ m ++ xt)) b
              (option_map Borrowed w) (option_map Borrowed f) x)
           (sg ++ m ++ xt).

Definition NumberText (t : str) : Prop := exists n, NumLit n t.

(** ** Quoted strings *)

(** Value of a digit sequence in base [b], most significant first *)
Definition dval (c : char) : N :=
  if c <=? 57 then c - 48 else if c <=? 70 then c - 55 else c - 87.
Fixpoint value (b acc : N) (d : str) : N :=
  match d with
  | [] => acc
  | c :: d' => value b (b * acc + dval c) d'
  end.

Definition OctDigits (d : str) : Prop := forall c, In c d -> 48 <= c <= 55.
Definition HexDigits (d : str) : Prop :=
  forall c, In c d -> 48 <= c <= 57 \/ 65 <= c <= 70 \/ 97 <= c <= 102.

(** [EscShape n t]: the text [t] after a backslash is an escape sequence
    denoting code point [n]. *)
Inductive EscShape : N -> str -> Prop :=
| Esc_a : EscShape 7 (lit "a")
| Esc_b : EscShape 8 (lit "b")
| Esc_f : EscShape 12 (lit "f")
| Esc_n : EscShape 10 (lit "n")
| Esc_r : EscShape 13 (lit "r")
| Esc_t : EscShape 9 (lit "t")
| Esc_v : EscShape 11 (lit "v")
| Esc_backslash : EscShape 92 [92]
| Esc_quote : EscShape 34 [34]
| Esc_question : EscShape 63 (lit "?")
| Esc_octal d : (1 <= length d <= 3)%nat -> OctDigits d -> EscShape (value 8 0 d) d
| Esc_x d : (1 <= length d <= 2)%nat -> HexDigits d -> EscShape (value 16 0 d) (lit "x" ++ d)
| Esc_u d : (1 <= length d <= 4)%nat -> HexDigits d -> EscShape (value 16 0 d) (lit "u" ++ d)
| Esc_U d : (1 <= length d <= 8)%nat -> HexDigits d -> EscShape (value 16 0 d) (lit "U" ++ d).

(** [GChars normal v s r]: [s] spells the characters [v], followed by [r]; [normal]
    are the characters standing for themselves. *)
Inductive GChars (normal : char -> Prop) : str -> str -> str -> Prop :=
| GC_nil r : GChars normal [] r r
| GC_char c v s r : normal c -> GChars normal v s r -> GChars normal (c :: v) (c :: s) r
| GC_esc n t v s r :
    EscShape n t -> Longest (fun t' => exists n', EscShape n' t') t s ->
    ScalarValue n ->
    GChars normal v s r -> GChars normal (n :: v) ([92] ++ t ++ s) r.

(** DEVIATION: line ends may occur inside a quoted string (but not in a label). *)
Definition Plain (c : char) : Prop := c <> 92 /\ c <> 34.
Definition PlainLine (c : char) : Prop := c <> 92 /\ c <> 34 /\ c <> 13 /\ c <> 10.

(** ** Heredocs *)
Definition MarkerText (m : str) : Prop :=
  m <> [] /\ forall c, In c m -> AlphaNumeric c \/ c = 95.

Definition Blanks (b : str) : Prop := forall c, In c b -> c = 32 \/ c = 9.

(** [Closing m b t r]: [t] is a closing line for marker [m] (line end, blanks [b],
    marker, and then the line end starting [r]). *)
Definition Closing (m b t r : str) : Prop :=
  exists e e' r', Eol e /\ Blanks b /\ Eol e' /\ r = e' ++ r' /\ t = e ++ b ++ m ++ r.

(** Removing [n] columns of indentation from a line.  Lines indented less
    lose all their own indentation.  DEVIATION: such a line must have at least
    two characters after its indentation, the first of them a single byte,
    and an indentation of at most [n-2]; the code panics on any other line. *)
Inductive UnindentLine (n : nat) : str -> str -> Prop :=
| UL_full o : UnindentLine n (repeat 32 n ++ o) o
| UL_less k c c' o : (k + 1 < n)%nat -> c <> 32 -> c < 128 ->
    UnindentLine n (repeat 32 k ++ c :: c' :: o) (c :: c' :: o).

(** Lines joined by LF *)
Fixpoint unlines (ls : list str) : str :=
  match ls with
  | [] => []
  | [l] => l
  | l :: ls' => l ++ [10] ++ unlines ls'
  end.

Definition Unindent (n : nat) (content out : str) : Prop :=
  exists ls os, ls <> [] /\ (forall l, In l ls -> ~ In 10 l) /\
    content = unlines ls /\ out = unlines os /\ Forall2 (UnindentLine n) ls os.

(** "<<MARKER" or "<<-MARKER", line end, content, closing line.  [T] is the text
    from the end of the marker; [p] what precedes the first closing line in
    it. *)
Inductive GHeredoc : cow -> str -> str -> Prop :=
| GH d m p b t r v :
    MarkerText m -> d = [] \/ d = [45] ->
    Closing m b t r ->
    (forall x y b' r', p = x ++ y -> y <> [] -> ~ Closing m b' (y ++ t) r') ->
    match p with
    | [] => v = Borrowed []
    | _ =>
        exists e content, Eol e /\ p = e ++ content /\
          if match d, b with [45], _ :: _ => true | _, _ => false end
          then exists out, Unindent (length b) content out /\ v = Owned out
          else v = Borrowed content
    end ->
    GHeredoc v ([60; 60] ++ d ++ m ++ p ++ t) r.

(** ** Expressions *)
Definition FirstIs (c : char) (s : str) : Prop := exists s', s = c :: s'.

Inductive GTerm : expr -> str -> str -> Prop :=
| GT_null r : GTerm ENull (lit "null" ++ r) r
| GT_true r : GTerm (EBool true) (lit "true" ++ r) r
| GT_false r : GTerm (EBool false) (lit "false" ++ r) r
| GT_number n t r : NumLit n t -> Longest NumberText t r -> GTerm (ENumber n) (t ++ r) r
| GT_quoted v s r : GChars Plain v s ([34] ++ r) -> GTerm (EString (Owned v)) ([34] ++ s) r
| GT_heredoc v s r : GHeredoc v s r -> GTerm (EString v) s r
| GT_tuple l s r : GItems l s r -> GTerm (ETuple l) ([91] ++ s) r
| GT_object l s r : GMembers l s r -> GTerm (EObject l) ([123] ++ s) r
| GT_paren e w1 w2 s r :
    Ws w1 -> GExpr e s (w2 ++ [41] ++ r) -> Ws w2 -> GTerm e ([40] ++ w1 ++ s) r

(** DEVIATION: an object or a parenthesised expression may be preceded by white
    space including newlines, even where newlines are significant. *)
with GExpr : expr -> str -> str -> Prop :=
| GE_term e s r : GTerm e s r -> GExpr e s r
| GE_lead e w s r : Ws w -> FirstIs 123 s \/ FirstIs 40 s -> GTerm e s r -> GExpr e (w ++ s) r

(** After "[".  DEVIATION: a lone comma is accepted (GI_comma). *)
with GItems : list expr -> str -> str -> Prop :=
| GI_nil w r : Ws w -> GItems [] (w ++ [93] ++ r) r
| GI_comma w1 w2 r : Ws w1 -> Ws w2 -> GItems [] (w1 ++ [44] ++ w2 ++ [93] ++ r) r
| GI_last e w1 w2 s r : Ws w1 -> Ws w2 ->
    GExpr e s (w2 ++ [93] ++ r) -> GItems [e] (w1 ++ s) r
| GI_last_comma e w1 w2 w3 s r : Ws w1 -> Ws w2 -> Ws w3 ->
    GExpr e s (w2 ++ [44] ++ w3 ++ [93] ++ r) -> GItems [e] (w1 ++ s) r
| GI_cons e e' l w1 w2 s s' r : Ws w1 -> Ws w2 ->
    GExpr e s (w2 ++ [44] ++ s') -> GItems (e' :: l) s' r ->
    GItems (e :: e' :: l) (w1 ++ s) r

(** After "{" *)
with GMembers : list (okey * expr) -> str -> str -> Prop :=
| GM_nil w r : Ws w -> GMembers [] (w ++ [125] ++ r) r
| GM_cons k e l w i1 i2 i3 s s' s3 s4 r :
    Ws w -> Iws i1 -> Iws i2 -> Iws i3 ->
    GKey k s (i1 ++ [61] ++ i2 ++ s') -> GExpr e s' (i3 ++ s3) ->
    (s3 = [44] ++ s4 \/ (exists n, LineEnd n /\ s3 = n ++ s4) \/ (s3 = s4 /\ FirstIs 125 s3)) ->
    GMembers l s4 r ->
    GMembers ((k, e) :: l) (w ++ s) r

(** An identifier where one is possible, otherwise the text of an expression *)
with GKey : okey -> str -> str -> Prop :=
| GK_ident i s r : GIdent i s r -> GKey (KIdent i) s r
| GK_expr e t r : GTerm e (t ++ r) r -> (forall i r', ~ GIdent i (t ++ r) r') ->
    GKey (KExpr (Borrowed t)) (t ++ r) r.

Scheme GTerm_mut := Induction for GTerm Sort Prop
with GExpr_mut := Induction for GExpr Sort Prop
with GItems_mut := Induction for GItems Sort Prop
with GMembers_mut := Induction for GMembers Sort Prop
with GKey_mut := Induction for GKey Sort Prop.
Combined Scheme grammar_mut from GTerm_mut, GExpr_mut, GItems_mut, GMembers_mut, GKey_mut.

(** ** Attributes, blocks and bodies *)
Inductive GAttr : cow -> expr -> str -> str -> Prop :=
| GA i e i1 i2 s s' r : Iws i1 -> Iws i2 ->
    GIdent i s (i1 ++ [61] ++ i2 ++ s') -> GExpr e s' r -> GAttr i e s r.

Inductive GLabel : label -> str -> str -> Prop :=
| GL_ident i s r : GIdent i s r -> GLabel (LIdent i) s r
| GL_string v s r : GChars PlainLine v s ([34] ++ r) -> GLabel (LString v) ([34] ++ s) r.

(** Labels, with the white space around them *)
Inductive GLabels : list label -> str -> str -> Prop :=
| GLs_nil i r : Iws i -> GLabels [] (i ++ r) r
| GLs_cons l ls i s s' r : Iws i -> GLabel l s s' -> GLabels ls s' r -> GLabels (l :: ls) (i ++ s) r.

Inductive GElem : element -> str -> str -> Prop :=
| GE_attr i e s r : GAttr i e s r -> GElem (Attr i e) s r
| GE_one_line_empty t ls i1 s s' r : Iws i1 ->
    GIdent t s s' -> GLabels ls s' ([123] ++ i1 ++ [125] ++ r) ->
    GElem (Blk t ls []) s r
| GE_one_line t ls n v i1 i2 s s' s2 r : Iws i1 -> Iws i2 ->
    GIdent t s s' -> GLabels ls s' ([123] ++ i1 ++ s2) ->
    GAttr n v s2 (i2 ++ [125] ++ r) ->
    GElem (Blk t ls [Attr n v]) s r
| GE_block t ls b i1 n s s' s2 r : Iws i1 -> LineEnd n ->
    GIdent t s s' -> GLabels ls s' ([123] ++ i1 ++ n ++ s2) ->
    GBody b s2 ([125] ++ r) ->
    GElem (Blk t ls b) s r

with GBody : body_t -> str -> str -> Prop :=
| GB_nil w r : Ws w -> GBody [] (w ++ r) r
| GB_cons el b w i s s1 s2 r : Ws w -> Iws i ->
    GElem el s (i ++ s1) ->
    (exists n, LineEnd n /\ s1 = n ++ s2) \/ (s1 = [] /\ s2 = []) ->
    GBody b s2 r ->
    GBody (el :: b) (w ++ s) r.

Scheme GElem_mut := Induction for GElem Sort Prop
with GBody_mut := Induction for GBody Sort Prop.
Combined Scheme body_mut from GElem_mut, GBody_mut.

(** A configuration file *)
Definition GConfig (b : body_t) (s : str) : Prop := GBody b s [].

(** A complete expression *)
Definition GWholeExpr (e : expr) (s : str) : Prop := GExpr e s [].

End WithTables.
