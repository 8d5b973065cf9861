(** * Printer: SPECIFICATION of how a syntax tree is written down

    [shape_doc b] is the sequence of tokens of the tree [b] with typed gaps between
    them; [Fill ps s] says that [s] is such a sequence with every gap filled by any
    white space (or separator) allowed there.  Independent of the parser. *)
From Verif Require Import Base Ast Grammar.

(** Writing any text as a quoted string *)
Definition escape_char (c : char) : str :=
  if c =? 92 then [92; 92] else if c =? 34 then [92; 34] else [c].
Definition escape (v : str) : str := flat_map escape_char v.
(** In block labels line ends must be escaped too. *)
Definition escape_label_char (c : char) : str :=
  if c =? 10 then [92; 110] else if c =? 13 then [92; 114] else escape_char c.
Definition escape_label (v : str) : str := flat_map escape_label_char v.

Definition quote (s : str) : str := [34] ++ s ++ [34].

Inductive piece :=
| T (t : str)        (* a token *)
| Gws                (* white space, newlines ignored *)
| Giws               (* inline white space *)
| Giws1              (* inline white space, at least one character *)
| Gend               (* end of an element's line (and any white space after it) *)
| Gsep               (* separator between object members: a comma or a newline *)
| Gcomma             (* optional trailing comma *)
| Gfin.              (* end of the document: optional line end *)

Inductive FillGap : piece -> str -> Prop :=
| F_tok t : FillGap (T t) t
| F_ws w : Ws w -> FillGap Gws w
| F_iws w : Iws w -> FillGap Giws w
| F_iws1 w : Iws w -> w <> [] -> FillGap Giws1 w
| F_end i n w : Iws i -> LineEnd n -> Ws w -> FillGap Gend (i ++ n ++ w)
| F_sep_comma i w : Iws i -> Ws w -> FillGap Gsep (i ++ [44] ++ w)
| F_sep_line i n w : Iws i -> LineEnd n -> Ws w -> FillGap Gsep (i ++ n ++ w)
| F_comma_no w : Ws w -> FillGap Gcomma w
| F_comma_yes w w' : Ws w -> Ws w' -> FillGap Gcomma (w ++ [44] ++ w')
| F_fin_no i : Iws i -> FillGap Gfin i
| F_fin_yes i n w : Iws i -> LineEnd n -> Ws w -> FillGap Gfin (i ++ n ++ w).

Inductive Fill : list piece -> str -> Prop :=
| Fill_nil : Fill [] []
| Fill_cons p ps g s : FillGap p g -> Fill ps s -> Fill (p :: ps) (g ++ s).

Definition shape_key (k : okey) : str :=
  match k with KIdent i => cow_str i | KExpr t => cow_str t end.

(** Lists with a separator *)
Fixpoint sep_by (sep : list piece) (l : list (list piece)) : list piece :=
  match l with
  | [] => []
  | [x] => x
  | x :: l' => x ++ sep ++ sep_by sep l'
  end.

Fixpoint shape_expr (e : expr) : list piece :=
  match e with
  | ENull => [T (lit "null")]
  | EBool true => [T (lit "true")]
  | EBool false => [T (lit "false")]
  | ENumber n => [T (cow_str (num_input n))]
  | EString v => [T (quote (escape (cow_str v)))]
  | ETuple [] => [T [91]; Gws; T [93]]
  | ETuple l =>
      [T [91]; Gws] ++ sep_by [Gws; T [44]; Gws] (map shape_expr l) ++ [Gcomma; T [93]]
  | EObject [] => [T [123]; Gws; T [125]]
  | EObject l =>
      [T [123]; Gws] ++
      sep_by [Gsep]
        (map (fun kv => [T (shape_key (fst kv)); Giws; T [61]; Giws] ++ shape_expr (snd kv)) l)
      ++ [Giws; T [125]]
  end.

Definition shape_label (l : label) : list piece :=
  match l with
  | LIdent i => [Giws1; T (cow_str i)]
  | LString v => [Giws; T (quote (escape_label v))]
  end.

Fixpoint shape_elem (el : element) : list piece :=
  match el with
  | Attr n v => [T (cow_str n); Giws; T [61]; Giws] ++ shape_expr v
  | Blk t ls b =>
      [T (cow_str t)] ++ flat_map shape_label ls ++ [Giws; T [123]; Gend] ++
      flat_map (fun el => shape_elem el ++ [Gend]) b ++ [T [125]]
  end.

Definition shape_doc (b : body_t) : list piece :=
  [Gws] ++ match b with [] => [] | _ => sep_by [Gend] (map shape_elem b) ++ [Gfin] end.

(** ** Which trees have a text: the identifiers, number literals and key texts in
    them must be such.  (Trees containing heredoc values are borrowed strings;
    they are written as quoted strings, which parse to owned ones.) *)
Section WithTables.
Context (U : ucd).

Inductive ValidKey : okey -> Prop :=
| VK_ident i : IdentText U i -> ValidKey (KIdent (Borrowed i))
| VK_expr e c t : GTerm U e (c :: t) [] -> ~ IdStart U c -> c <> 95 -> ValidKey (KExpr (Borrowed (c :: t))).

Inductive ValidExpr : expr -> Prop :=
| VE_null : ValidExpr ENull
| VE_bool b : ValidExpr (EBool b)
| VE_number n t : NumLit n t -> ValidExpr (ENumber n)
| VE_string v : ValidExpr (EString (Owned v))
| VE_tuple l : Forall ValidExpr l -> ValidExpr (ETuple l)
| VE_object l : Forall (fun kv => ValidKey (fst kv) /\ ValidExpr (snd kv)) l -> ValidExpr (EObject l).

Inductive ValidLabel : label -> Prop :=
| VL_ident i : IdentText U i -> ValidLabel (LIdent (Borrowed i))
| VL_string v : ValidLabel (LString v).

Inductive ValidElem : element -> Prop :=
| VEl_attr n v : IdentText U n -> ValidExpr v -> ValidElem (Attr (Borrowed n) v)
| VEl_blk t ls b : IdentText U t -> Forall ValidLabel ls -> Forall ValidElem b ->
    ValidElem (Blk (Borrowed t) ls b).

Definition ValidDoc (b : body_t) : Prop := Forall ValidElem b.
End WithTables.

(** ** A concrete printer: one way to fill the gaps *)
Definition canon_gap (p : piece) : str :=
  match p with
  | T t => t
  | Gws | Gcomma => []
  | Giws | Giws1 => [32]
  | Gend | Gfin => [10]
  | Gsep => [44; 32]
  end.
Definition print_doc (b : body_t) : str := flat_map canon_gap (shape_doc b).

(** ** The same tree with every string value owned (a heredoc value is a string
    like any other once written as a quoted string) *)
Fixpoint own_expr (e : expr) : expr :=
  match e with
  | EString v => EString (Owned (cow_str v))
  | ETuple l => ETuple (map own_expr l)
  | EObject l => EObject (map (fun kv => (fst kv, own_expr (snd kv))) l)
  | _ => e
  end.
Fixpoint own_elem (el : element) : element :=
  match el with
  | Attr n v => Attr n (own_expr v)
  | Blk t ls b => Blk t ls (map own_elem b)
  end.
Definition own_doc (b : body_t) : body_t := map own_elem b.
