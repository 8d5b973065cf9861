(** * ReachSpec: SPECIFICATION of the values a document can stand for

    [Val t d]: the value [d] of the Rust type [t] can be written as an expression.
    [Doc t d]: it can be written as a whole document.  Nothing here mentions
    documents, expressions or the deserialisers. *)
From Coq Require Import ZArith Reals SpecFloat.
From Verif Require Import Base Ast NumConv NumSpec Grammar FloatSpec IoSpec Serde DenSpec.
Open Scope nat_scope.

(** Every float of the format but NaN *)
Definition NotNaN (p x : Z) (f : spec_float) : Prop := FiniteFloat p x f \/ exists s, f = S754_infinity s.
(** The values that only [null] stands for; [Some] of them cannot be written. *)
Fixpoint OnlyNull (t : ty) (d : data) : Prop :=
  match t, d with
  | TUnit, DUnit | TOption _, DNone | TAny, DUnit => True
  | TNewtype t', _ => OnlyNull t' d
  | _, _ => False
  end.

Section WithTables.
Context (U : ucd).
(** a name that can be written without quotes *)
Definition Name (n : str) : Prop := IdentText U n /\ IsStr n.
Definition Names (l : list str) : Prop := NoDup l /\ Forall Name l.

Inductive Val : ty -> data -> Prop :=
| V_unit : Val TUnit DUnit
| V_bool b : Val TBool (DBool b)
| V_int it z : InRange it z -> InRange I64 z -> Val (TInt it) (DInt z)
| V_f64 f : NotNaN 53 1024 f -> Val TF64 (DFloat f)
| V_f32 f : NotNaN 24 128 f -> Val TF32 (DFloat f)
| V_char c : IsStr [c] -> Val TChar (DChar c)
| V_string s : IsStr s -> Val TString (DStr s)
| V_str s : IsStr s -> Val TStr (DStr s)
| V_bytes l : Forall (fun b => (b < 256)%N) l -> Val TBytes (DBytes l)
| V_none t : Val (TOption t) DNone
| V_some t d : Val t d -> ~ OnlyNull t d -> Val (TOption t) (DSome d)
| V_newtype t d : Val t d -> Val (TNewtype t) d
| V_seq t ds : Forall (fun d => Val t d) ds -> Val (TSeq t) (DSeq ds)
| V_tuple ts ds : Forall2 (fun t d => Val t d) ts ds -> Val (TTuple ts) (DSeq ds)
| V_map k t es : Names (map fst es) -> KeysFit k (map fst es) -> Forall (fun e => Val t (snd e)) es -> Val (TMap k t) (DMap es)
| V_struct fs vs : Forall2 (fun ft v => fst v = fst ft /\ Val (snd ft) (snd v)) fs vs -> Val (TStruct fs) (DStruct vs)
| V_ignored : Val TIgnored DIgnored
| V_any_unit : Val TAny DUnit
| V_any_bool b : Val TAny (DBool b)
| V_any_int z : InRange I64 z -> Val TAny (DInt z)
| V_any_float f : NotNaN 53 1024 f -> Val TAny (DFloat f)
| V_any_string s : IsStr s -> Val TAny (DStr s)
| V_any_seq ds : Forall (fun d => Val TAny d) ds -> Val TAny (DSeq ds)
| V_any_map es : Names (map fst es) -> Forall (fun e => Val TAny (snd e)) es -> Val TAny (DMap es).

(** A document is a map or a struct; a field whose name cannot be written must be an
    option, and is [None]. *)
Inductive Doc : ty -> data -> Prop :=
| Doc_map k t es : Val (TMap k t) (DMap es) -> Doc (TMap k t) (DMap es)
| Doc_struct fs vs : Forall2 (fun ft v => fst v = fst ft /\ Val (snd ft) (snd v) /\
    (Name (fst ft) \/ (exists t, snd ft = TOption t) /\ snd v = DNone)) fs vs -> Doc (TStruct fs) (DStruct vs)
| Doc_ignored : Doc TIgnored DIgnored
| Doc_any es : Val TAny (DMap es) -> Doc TAny (DMap es).
End WithTables.
