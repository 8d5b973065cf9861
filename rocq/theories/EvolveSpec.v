(** * EvolveSpec: SPECIFICATION of documents and types that evolve

    [SameFor t x x']: the parts [x] and [x'] differ only in what the type [t] does not ask for.  Under a struct only the
    members with the name of a field have to be the same for the field; the other ones need only be readable (C102). *)
From Coq Require Import Permutation.
From Verif Require Import Base Ast Blocks SerdeSpec Serde DenSpec.

Definition Readable (x : node) : Prop := Den TIgnored x DIgnored.
Inductive SameFor : ty -> node -> node -> Prop :=
| SF_same t x : SameFor t x x
| SF_struct fs x x' ms ms' : Members x ms -> Members x' ms' ->
    (* the same fields are there, and the same for the field *)
    (forall n, In n (map fst fs) -> (In n (map fst ms) <-> In n (map fst ms'))) ->
    (forall n t y y', In (n, t) fs -> In (n, y) ms -> In (n, y') ms' -> SameFor t y y') ->
    (* what is not a field is readable *)
    (forall n y, In (n, y) ms \/ In (n, y) ms' -> ~ In n (map fst fs) -> Readable y) ->
    SameFor (TStruct fs) x x'
| SF_option t e e' : e <> ENull -> e' <> ENull -> SameFor t (Expr e) (Expr e') -> SameFor (TOption t) (Expr e) (Expr e')
| SF_option_group t bs bs' : SameFor t (Group bs) (Group bs') -> SameFor (TOption t) (Group bs) (Group bs')
| SF_newtype t e e' : SameFor t (Expr e) (Expr e') -> SameFor (TNewtype t) (Expr e) (Expr e')
| SF_newtype_group t b c bs b' c' bs' : SameFor t (Body b) (Body b') -> SameFor (TNewtype t) (Group (b :: c :: bs)) (Group (b' :: c' :: bs'))
| SF_seq t x x' items items' : Items x items -> Items x' items' -> Forall2 (fun y y' => SameFor t y y') items items' -> SameFor (TSeq t) x x'
| SF_seq_one t b b' : SameFor t (Body b) (Body b') -> SameFor (TSeq t) (Group [b]) (Group [b'])
| SF_tuple ts l l' : Forall3 (fun t y y' => SameFor t y y') ts (map Expr l) (map Expr l') -> SameFor (TTuple ts) (Expr (ETuple l)) (Expr (ETuple l'))
| SF_map k t x x' ms m ms' : Members x ms -> Members x' ms' -> Permutation ms m ->
    Forall2 (fun a a' => fst a' = fst a /\ SameFor t (snd a) (snd a')) m ms' -> SameFor (TMap k t) x x'.
