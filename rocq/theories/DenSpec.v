(** * DenSpec: SPECIFICATION of what a document means as a value of a Rust type

    [Den t x d]: read as a [t], the part [x] of a document means [d].  There are three
    sorts of parts: an expression, a body (of the document or of a block) and the bodies
    of the blocks of one type.  Everything else is not accepted.  Independent of the
    deserialisers ([Serde] is imported for the names of types and values). *)
From Coq Require Import Permutation ZArith Reals SpecFloat.
From Verif Require Import Base Ast Blocks NumConv NumSpec Grammar FloatSpec IoSpec Serde SerdeSpec.
Open Scope nat_scope.

Inductive node :=
| Expr (e : expr)
| Body (b : body_t)
| Group (bodies : list body_t).

(** ** What a part is made of *)
(** Named members, every name once.  A body has its attributes in source order and then,
    in any order, its types of blocks; of these only the last run of consecutive blocks
    counts, and none of its blocks may have labels.  A single block is as its body. *)
Inductive Members : node -> list (str * node) -> Prop :=
| Mem_object l ms :
    Forall2 (fun ke m => exists i, fst ke = KIdent i /\ m = (cow_str i, Expr (snd ke))) l ms ->
    NoDup (map fst ms) -> Members (Expr (EObject l)) ms
| Mem_body b groups ms :
    (forall x, In x (map fst groups) <-> exists c, In c (block_list b) /\ cow_str (b_type c) = x) ->
    Forall (fun g => exists r, LastRun (fst g) (block_list b) r /\ (forall c, In c r -> b_labels c = []) /\
                      snd g = Group (map b_body r)) groups ->
    ms = map (fun a => (fst a, Expr (snd a))) (attr_list b) ++ groups ->
    NoDup (map fst ms) -> Members (Body b) ms
| Mem_block b ms : Members (Body b) ms -> Members (Group [b]) ms.

(** Items in order: of a tuple, or of two or more blocks *)
Inductive Items : node -> list node -> Prop :=
| It_tuple l : Items (Expr (ETuple l)) (map Expr l)
| It_blocks b b' bs : Items (Group (b :: b' :: bs)) (map Body (b :: b' :: bs)).

(** ** Numbers *)
(** an integer in the range of [i64] *)
Definition IntLit (n : number_t) (z : Z) : Prop :=
  exists t, NumLit n t /\ IntegerText t z /\ InRange I64 z.
(** not an integer; [f] is the nearest [f64] *)
Definition FloatLit (n : number_t) (f : spec_float) : Prop :=
  exists t neg v, NumLit n t /\ (forall z, ~ IntegerText t z) /\ DecimalText t neg v /\ CorrectlyRounded 53 1024 neg v f.

(** The keys a map type can have: any string; one character; no borrowed string at all *)
Definition KeysFit (k : kty) (keys : list str) : Prop :=
  match k with
  | KTString => True
  | KTChar => Forall (fun x => exists c, x = [c]) keys
  | KTStr => keys = []
  end.

Inductive Den : ty -> node -> data -> Prop :=
(* scalars *)
| D_unit : Den TUnit (Expr ENull) DUnit
| D_bool b : Den TBool (Expr (EBool b)) (DBool b)
| D_int n it z : IntLit n z -> InRange it z -> Den (TInt it) (Expr (ENumber n)) (DInt z)
| D_f64_int n z f : IntLit n z -> CorrectlyRounded 53 1024 (z <? 0)%Z (IZR z) f -> Den TF64 (Expr (ENumber n)) (DFloat f)
| D_f64 n f : FloatLit n f -> Den TF64 (Expr (ENumber n)) (DFloat f)
| D_f32_int n z f : IntLit n z -> CorrectlyRounded 24 128 (z <? 0)%Z (IZR z) f -> Den TF32 (Expr (ENumber n)) (DFloat f)
| D_f32 n f g : FloatLit n f -> Narrowed f g -> Den TF32 (Expr (ENumber n)) (DFloat g)
| D_char s c : cow_str s = [c] -> Den TChar (Expr (EString s)) (DChar c)
| D_string s : Den TString (Expr (EString s)) (DStr (cow_str s))
| D_str s : Den TStr (Expr (EString (Borrowed s))) (DStr s)
| D_bytes s : Den TBytes (Expr (EString s)) (DBytes (utf8 (cow_str s)))
| D_bytes_items x items bs : Items x items -> Forall2 (fun y b => Den (TInt U8) y (DInt (Z.of_N b))) items bs -> Den TBytes x (DBytes bs)
(* options: only [null] is [None]; a document itself is not an option *)
| D_none t : Den (TOption t) (Expr ENull) DNone
| D_some t e d : e <> ENull -> Den t (Expr e) d -> Den (TOption t) (Expr e) (DSome d)
| D_some_group t bs d : Den t (Group bs) d -> Den (TOption t) (Group bs) (DSome d)
(* newtypes: of two or more blocks the first *)
| D_newtype t e d : Den t (Expr e) d -> Den (TNewtype t) (Expr e) d
| D_newtype_group t b b' bs d : Den t (Body b) d -> Den (TNewtype t) (Group (b :: b' :: bs)) d
(* sequences *)
| D_seq t x items ds : Items x items -> Forall2 (fun y d => Den t y d) items ds -> Den (TSeq t) x (DSeq ds)
| D_seq_one t b d : Den t (Body b) d -> Den (TSeq t) (Group [b]) (DSeq [d])
(* a fixed number: exactly as many elements; of blocks the first ones *)
| D_tuple ts l ds : Forall3 (fun t y d => Den t y d) ts (map Expr l) ds -> Den (TTuple ts) (Expr (ETuple l)) (DSeq ds)
| D_tuple_group ts b b' bs here rest ds : b :: b' :: bs = here ++ rest ->
    Forall3 (fun t y d => Den t y d) ts (map Body here) ds -> Den (TTuple ts) (Group (b :: b' :: bs)) (DSeq ds)
(* maps *)
| D_map k t x ms es : Members x ms -> KeysFit k (map fst ms) ->
    Forall2 (fun m e => fst e = fst m /\ Den t (snd m) (snd e)) ms es -> Den (TMap k t) x (DMap es)
(* structs: by name; a missing option is [None]; what is not a field is ignored *)
| D_struct fs x ms vs : Members x ms ->
    (forall n y, In (n, y) ms -> ~ In n (map fst fs) -> Den TIgnored y DIgnored) ->
    Forall2 (fun ft v => fst v = fst ft /\
      ((exists y, In (fst ft, y) ms /\ Den (snd ft) y (snd v)) \/
       (~ In (fst ft) (map fst ms) /\ (exists t, snd ft = TOption t) /\ snd v = DNone))) fs vs ->
    Den (TStruct fs) x (DStruct vs)
(* structs by position; what is too much is not looked at *)
| D_struct_items fs x here rest vs : Items x (here ++ rest) ->
    Forall3 (fun ft y v => fst v = fst ft /\ Den (snd ft) y (snd v)) fs here vs -> Den (TStruct fs) x (DStruct vs)
(* anything, to be ignored: it is read all the same *)
| D_ignored_null : Den TIgnored (Expr ENull) DIgnored
| D_ignored_bool b : Den TIgnored (Expr (EBool b)) DIgnored
| D_ignored_string s : Den TIgnored (Expr (EString s)) DIgnored
| D_ignored_int n z : IntLit n z -> Den TIgnored (Expr (ENumber n)) DIgnored
| D_ignored_float n f : FloatLit n f -> Den TIgnored (Expr (ENumber n)) DIgnored
| D_ignored_items x items : Items x items -> Forall (fun y => Den TIgnored y DIgnored) items -> Den TIgnored x DIgnored
| D_ignored_members x ms : Members x ms -> Forall (fun m => Den TIgnored (snd m) DIgnored) ms -> Den TIgnored x DIgnored
(* anything, to be kept *)
| D_any_null : Den TAny (Expr ENull) DUnit
| D_any_bool b : Den TAny (Expr (EBool b)) (DBool b)
| D_any_string s : Den TAny (Expr (EString s)) (DStr (cow_str s))
| D_any_int n z : IntLit n z -> Den TAny (Expr (ENumber n)) (DInt z)
| D_any_float n f : FloatLit n f -> Den TAny (Expr (ENumber n)) (DFloat f)
| D_any_items x items ds : Items x items -> Forall2 (fun y d => Den TAny y d) items ds -> Den TAny x (DSeq ds)
| D_any_members x ms es : Members x ms -> Forall2 (fun m e => fst e = fst m /\ Den TAny (snd m) (snd e)) ms es -> Den TAny x (DMap es).

(** ** Equal values: the entries of a map have no order *)
Inductive Same : data -> data -> Prop :=
| Same_refl d : Same d d
| Same_some d d' : Same d d' -> Same (DSome d) (DSome d')
| Same_seq l l' : Forall2 (fun d d' => Same d d') l l' -> Same (DSeq l) (DSeq l')
| Same_map l l' l'' : Permutation l l' -> Forall2 (fun e e' => fst e' = fst e /\ Same (snd e) (snd e')) l' l'' -> Same (DMap l) (DMap l'')
| Same_struct l l' : Forall2 (fun e e' => fst e' = fst e /\ Same (snd e) (snd e')) l l' -> Same (DStruct l) (DStruct l').

(** ** Types: the fields of a struct have different names *)
Inductive GoodTy : ty -> Prop :=
| GT_leaf t : match t with TOption _ | TNewtype _ | TSeq _ | TTuple _ | TMap _ _ | TStruct _ => False | _ => True end -> GoodTy t
| GT_option t : GoodTy t -> GoodTy (TOption t)
| GT_newtype t : GoodTy t -> GoodTy (TNewtype t)
| GT_seq t : GoodTy t -> GoodTy (TSeq t)
| GT_tuple l : Forall GoodTy l -> GoodTy (TTuple l)
| GT_map k t : GoodTy t -> GoodTy (TMap k t)
| GT_struct fs : NoDup (map fst fs) -> Forall (fun ft => GoodTy (snd ft)) fs -> GoodTy (TStruct fs).
(** Types without maps: their values have no order in them. *)
Inductive Ordered : ty -> Prop :=
| O_leaf t : match t with TOption _ | TNewtype _ | TSeq _ | TTuple _ | TMap _ _ | TStruct _ | TAny => False | _ => True end -> Ordered t
| O_option t : Ordered t -> Ordered (TOption t)
| O_newtype t : Ordered t -> Ordered (TNewtype t)
| O_seq t : Ordered t -> Ordered (TSeq t)
| O_tuple l : Forall Ordered l -> Ordered (TTuple l)
| O_struct fs : Forall (fun ft => Ordered (snd ft)) fs -> Ordered (TStruct fs).
