(** * Serde: the deserialisers of lib/src/serde/de/

    serde is a protocol.  A target type calls one method of a deserialiser; the
    deserialiser answers with one visitor call (here an [event]).  The deserialisers
    ([call]) are code of this crate and modelled function by function.  The target
    types ([visit]) are external code (serde 1.0.101 and its derive); they are
    modelled as documented there, for the types listed in [ty]. *)
From Coq Require Import SpecFloat.
From Verif Require Import Base Ast Blocks NumConv Parser IoSpec.

(** ** What can be deserialised: an expression, a body or the blocks of one type *)
Inductive src :=
| SExpr (e : expr)
| SBody (b : body_t)
| SBlock (b : bbody).

(** serde/de.rs:26-58 [Error].  [TrailingCharacters] and [Overflow] are declared there
    but constructed nowhere.  [Custom] holds a message; the messages come from serde
    ([serde::de::Error]'s provided methods), here the method called. *)
Inductive custom := CInvalidType | CInvalidValue | CInvalidLength | CMissingField (f : str) | CDuplicateField (f : str).
Inductive de_error :=
| EParseError (e : error_t)
| EParseInt
| EParseFloat
| ETupleLength (expected actual : nat)
| EObjectDuplicateKey (k : str)
| EBodyDuplicateKey (k : str)
| ECustom (c : custom).

(** One step of a map access ([next_key_seed], [next_value_seed]). *)
Inductive mstep :=
| MEntry (key : cow) (value : src)
| MDuplicate (e : de_error)     (* an error: duplicate key *)
| MPanic.                 (* a panic *)

(** The visitor calls the crate's deserialisers make. *)
Inductive event :=
| VUnit
| VBool (b : bool)
| VI64 (z : Z)
| VF64 (f : spec_float)
| VBorrowedStr (s : str)
| VString (s : str)
| VNone
| VSome (s : src)
| VNewtype (s : src)
| VSeq (l : list src)
| VMap (l : list mstep)
| VErr (e : de_error)     (* an error without a visitor call *)
| VPanic.

(** The deserialiser methods that are not forwarded to [deserialize_any] by every
    deserialiser. *)
Inductive method := MAny | MOption | MNewtype | MTuple (n : nat) | MSeq.

Definition seen_mem (k : str) (seen : list str) : bool := existsb (str_eqb k) seen.

(** serde/de/object.rs:30-59 [ObjectMapAccess], object.rs:40-51
    [ObjectElementIdentifier::as_str] ([unimplemented!] for expression keys) *)
Fixpoint object_steps (seen : list str) (l : list (okey * expr)) : list mstep :=
  match l with
  | [] => []
  | (KExpr _, _) :: _ => [MPanic]
  | (KIdent k, e) :: l' =>
      if seen_mem (cow_str k) seen then [MDuplicate (EObjectDuplicateKey (cow_str k))]
      else MEntry k (SExpr e) :: object_steps (cow_str k :: seen) l'
  end.

(** serde/de/body.rs:15-19 [BodyValue] *)
Inductive body_value := BVExpr (e : expr) | BVBlock (b : bbody).

(** body.rs:111-117: the two halves of [partition(BodyElement::is_attribute)], unwrapped *)
Fixpoint attributes_of (b : body_t) : list (cow * expr) :=
  match b with
  | [] => []
  | Attr n e :: b' => (n, e) :: attributes_of b'
  | Blk _ _ _ :: b' => attributes_of b'
  end.
Fixpoint blocks_of (b : body_t) : list block_t :=
  match b with
  | [] => []
  | Attr _ _ :: b' => blocks_of b'
  | Blk t ls bd :: b' => mk_block t ls bd :: blocks_of b'
  end.

Section Order.
  (** The order in which a [HashMap] of blocks is iterated (unspecified). *)
  Variable ord : blocks_t -> blocks_t.

  (** body.rs:108-123 [build_map_acces_iter] *)
  Definition build_map_access_iter (b : body_t) : list (cow * body_value) :=
    map (fun ne => (fst ne, BVExpr (snd ne))) (attributes_of b) ++
    map (fun tb => (fst tb, BVBlock (snd tb))) (ord (blocks_new (blocks_of b))).

  (** body.rs:125-165 [MapAccess]: a repeated attribute is an error, a block type
      already seen is an [assert!] *)
  Fixpoint body_steps (seen : list str) (l : list (cow * body_value)) : list mstep :=
    match l with
    | [] => []
    | (k, BVExpr e) :: l' =>
        if seen_mem (cow_str k) seen then [MDuplicate (EBodyDuplicateKey (cow_str k))]
        else MEntry k (SExpr e) :: body_steps (cow_str k :: seen) l'
    | (k, BVBlock b) :: l' =>
        if seen_mem (cow_str k) seen then [MPanic]
        else MEntry k (SBlock b) :: body_steps (cow_str k :: seen) l'
    end.

  (** body.rs:54-60 [deserialize_any] of the body [Deserializer] *)
  Definition body_any (b : body_t) : event := VMap (body_steps [] (build_map_access_iter b)).

  (** serde/de.rs:134-142 [deserialize_string] *)
  Definition string_event (s : cow) : event :=
    match s with Borrowed t => VBorrowedStr t | Owned t => VString t end.

  (** serde/de.rs:144-158 [deserialize_number]; the [visit_u64] branch is never
      reached, as [is_signed] holds for every number that is not a float *)
  Definition number_event (n : number_t) : event :=
    if is_float n then match as_f64 n with Some f => VF64 f | None => VErr EParseFloat end
    else if is_signed n then match as_int I64 n with Some z => VI64 z | None => VErr EParseInt end
    else match as_int U64 n with Some z => VI64 z | None => VErr EParseInt end.

  (** serde/de/expression.rs:9-25 *)
  Definition expr_any (e : expr) : event :=
    match e with
    | ENull => VUnit
    | ENumber n => number_event n
    | EBool b => VBool b
    | EString s => string_event s
    | ETuple l => VSeq (map SExpr l)
    | EObject l => VMap (object_steps [] l)
    end.

  (** serde/de/expression.rs:27-77, 79-85 [into_deserializer], de.rs:160-189 [deserialize_tuple] *)
  Definition expr_call (m : method) (e : expr) : event :=
    match m with
    | MOption => match e with ENull => VNone | _ => VSome (SExpr e) end
    | MNewtype => VNewtype (SExpr e)
    | MTuple n =>
        match e with
        | ETuple l => if Nat.eqb (length l) n then VSeq (map SExpr l) else VErr (ETupleLength n (length l))
        | _ => expr_any e
        end
    | MAny | MSeq => expr_any e
    end.

  (** serde/de/block.rs:12-30 [deserialize_body_seq], [deserialize_map] *)
  Definition one_or_seq (bodies : list body_t) : event :=
    match bodies with
    | [b] => body_any b
    | _ => VSeq (map SBody bodies)
    end.
  (** serde/de/block.rs:39-115 *)
  Definition block_call (m : method) (b : bbody) : event :=
    match m with
    | MOption => if Nat.eqb (len_blocks b) 0 then VNone else VSome (SBlock b)
    | MSeq =>
        match b with
        | BBody bodies => VSeq (map SBody bodies)
        | BLabels e [] => one_or_seq e
        | BLabels e (_ :: _) => VPanic
        end
    | MAny | MNewtype | MTuple _ =>
        match b with
        | BBody bodies => one_or_seq bodies
        | BLabels e [] => one_or_seq e
        | BLabels e (_ :: _) => VPanic
        end
    end.

  Definition call (s : src) (m : method) : event :=
    match s with
    | SExpr e => expr_call m e
    | SBody b => body_any b          (* body.rs:62-77: all methods are forwarded *)
    | SBlock b => block_call m b
    end.
End Order.

(** ** Target types (external: serde) *)
(** Key types of maps: [String], [&str], [char] *)
Inductive kty := KTString | KTStr | KTChar.
Inductive ty :=
| TBool | TInt (t : int_ty) | TF64 | TF32 | TChar
| TStr                                  (* [&'de str] *)
| TString
| TUnit                                 (* [()] and unit structs *)
| TOption (t : ty)
| TNewtype (t : ty)                     (* derived newtype struct *)
| TSeq (t : ty)                         (* [Vec<T>] *)
| TTuple (l : list ty)                  (* tuples and derived tuple structs *)
| TMap (k : kty) (t : ty)               (* maps; the entries in order of visiting *)
| TStruct (fields : list (str * ty))    (* derived struct *)
| TEnum                                 (* derived enum *)
| TBytes                                (* [serde_bytes::ByteBuf] *)
| TIgnored                              (* [IgnoredAny] *)
| TAny.                                 (* self-describing, as [serde_json::Value] *)

Inductive data :=
| DUnit | DBool (b : bool) | DInt (z : Z) | DFloat (f : spec_float) | DChar (c : char)
| DStr (s : str) | DBytes (l : list N) | DNone | DSome (d : data)
| DSeq (l : list data)
| DMap (l : list (str * data))
| DStruct (l : list (str * data))
| DIgnored.

Inductive dres (A : Type) := DeOk (a : A) | DeErr (e : de_error) | DePanic | DeFuel.
Arguments DeOk {A} a.
Arguments DeErr {A} e.
Arguments DePanic {A}.
Arguments DeFuel {A}.
Definition dbind {A B} (r : dres A) (f : A -> dres B) : dres B :=
  match r with DeOk a => f a | DeErr e => DeErr e | DePanic => DePanic | DeFuel => DeFuel end.
Definition dmap {A B} (f : A -> B) (r : dres A) : dres B := dbind r (fun a => DeOk (f a)).

Definition method_of (t : ty) : method :=
  match t with
  | TOption _ => MOption
  | TNewtype _ => MNewtype
  | TTuple l => MTuple (length l)
  | TSeq _ => MSeq
  | _ => MAny
  end.

(** [i64 as f64], [i64 as f32], [f64 as f32]: rounding to nearest, ties to even *)
Definition f64_of_Z (z : Z) : spec_float := binary_normalize 53 1024 z 0 false.
Definition f32_of_Z (z : Z) : spec_float := binary_normalize 24 128 z 0 false.
Definition f32_of_f64 (f : spec_float) : spec_float :=
  match f with
  | S754_finite s m e => binary_normalize 24 128 (if s then Zneg m else Zpos m) e s
  | _ => f
  end.
(** the bytes [ByteBuf] collects from a sequence of [u8] *)
Definition byte_of (d : data) : N := match d with DInt z => Z.to_N z | _ => 0%N end.

Section Visit.
  (** Deserialising a component. *)
  Variable rec : ty -> src -> dres data.

  Fixpoint seq_all (t : ty) (l : list src) : dres (list data) :=
    match l with
    | [] => DeOk []
    | s :: l' => dbind (rec t s) (fun d => dmap (cons d) (seq_all t l'))
    end.
  (* the first elements, one per type; further ones are not looked at *)
  Fixpoint seq_types (ts : list ty) (l : list src) : dres (list data) :=
    match ts, l with
    | [], _ => DeOk []
    | _ :: _, [] => DeErr (ECustom CInvalidLength)
    | t :: ts', s :: l' => dbind (rec t s) (fun d => dmap (cons d) (seq_types ts' l'))
    end.

  (* keys arrive through [CowStrDeserializer]: [visit_str] or [visit_string] *)
  Definition key_ok (k : kty) (c : cow) : bool :=
    match k with
    | KTString => true
    | KTStr => false
    | KTChar => match cow_str c with [_] => true | _ => false end
    end.
  Fixpoint map_all (k : kty) (t : ty) (l : list mstep) : dres (list (str * data)) :=
    match l with
    | [] => DeOk []
    | MDuplicate e :: _ => DeErr e
    | MPanic :: _ => DePanic
    | MEntry c s :: l' =>
        if key_ok k c then
          dbind (rec t s) (fun d => dmap (cons (cow_str c, d)) (map_all k t l'))
        else DeErr (ECustom (match k with KTStr => CInvalidType | _ => CInvalidValue end))
    end.
  Fixpoint ignore_seq (l : list src) : dres unit :=
    match l with
    | [] => DeOk tt
    | s :: l' => dbind (rec TIgnored s) (fun _ => ignore_seq l')
    end.
  Fixpoint ignore_map (l : list mstep) : dres unit :=
    match l with
    | [] => DeOk tt
    | MDuplicate e :: _ => DeErr e
    | MPanic :: _ => DePanic
    | MEntry _ s :: l' => dbind (rec TIgnored s) (fun _ => ignore_map l')
    end.

  Definition field_get {A} (k : str) (l : list (str * A)) : option A :=
    option_map snd (find (fun kv => str_eqb (fst kv) k) l).
  (* derived [visit_map]: the fields found, unknown ones ignored, a repeated one is
     an error *)
  Fixpoint struct_map (fields : list (str * ty)) (acc : list (str * data)) (l : list mstep)
    : dres (list (str * data)) :=
    match l with
    | [] => DeOk acc
    | MDuplicate e :: _ => DeErr e
    | MPanic :: _ => DePanic
    | MEntry c s :: l' =>
        match field_get (cow_str c) fields with
        | None => dbind (rec TIgnored s) (fun _ => struct_map fields acc l')
        | Some t =>
            match field_get (cow_str c) acc with
            | Some _ => DeErr (ECustom (CDuplicateField (cow_str c)))
            | None => dbind (rec t s) (fun d => struct_map fields ((cow_str c, d) :: acc) l')
            end
        end
    end.
  (* then [missing_field] for the others: [None] for options, an error otherwise *)
  Fixpoint struct_finish (fields : list (str * ty)) (acc : list (str * data)) : dres (list (str * data)) :=
    match fields with
    | [] => DeOk []
    | (f, t) :: fields' =>
        match field_get f acc, t with
        | Some d, _ => dmap (cons (f, d)) (struct_finish fields' acc)
        | None, TOption _ => dmap (cons (f, DNone)) (struct_finish fields' acc)
        | None, _ => DeErr (ECustom (CMissingField f))
        end
    end.

  Definition visit (t : ty) (ev : event) : dres data :=
    match ev with
    | VErr e => DeErr e
    | VPanic => DePanic
    | _ =>
        match t, ev with
        | TBool, VBool b => DeOk (DBool b)
        | TInt it, VI64 z => match checked it z with Some z => DeOk (DInt z) | None => DeErr (ECustom CInvalidValue) end
        | TF64, VI64 z => DeOk (DFloat (f64_of_Z z))
        | TF64, VF64 f => DeOk (DFloat f)
        | TF32, VI64 z => DeOk (DFloat (f32_of_Z z))
        | TF32, VF64 f => DeOk (DFloat (f32_of_f64 f))
        | TBytes, (VBorrowedStr s | VString s) => DeOk (DBytes (utf8 s))
        | TBytes, VSeq l => dmap (fun ds => DBytes (map byte_of ds)) (seq_all (TInt U8) l)
        | TChar, (VBorrowedStr s | VString s) => match s with [c] => DeOk (DChar c) | _ => DeErr (ECustom CInvalidValue) end
        | TStr, VBorrowedStr s => DeOk (DStr s)
        | TString, (VBorrowedStr s | VString s) => DeOk (DStr s)
        | TUnit, VUnit => DeOk DUnit
        | TOption _, (VNone | VUnit) => DeOk DNone
        | TOption t', VSome s => dmap DSome (rec t' s)
        | TNewtype t', VNewtype s => rec t' s
        | TNewtype t', VSeq l => match l with [] => DeErr (ECustom CInvalidLength) | s :: _ => rec t' s end
        | TSeq t', VSeq l => dmap DSeq (seq_all t' l)
        | TTuple ts, VSeq l => dmap DSeq (seq_types ts l)
        | TMap k t', VMap l => dmap DMap (map_all k t' l)
        | TStruct fs, VMap l =>
            dmap DStruct (dbind (struct_map fs [] l) (fun acc => struct_finish fs acc))
        | TStruct fs, VSeq l => dmap (fun ds => DStruct (combine (map fst fs) ds)) (seq_types (map snd fs) l)
        | TIgnored, VSeq l => dmap (fun _ => DIgnored) (ignore_seq l)
        | TIgnored, VMap l => dmap (fun _ => DIgnored) (ignore_map l)
        | TIgnored, (VUnit | VBool _ | VI64 _ | VF64 _ | VBorrowedStr _ | VString _) => DeOk DIgnored
        | TAny, VUnit => DeOk DUnit
        | TAny, VBool b => DeOk (DBool b)
        | TAny, VI64 z => DeOk (DInt z)
        | TAny, VF64 f => DeOk (DFloat f)
        | TAny, (VBorrowedStr s | VString s) => DeOk (DStr s)
        | TAny, VSeq l => dmap DSeq (seq_all TAny l)
        | TAny, VMap l => dmap DMap (map_all KTString TAny l)
        | _, _ => DeErr (ECustom CInvalidType)
        end
    end.
End Visit.

(** [T::deserialize(source)], with fuel (which is enough: [deserialize_eq] in
    SerdeProofs.v). *)
Fixpoint de (ord : blocks_t -> blocks_t) (fuel : nat) (t : ty) (s : src) : dres data :=
  match fuel with
  | O => DeFuel
  | S f => visit (de ord f) t (call ord s (method_of t))
  end.

Fixpoint expr_depth (e : expr) : nat :=
  match e with
  | ETuple l => S (list_max (map expr_depth l))
  | EObject l => S (list_max (map (fun ke => expr_depth (snd ke)) l))
  | _ => 1
  end.
Fixpoint elem_depth (e : element) : nat :=
  match e with
  | Attr _ v => expr_depth v
  | Blk _ _ b => S (S (S (list_max (map elem_depth b))))
  end.
Definition body_depth (b : body_t) : nat := S (list_max (map elem_depth b)).
Definition src_depth (s : src) : nat :=
  match s with
  | SExpr e => expr_depth e
  | SBody b => body_depth b
  | SBlock b => S (list_max (map (fun pb => body_depth (snd pb)) (flat_iter b)))
  end.
Fixpoint ty_depth (t : ty) : nat :=
  match t with
  | TOption t | TNewtype t | TSeq t | TMap _ t => S (ty_depth t)
  | TTuple l => S (list_max (map ty_depth l))
  | TStruct l => S (list_max (map (fun ft => ty_depth (snd ft)) l))
  | _ => 1
  end.

Definition deserialize (ord : blocks_t -> blocks_t) (t : ty) (s : src) : dres data :=
  de ord (ty_depth t + src_depth s) t s.

(** body.rs:44-48 [Deserializer::from_str] and 174-203 [from_str] *)
Definition from_str (U : ucd) (ord : blocks_t -> blocks_t) (t : ty) (s : str) : dres data :=
  match parse_str U s with
  | OkR b => deserialize ord t (SBody b)
  | ErrR e => DeErr (EParseError e)
  | PanicR => DePanic
  | Diverges => DeFuel
  end.
