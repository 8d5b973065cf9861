(** * AnyTypes: the types of Serde.v as targets, step by step

    [Serde.visit] says at once what serde's implementations make of a visitor call.  Here
    they are written as programs against the protocol (serde 1.0.101: impls.rs,
    ignored_any.rs, the derive macros; external code). *)
From Coq Require Import SpecFloat.
From Verif Require Import Base Ast Blocks NumConv Parser IoSpec Serde MapAccess AnyTarget.

Definition wrong_type : outcome data := Bad (ECustom CInvalidType).
(** [Vec<T>], [ByteBuf], collecting all elements *)
CoFixpoint collect (t : target data) (fin : list data -> data) (acc : list data) : sclient data :=
  SItem t (fun a => match a with
    | None => SRet (Good (fin (rev acc)))
    | Some (Good d) => collect t fin (d :: acc)
    | Some (Bad e) => SRet (Bad e)
    end).
(** tuples, derived structs from sequences: one element per type *)
Fixpoint collect_types (ts : list (target data)) (fin : list data -> data) (acc : list data) : sclient data :=
  match ts with
  | [] => SRet (Good (fin (rev acc)))
  | t :: ts' => SItem t (fun a => match a with
      | None => SRet (Bad (ECustom CInvalidLength))
      | Some (Good d) => collect_types ts' fin (d :: acc)
      | Some (Bad e) => SRet (Bad e)
      end)
  end.
(** derived newtype structs from sequences: the first element *)
Definition first_item (t : target data) : sclient data :=
  SItem t (fun a => match a with None => SRet (Bad (ECustom CInvalidLength)) | Some o => SRet o end).
(** maps *)
CoFixpoint collect_map (k : kty) (t : target data) (acc : list (str * data)) : mclient data :=
  MKey (fun a => match a with
    | NoKey => MRet (Good (DMap (rev acc)))
    | DupKey e => MRet (Bad e)
    | GotKey n =>
        if key_ok k (Borrowed n) then
          MVal t (fun o => match o with Good d => collect_map k t ((n, d) :: acc) | Bad e => MRet (Bad e) end)
        else MRet (Bad (ECustom (match k with KTStr => CInvalidType | _ => CInvalidValue end)))
    end).
(** [IgnoredAny] *)
CoFixpoint ignore : target data :=
  Target MAny (fun z => match z with ZNone => wrong_type | _ => Good DIgnored end) (IRet wrong_type) (IRet wrong_type) ignore_items ignore_members
with ignore_items : sclient data :=
  SItem ignore (fun a => match a with None => SRet (Good DIgnored) | Some (Good _) => ignore_items | Some (Bad e) => SRet (Bad e) end)
with ignore_members : mclient data :=
  MKey (fun a => match a with
    | NoKey => MRet (Good DIgnored)
    | DupKey e => MRet (Bad e)
    | GotKey _ => MVal ignore (fun o => match o with Good _ => ignore_members | Bad e => MRet (Bad e) end)
    end).
(** self-describing values *)
CoFixpoint anything : target data :=
  Target MAny (fun z => match z with
      | ZUnit => Good DUnit | ZBool b => Good (DBool b) | ZI64 z => Good (DInt z) | ZF64 f => Good (DFloat f)
      | ZBorrowed s | ZString s => Good (DStr s) | ZNone => wrong_type end)
    (IRet wrong_type) (IRet wrong_type) (any_items []) (any_members [])
with any_items (acc : list data) : sclient data :=
  SItem anything (fun a => match a with None => SRet (Good (DSeq (rev acc))) | Some (Good d) => any_items (d :: acc) | Some (Bad e) => SRet (Bad e) end)
with any_members (acc : list (str * data)) : mclient data :=
  MKey (fun a => match a with
    | NoKey => MRet (Good (DMap (rev acc)))
    | DupKey e => MRet (Bad e)
    | GotKey n => MVal anything (fun o => match o with Good d => any_members ((n, d) :: acc) | Bad e => MRet (Bad e) end)
    end).
(** derived structs: the fields found (the last one first); then the others *)
Definition finish_struct (fs : list (str * ty)) (acc : list (str * data)) : outcome data :=
  match struct_finish fs acc with DeOk l => Good (DStruct l) | DeErr e => Bad e | DePanic | DeFuel => wrong_type end.
CoFixpoint collect_fields (fs : list (str * target data)) (fin : list (str * data) -> outcome data) (acc : list (str * data)) : mclient data :=
  MKey (fun a => match a with
    | NoKey => MRet (fin acc)
    | DupKey e => MRet (Bad e)
    | GotKey n =>
        match field_get n fs with
        | None => MVal ignore (fun o => match o with Good _ => collect_fields fs fin acc | Bad e => MRet (Bad e) end)
        | Some t =>
            match field_get n acc with
            | Some _ => MRet (Bad (ECustom (CDuplicateField n)))
            | None => MVal t (fun o => match o with Good d => collect_fields fs fin ((n, d) :: acc) | Bad e => MRet (Bad e) end)
            end
        end
    end).

Definition scalars (f : scalar -> outcome data) (m : method) : target data :=
  Target m f (IRet wrong_type) (IRet wrong_type) (SRet wrong_type) (MRet wrong_type).
Definition no_scalar (_ : scalar) : outcome data := wrong_type.
Definition as_bytes (l : list data) : data := DBytes (map byte_of l).
Definition as_int_type (it : int_ty) (z : scalar) : outcome data :=
  match z with ZI64 x => match checked it x with Some y => Good (DInt y) | None => Bad (ECustom CInvalidValue) end | _ => wrong_type end.
Definition wrap_some (o : outcome data) : outcome data := match o with Good d => Good (DSome d) | Bad e => Bad e end.

Fixpoint target_of (t : ty) : target data :=
  match t with
  | TBool => scalars (fun z => match z with ZBool b => Good (DBool b) | _ => wrong_type end) MAny
  | TInt it => scalars (as_int_type it) MAny
  | TF64 => scalars (fun z => match z with ZI64 x => Good (DFloat (f64_of_Z x)) | ZF64 f => Good (DFloat f) | _ => wrong_type end) MAny
  | TF32 => scalars (fun z => match z with ZI64 x => Good (DFloat (f32_of_Z x)) | ZF64 f => Good (DFloat (f32_of_f64 f)) | _ => wrong_type end) MAny
  | TChar => scalars (fun z => match z with ZBorrowed [c] | ZString [c] => Good (DChar c) | ZBorrowed _ | ZString _ => Bad (ECustom CInvalidValue) | _ => wrong_type end) MAny
  | TStr => scalars (fun z => match z with ZBorrowed s => Good (DStr s) | _ => wrong_type end) MAny
  | TString => scalars (fun z => match z with ZBorrowed s | ZString s => Good (DStr s) | _ => wrong_type end) MAny
  | TUnit => scalars (fun z => match z with ZUnit => Good DUnit | _ => wrong_type end) MAny
  | TEnum => scalars no_scalar MAny
  | TOption t' =>
      Target MOption (fun z => match z with ZNone | ZUnit => Good DNone | _ => wrong_type end)
        (IAsk (target_of t') wrap_some) (IRet wrong_type) (SRet wrong_type) (MRet wrong_type)
  | TNewtype t' => Target MNewtype no_scalar (IRet wrong_type) (IAsk (target_of t') (fun o => o)) (first_item (target_of t')) (MRet wrong_type)
  | TSeq t' => Target MSeq no_scalar (IRet wrong_type) (IRet wrong_type) (collect (target_of t') DSeq []) (MRet wrong_type)
  | TBytes =>
      Target MAny (fun z => match z with ZBorrowed s | ZString s => Good (DBytes (utf8 s)) | _ => wrong_type end)
        (IRet wrong_type) (IRet wrong_type) (collect (scalars (as_int_type U8) MAny) as_bytes []) (MRet wrong_type)
  | TTuple ts => Target (MTuple (length ts)) no_scalar (IRet wrong_type) (IRet wrong_type) (collect_types (map target_of ts) DSeq []) (MRet wrong_type)
  | TMap k t' => Target MAny no_scalar (IRet wrong_type) (IRet wrong_type) (SRet wrong_type) (collect_map k (target_of t') [])
  | TStruct fs =>
      Target MAny no_scalar (IRet wrong_type) (IRet wrong_type)
        (collect_types (map (fun ft => target_of (snd ft)) fs) (fun ds => DStruct (combine (map fst fs) ds)) [])
        (collect_fields (map (fun ft => (fst ft, target_of (snd ft))) fs) (finish_struct fs) [])
  | TIgnored => ignore
  | TAny => anything
  end.
