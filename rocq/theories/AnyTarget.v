(** * AnyTarget: any [serde::Deserialize] implementation as a client of the deserialisers

    Serde.v reads documents as the types of a list.  Here a target is any program against
    the serde protocol: it calls one method of the deserialiser, and reacts to the one
    visitor call it gets.  A visitor that is given a sequence or a map may ask for as many
    elements, keys and values as it likes, as any targets, in any order, may recover from
    errors, and stops when it likes.  The answers are those of the crate's code: [call] of
    Serde.v for the visitor call, the state machines of MapAccess.v for maps. *)
From Coq Require Import SpecFloat.
From Verif Require Import Base Ast Blocks NumConv Parser IoSpec Serde MapAccess.

(** [Result<T, Compat>]: any values [D] *)
Inductive outcome (D : Type) := Good (d : D) | Bad (e : de_error).
Arguments Good {D} d. Arguments Bad {D} e.
(** The visitor calls that carry no part of the document: [visit_unit], [visit_bool],
    [visit_i64], [visit_f64], [visit_borrowed_str], [visit_string], [visit_none] *)
Inductive scalar := ZUnit | ZBool (b : bool) | ZI64 (z : Z) | ZF64 (f : spec_float) | ZBorrowed (s : str) | ZString (s : str) | ZNone.
(** What [next_key_seed] gives: the text the seed is run on (what the seed makes of it is the
    target's own business), [Ok(None)], or an error.  Simplification: a seed could see
    whether [CowStrDeserializer] calls [visit_str] or [visit_string]; the identifiers of
    parsed documents are all borrowed, so it is always [visit_str]. *)
Inductive keyans := GotKey (k : str) | NoKey | DupKey (e : de_error).

(** A target: the method it calls; its visitor's reactions.  Coinductive: recursive types
    are targets too, and targets may run for ever. *)
CoInductive target (D : Type) :=
| Target (m : method) (on_scalar : scalar -> outcome D) (on_some on_newtype : inner D) (on_seq : sclient D) (on_map : mclient D)
(* [visit_some] and [visit_newtype_struct] own a deserialiser, which can be used once *)
with inner (D : Type) :=
| IRet (o : outcome D)
| IAsk (c : target D) (k : outcome D -> outcome D)
(* [visit_seq]: [next_element_seed], [size_hint] *)
with sclient (D : Type) :=
| SRet (o : outcome D)
| SItem (c : target D) (k : option (outcome D) -> sclient D)
| SSize (k : nat -> sclient D)
(* [visit_map]: [next_key_seed], [next_value_seed], [size_hint] *)
with mclient (D : Type) :=
| MRet (o : outcome D)
| MKey (k : keyans -> mclient D)
| MVal (c : target D) (k : outcome D -> mclient D)
| MSize (k : nat -> mclient D).
Arguments Target {D}. Arguments IRet {D}. Arguments IAsk {D}.
Arguments SRet {D}. Arguments SItem {D}. Arguments SSize {D}.
Arguments MRet {D}. Arguments MKey {D}. Arguments MVal {D}. Arguments MSize {D}.

(** [Running]: not finished within the fuel *)
Inductive ran (D : Type) := Done (o : outcome D) | Panicked | Running.
Arguments Done {D} o. Arguments Panicked {D}. Arguments Running {D}.

Section Any.
Context {D : Type}.
Section Loops.
  Variable rec : target D -> src -> ran D.
  Definition run_inner (i : inner D) (s : src) : ran D :=
    match i with
    | IRet o => Done o
    | IAsk c k => match rec c s with Done o => Done (k o) | r => r end
    end.
  (** serde's [SeqDeserializer] over [vec::IntoIter] (expression.rs:79-85, de.rs:160-175,
      block.rs:12-23): the elements in order, then [None] for ever; an exact [size_hint] *)
  Fixpoint seq_loop (fuel : nat) (sc : sclient D) (l : list src) : ran D :=
    match fuel with
    | O => Running
    | S f =>
        match sc with
        | SRet o => Done o
        | SItem c k =>
            match l with
            | [] => seq_loop f (k None) []
            | s :: l' => match rec c s with Done o => seq_loop f (k (Some o)) l' | r => r end
            end
        | SSize k => seq_loop f (k (length l)) l
        end
    end.
  (** The state machines of MapAccess.v *)
  Section Map.
    Context {K V : Type}.
    Variable next_key next_value : access K V -> obs * access K V.
    Fixpoint map_loop (fuel : nat) (mc : mclient D) (a : access K V) : ran D :=
      match fuel with
      | O => Running
      | S f =>
          match mc with
          | MRet o => Done o
          | MKey k =>
              match next_key a with
              | (OKey c, a') => map_loop f (k (GotKey (cow_str c))) a'
              | (OEnd, a') => map_loop f (k NoKey) a'
              | (ODup e, a') => map_loop f (k (DupKey e)) a'
              | (_, _) => Panicked
              end
          | MVal c k =>
              match next_value a with
              | (OVal s, a') => match rec c s with Done o => map_loop f (k o) a' | r => r end
              | (_, _) => Panicked
              end
          | MSize k =>
              match size_hint a with
              | (OSize n, a') => map_loop f (k n) a'
              | (_, _) => Panicked
              end
          end
      end.
  End Map.
End Loops.

Variable ord : blocks_t -> blocks_t.
(** serde/de/object.rs:20-28, serde/de.rs:177-189 [deserialize_object]; serde/de/body.rs:54-60,
    98-106; serde/de/block.rs:25-30, 46-72: which map access a visitor gets ([call] says when) *)
Definition run_map (rec : target D -> src -> ran D) (fuel : nat) (mc : mclient D) (s : src) : ran D :=
  match s with
  | SExpr (EObject l) => map_loop rec object_next_key object_next_value fuel mc (access_new l)
  | SBody b | SBlock (BBody [b]) | SBlock (BLabels [b] []) =>
      map_loop rec body_next_key body_next_value fuel mc (access_new (build_map_access_iter ord b))
  | _ => Panicked   (* no other source calls [visit_map] *)
  end.
(** [Deserialize::deserialize] of the target *)
Fixpoint run (fuel : nat) (c : target D) (s : src) : ran D :=
  match fuel with
  | O => Running
  | S f =>
      match c with
      | Target m on_scalar on_some on_newtype on_seq on_map =>
          match call ord s m with
          | VUnit => Done (on_scalar ZUnit)
          | VBool b => Done (on_scalar (ZBool b))
          | VI64 z => Done (on_scalar (ZI64 z))
          | VF64 x => Done (on_scalar (ZF64 x))
          | VBorrowedStr t => Done (on_scalar (ZBorrowed t))
          | VString t => Done (on_scalar (ZString t))
          | VNone => Done (on_scalar ZNone)
          | VSome s' => run_inner (run f) on_some s'
          | VNewtype s' => run_inner (run f) on_newtype s'
          | VSeq l => seq_loop (run f) f on_seq l
          | VMap _ => run_map (run f) f on_map s
          | VErr e => Done (Bad e)
          | VPanic => Panicked
          end
      end
  end.
(** serde/de/body.rs:44-48 and 196-203 [from_str] *)
Definition from_str_any (U : ucd) (fuel : nat) (c : target D) (s : str) : ran D :=
  match parse_str U s with
  | OkR b => run fuel c (SBody b)
  | ErrR e => Done (Bad (EParseError e))
  | PanicR => Panicked
  | Diverges => Running
  end.
End Any.
