(** * Utf8: [parse_slice] and [parse_reader], and [as_owned] *)
From Verif Require Import Base Ast Parser.

(** ** [std::str::from_utf8] (external code: the validation loop
    [run_utf8_validation] together with the decoding of [str::chars]).
    Bytes are [N]; a number above 255 is rejected like any byte above 0xF4. *)
Definition between (lo hi b : N) : bool := (lo <=? b) && (b <=? hi).
Definition is_cont (b : N) : bool := between 128 191 b.

Fixpoint from_utf8 (bs : list N) : option str :=
  match bs with
  | [] => Some []
  | b0 :: r0 =>
      if b0 <? 128 then option_map (cons b0) (from_utf8 r0)
      else
        match r0 with
        | [] => None
        | b1 :: r1 =>
            if between 194 223 b0 then
              if is_cont b1
              then option_map (cons ((b0 - 192) * 64 + (b1 - 128))) (from_utf8 r1)
              else None
            else
              match r1 with
              | [] => None
              | b2 :: r2 =>
                  if between 224 239 b0 then
                    if ((b0 =? 224) && between 160 191 b1
                        || between 225 236 b0 && is_cont b1
                        || (b0 =? 237) && between 128 159 b1
                        || between 238 239 b0 && is_cont b1) && is_cont b2
                    then option_map (cons ((b0 - 224) * 4096 + (b1 - 128) * 64 + (b2 - 128)))
                                    (from_utf8 r2)
                    else None
                  else
                    match r2 with
                    | [] => None
                    | b3 :: r3 =>
                        if ((b0 =? 240) && between 144 191 b1
                            || between 241 243 b0 && is_cont b1
                            || (b0 =? 244) && between 128 143 b1) && is_cont b2 && is_cont b3
                        then option_map (cons ((b0 - 240) * 262144 + (b1 - 128) * 4096
                                               + (b2 - 128) * 64 + (b3 - 128)))
                                        (from_utf8 r3)
                        else None
                    end
              end
        end
  end.

(** lib/src/parser.rs:214-218 [parse_slice] *)
Definition parse_slice (U : ucd) (bytes : list N) : outcome body_t :=
  match from_utf8 bytes with
  | None => ErrR RUtf8
  | Some input => parse_str U input
  end.

(** ** [as_owned] *)

(** lib/src/lib.rs:503-521 ([str], [Cow]); [Cow::Owned(x.as_owned())] and
    [Cow::Owned(x.to_string())] *)
Definition as_owned_cow (c : cow) : cow := Owned (cow_str c).

(** lib/src/parser/number.rs:213-222 *)
Definition as_owned_exponent (e : exponent_t) : exponent_t :=
  mk_exponent (exp_positive e) (as_owned_cow (exp_digits e)).

(** lib/src/parser/number.rs:143-155 (with lib.rs:523-536 for [Option]) *)
Definition as_owned_number (n : number_t) : number_t :=
  mk_number (as_owned_cow (num_input n)) (num_positive n)
    (option_map as_owned_cow (num_whole n))
    (option_map as_owned_cow (num_fraction n))
    (option_map as_owned_exponent (num_exponent n)).

(** lib/src/parser/object.rs:80-93 *)
Definition as_owned_key (k : okey) : okey :=
  match k with
  | KIdent i => KIdent (as_owned_cow i)
  | KExpr e => KExpr (as_owned_cow e)
  end.

(** lib/src/parser/expression.rs:113-126 (with lib.rs:455-479 for pairs and [Vec]) *)
Fixpoint as_owned_expr (e : expr) : expr :=
  match e with
  | ENull => ENull
  | ENumber n => ENumber (as_owned_number n)
  | EBool b => EBool b
  | EString s => EString (as_owned_cow s)
  | ETuple l => ETuple (map as_owned_expr l)
  | EObject l => EObject (map (fun kv => (as_owned_key (fst kv), as_owned_expr (snd kv))) l)
  end.

(** lib/src/parser/block.rs:112-121 *)
Definition as_owned_label (l : label) : label :=
  match l with
  | LString s => LString s
  | LIdent i => LIdent (as_owned_cow i)
  end.

(** lib/src/parser/attribute.rs:26-34, block.rs:123-133, body.rs:79-87 *)
Fixpoint as_owned_elem (el : element) : element :=
  match el with
  | Attr n v => Attr (as_owned_cow n) (as_owned_expr v)
  | Blk t ls b => Blk (as_owned_cow t) (map as_owned_label ls) (map as_owned_elem b)
  end.

Definition as_owned_body (b : body_t) : body_t := map as_owned_elem b.

(** ** [parse_reader]

    One [read] call of the reader returns some bytes ([Ok(n)], the empty chunk
    being [Ok(0)], the end of the stream), [ErrorKind::Interrupted] or another
    error.  A reader is the sequence of what its calls return; the end of the list
    also is the end of the stream.  (A reader that never ends is not modelled:
    the code buffers the whole stream first.) *)
Inductive read_event :=
| Chunk (bs : list N)
| Interrupted
| ReadError.

(** [std::io::Read::read_to_end] (external code) *)
Fixpoint read_to_end (r : list read_event) : option (list N) :=
  match r with
  | [] => Some []
  | Chunk [] :: _ => Some []
  | Chunk bs :: r' => option_map (app bs) (read_to_end r')
  | Interrupted :: r' => read_to_end r'
  | ReadError :: _ => None
  end.

(** [std::io::Read::read_to_string] (external code): invalid UTF-8 is an
    [io::Error] of kind [InvalidData]. *)
Definition read_to_string (r : list read_event) : option str :=
  match read_to_end r with
  | None => None
  | Some bs => from_utf8 bs
  end.

(** lib/src/parser.rs:199-212 [parse_reader] *)
Definition parse_reader (U : ucd) (r : list read_event) : outcome body_t :=
  match read_to_string r with
  | None => ErrR RIo
  | Some buffer =>
      match parse_str U buffer with
      | OkR parsed => OkR (as_owned_body parsed)
      | ErrR e => ErrR e
      | PanicR => PanicR
      | Diverges => Diverges
      end
  end.
