(** * TakeTill: [take_till_match!] and [SafeIndexing] as written (lib/src/utils.rs)

    Lex.v has [take_till_match] on strings in the form the parsers use; here is the
    macro's loop over indices, for strings and for slices. *)
From Verif Require Import Base.

(** utils.rs:30-56 [SafeIndexing for &str] and [CompleteStr]: the byte offsets at which
    characters start *)
Fixpoint char_indices (off : nat) (s : str) : list nat :=
  match s with
  | [] => []
  | c :: s' => off :: char_indices (off + utf8_len c)%nat s'
  end.
Definition safe_indices (s : str) : list nat := char_indices 0 s.

(** [&s[i..]] and [&s[..i]] of a string; [None] is the panic: [i] is past the end or
    inside a character *)
Fixpoint slice_from (s : str) (i : nat) : option str :=
  match i with
  | O => Some s
  | _ =>
      match s with
      | [] => None
      | c :: s' => if Nat.leb (utf8_len c) i then slice_from s' (i - utf8_len c) else None
      end
  end.
Fixpoint slice_to (s : str) (i : nat) : option str :=
  match i with
  | O => Some []
  | _ =>
      match s with
      | [] => None
      | c :: s' => if Nat.leb (utf8_len c) i then option_map (cons c) (slice_to s' (i - utf8_len c)) else None
      end
  end.

(** utils.rs:112-140 [take_till_match!]: the loop over the indices; every error of the
    child moves on.  [need_more_err] of complete input is an error. *)
Section Loop.
  Context {A : Type} (p : str -> res A) (s : str).
  Variables from to : nat -> option str.
  Fixpoint ttm_loop (indices : list nat) : res (str * A) :=
    match indices with
    | [] => Err
    | i :: indices' =>
        match from i with
        | None => Panic
        | Some t =>
            match p t with
            | Ok r v => match to i with None => Panic | Some a => Ok r (a, v) end
            | Err | Fail _ => ttm_loop indices'
            | Panic => Panic
            | OutOfFuel => OutOfFuel
            end
        end
    end.
End Loop.
Definition ttm_str {A} (p : str -> res A) (s : str) : res (str * A) :=
  ttm_loop p (slice_from s) (slice_to s) (safe_indices s).

(** [&s[i..]], [&s[..i]] of a slice; [None] is the panic *)
Definition bslice_from (s : list N) (i : nat) : option (list N) := if Nat.leb i (length s) then Some (skipn i s) else None.
Definition bslice_to (s : list N) (i : nat) : option (list N) := if Nat.leb i (length s) then Some (firstn i s) else None.
(** utils.rs:58-97 [SafeIndexing for &[T]], [CompleteByteSlice] and [Input<T>]: the
    indices 0, 1, 2, ... without end; here the first [n] of them ([OutOfFuel] when more
    would be asked for) *)
Fixpoint ttm_bytes_loop {A} (p : list N -> res A) (s : list N) (i n : nat) : res (list N * A) :=
  match n with
  | O => OutOfFuel
  | S n' =>
      match bslice_from s i with
      | None => Panic
      | Some t =>
          match p t with
          | Ok r v => match bslice_to s i with None => Panic | Some a => Ok r (a, v) end
          | Err | Fail _ => ttm_bytes_loop p s (S i) n'
          | Panic => Panic
          | OutOfFuel => OutOfFuel
          end
      end
  end.
Definition ttm_bytes {A} (p : list N -> res A) (s : list N) : res (list N * A) := ttm_bytes_loop p s 0 (S (S (length s))).
