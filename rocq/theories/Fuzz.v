(** * Fuzz: the fuzz drivers (fuzz-afl, fuzz-honggfuzz)

    Both programs hand every input to the same closure, in a loop that only a crash ends.  Not modelled: the fuzzers
    themselves (which inputs they choose: any sequence), the Windows stubs
    (src/main.rs:18-27). *)
From Verif Require Import Base Ast Parser Utf8.

(** What one run of the closure does *)
Inductive fuzz_result := Survives | Crashes | Hangs.
(** fuzz-afl/src/main.rs:9-13, fuzz-honggfuzz/src/main.rs:9-13 *)
Definition fuzz_one (U : ucd) (data : list N) : fuzz_result :=
  match from_utf8 data with
  | Some s =>
      match parse_str U s with
      | OkR _ | ErrR _ => Survives
      | PanicR => Crashes
      | Diverges => Hangs
      end
  | None => Survives
  end.
(** fuzz-afl/src/main.rs:7-15, fuzz-honggfuzz/src/main.rs:7-15: the loop over the inputs given; the input at which it
    stopped, and why *)
Fixpoint fuzz_loop (U : ucd) (inputs : list (list N)) : option (list N * fuzz_result) :=
  match inputs with
  | [] => None
  | data :: rest =>
      match fuzz_one U data with
      | Survives => fuzz_loop U rest
      | r => Some (data, r)
      end
  end.
