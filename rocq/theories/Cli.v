(** * Cli: the command line tool (cli/src/main.rs)

    The arguments as clap hands them over (an input path, an output path, the flag
    [--no-merge]; clap itself is not modelled), and the effects of one run on the file
    system and on standard output.  The texts of [{:#?}] (the parsed value) and of the
    error messages are parameters. *)
From Verif Require Import Base Utf8 IoSpec Kvp Value OldParser.

(** The world.  Files are named by [resolve] of a path (two paths may name the same
    file); a file that does not exist has no content.  [may_open], [may_create]: whether
    opening for reading and creating/truncating succeeds. *)
Record world := World {
  files : N -> option (list N);
  stdout : list N
}.
Record system := System {
  resolve : str -> N;
  may_open : str -> bool;
  may_create : str -> bool;
  stdin : list read_event
}.
Definition set_file (w : world) (f : N) (content : list N) : world :=
  World (fun g => if g =? f then Some content else files w g) (stdout w).
Definition print (w : world) (text : list N) : world := World (files w) (stdout w ++ text).

(** cli/src/error.rs:3-23 [Error]; [UnknownCommand] only arises in clap's dispatch
    (main.rs:25-30), which is not modelled *)
Inductive cli_error := ParserError (e : voutcome) | IOError.
Inductive cli_result := CliOk | CliErr (e : cli_error) | CliPanic.

(** main.rs:62-71 [input_reader]: [None] is the io error.  Reading a file delivers its
    content in any chunks, or fails. *)
Inductive input_reader (S : system) (w : world) : str -> option (list read_event) -> Prop :=
| IR_stdin : input_reader S w (lit "-") (Some (stdin S))
| IR_file path content ev : path <> lit "-" -> may_open S path = true -> files w (resolve S path) = Some content ->
    (Delivers ev content \/ FailsRead ev) -> input_reader S w path (Some ev)
| IR_error path : path <> lit "-" -> (may_open S path = false \/ files w (resolve S path) = None) -> input_reader S w path None.

(** main.rs:74-82 [output_writer] and the write of main.rs:53-57: [write_all] writes
    everything, or some prefix and then fails.  [File::create] truncates first. *)
Inductive write_output (S : system) (w : world) (text : list N) : str -> world -> cli_result -> Prop :=
| WO_stdout : write_output S w text (lit "-") (print w text) CliOk
| WO_stdout_error n : (n < length text)%nat -> write_output S w text (lit "-") (print w (firstn n text)) (CliErr IOError)
| WO_create_error path : path <> lit "-" -> may_create S path = false -> write_output S w text path w (CliErr IOError)
| WO_file path : path <> lit "-" -> may_create S path = true ->
    write_output S w text path (set_file w (resolve S path) text) CliOk
| WO_file_error path n : path <> lit "-" -> may_create S path = true -> (n < length text)%nat ->
    write_output S w text path (set_file w (resolve S path) (firstn n text)) (CliErr IOError).

(** main.rs:32-60 [run_parse] *)
Inductive run_parse (U : ucd) (debug : mapvalues -> str) (S : system) (w : world) (input output : str) (no_merge : bool) : world -> cli_result -> Prop :=
| RP_open_error : input_reader S w input None ->
    run_parse U debug S w input output no_merge w (CliErr IOError)
| RP_done ev m w' res : input_reader S w input (Some ev) ->
    from_reader U ev (if no_merge then None else Some MBError) (VOk m) ->
    write_output S w (utf8 (debug m ++ [10])) output w' res ->
    run_parse U debug S w input output no_merge w' res
| RP_parse_error ev o : input_reader S w input (Some ev) ->
    from_reader U ev (if no_merge then None else Some MBError) o ->
    (forall m, o <> VOk m) -> o <> VPanic -> o <> VDiverges ->
    run_parse U debug S w input output no_merge w (CliErr (ParserError o))
| RP_panic ev : input_reader S w input (Some ev) ->
    from_reader U ev (if no_merge then None else Some MBError) VPanic ->
    run_parse U debug S w input output no_merge w CliPanic.

(** main.rs:14-23 [main]: exit code; errors are printed to standard output
    ([println!]); a panic exits with 101 *)
Definition finish (show : cli_error -> str) (w : world) (r : cli_result) : world * N :=
  match r with
  | CliOk => (w, 0)
  | CliErr e => (print w (utf8 (lit "Error: " ++ show e ++ [10])), 1)
  | CliPanic => (w, 101)
  end.
Inductive cli (U : ucd) (debug : mapvalues -> str) (show : cli_error -> str) (S : system) (w : world) (input output : str) (no_merge : bool) : world -> N -> Prop :=
| Cli_run w1 r w2 code : run_parse U debug S w input output no_merge w1 r -> finish show w1 r = (w2, code) ->
    cli U debug show S w input output no_merge w2 code.
