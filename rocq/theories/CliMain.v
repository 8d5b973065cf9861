(** * CliMain: the command line tool's dispatch and messages; conversions between error types

    What [Cli.v] leaves out: the choice of the subcommand, and the texts printed. *)
From Verif Require Import Base Ast Utf8 Kvp Value Errors Parser OldParser Display.
From Verif Require Cli.

(** The crate's error behind an outcome of [value::from_reader].  [nom_text]: the text of a nom error (external);
    [bug_text]: the text of [Error::Bug]; [io_text]: the text of the io error *)
Definition crate_error (nom_text : option str -> str) (bug_text io_text : str) (e : error_t) : error str str :=
  match e with
  | RParse rest => EParseError (nom_text rest)
  | RCodePoint t => EInvalidUnicodeCodePoint t
  | RBug => EBug bug_text
  | RRemaining t => EUnexpectedRemainingInput t
  | RUtf8 => EInvalidUnicodeToParse io_text
  | RIo => EIOError io_text
  end.
(** main.rs:43, 50, 55, 56: the [?]s of [run_parse], which convert by cli/src/error.rs:13-23; [None]: not an error *)
Definition tool_error (nom_text : option str -> str) (bug_text io_text : str) (e : Cli.cli_error) : option (cli_error str str) :=
  match e with
  | Cli.IOError => Some (cli_from_io io_text)
  | Cli.ParserError (VErr e) => Some (cli_from_error (crate_error nom_text bug_text io_text e))
  | Cli.ParserError (VMergeErr e) => Some (cli_from_error (of_merge_error e))
  | Cli.ParserError _ => None
  end.
(** What [println!("Error: {}", e)] shows of it (main.rs:19) *)
Definition tool_text (nom_text : option str -> str) (bug_text io_text : str) (e : Cli.cli_error) : str :=
  match tool_error nom_text bug_text io_text e with
  | Some e => display_cli (fun t => t) (fun t => t) e
  | None => []
  end.
(** The arguments of [parse] as clap hands them over: input, output, [--no-merge].
    main.rs:14-30 [main] and [run_subcommand]: [name] and [args] are what [subcommand()] gives (the empty name and no arguments
    when there is none). *)
Inductive tool (U : ucd) (debug : mapvalues -> str) (nom_text : option str -> str) (bug_text io_text : str) (S : Cli.system) (w : Cli.world)
  (name : str) (args : option (str * str * bool)) : Cli.world -> N -> Prop :=
| Tool_parse input output no_merge w2 code : name = lit "parse" -> args = Some (input, output, no_merge) ->
    Cli.cli U debug (tool_text nom_text bug_text io_text) S w input output no_merge w2 code ->
    tool U debug nom_text bug_text io_text S w name args w2 code
| Tool_unknown w2 code : (name = lit "parse" -> args = None) ->
    Cli.finish (fun _ => display_cli (fun t : str => t) (fun t : str => t) (LUnknownCommand name)) w (Cli.CliErr Cli.IOError) = (w2, code) ->
    tool U debug nom_text bug_text io_text S w name args w2 code.

(** ** serde/de.rs:60-131: conversions into the deserialiser's error, and [Compat] around it *)
Section De.
Context {IoE Utf8E IntE FloatE : Type}.
Notation de := (de_error_full IoE Utf8E IntE FloatE).
(** de.rs:60-64, 66-74 ([parse] is what [from_err_str] makes), 76-80, 82-86 *)
Definition de_from_error (e : error IoE Utf8E) : de := DParseError e.
Definition de_from_nom (parse : error IoE Utf8E) : de := de_from_error parse.
Definition de_from_int (e : IntE) : de := DParseIntError e.
Definition de_from_float (e : FloatE) : de := DParseFloatError e.
(** de.rs:88-89 *)
Inductive compat := Compat (e : de).
(** de.rs:91-96 [Deref], 115-119, 121-125, 127-131 *)
Definition compat_deref (c : compat) : de := match c with Compat e => e end.
Definition compat_from (e : de) : compat := Compat e.
Definition compat_from_error (e : error IoE Utf8E) : compat := compat_from (DParseError e).
Definition compat_into (c : compat) : de := match c with Compat e => e end.
(** de.rs:98-105 *)
Definition compat_custom (msg : str) : compat := compat_from (de_custom msg).
End De.

(** lib.rs:538-542 [Default for MergeBehaviour] *)
Definition default_behaviour : merge_behaviour := MBError.
(** errors.rs:281-297 [From<Utf8Error>], [From<ParseIntError>], [From<ParseFloatError>] for [InternalKind] *)
Definition kind_from_utf8_error : internal_kind := InvalidUnicode.
Definition kind_from_int_error : internal_kind := InvalidNumber.
Definition kind_from_float_error : internal_kind := InvalidNumber.
