# Formal model of ferrous-chloride in Rocq (Coq 8.16.1)

Everything is under `rocq/theories` (logical name `Verif`).  `properties.jsonl` lists
the properties, `MANIFEST.json` the theorems that settle each of them (generated by
`tools/manifest.py`: theorem `Cnn_...` belongs to property `Cnn`), `seeded/LOG.jsonl`
the wrong programs the theorems were tried against.

## 1. Layout

"Model" files contain only definitions, each citing the lines of `/repo` it
models.  "SPEC" files contain only specifications; they do not use the model's
functions.  `Prop*.v` files contain the property theorems, each with a concrete case
meeting its hypotheses, and end with `Print Assumptions`.

| files | role | content |
|---|---|---|
| `Base`, `Nom` | model | characters, strings, parser results; the nom 4.2.3 combinators used |
| `Ast` | model | syntax tree types (`Number`, `Expression`, `Body`, `Block`, labels, keys) |
| `Lex`, `Parser` | model | `parser/{whitespace,identifier,boolean,null,number,string}.rs`; `tuple,object,expression,attribute,block,body,parser.rs`: `parse_str`, `Expression::parse` |
| `Utf8` | model | `parse_slice`, `parse_reader`, `as_owned`; `from_utf8` |
| `NumConv`, `FloatConv` | model | `number.rs` conversions, equality, hashing; floats |
| `Blocks`, `BlockMut` | model | `block.rs`: `Blocks`, `BlockBody`, iterators, changes through `&mut` |
| `Serde`, `MapAccess`, `KeyDe` | model | `serde/de*.rs`: the deserialisers; the map accesses as state machines |
| `Kvp`, `Value`, `Access` | model | `lib.rs`, `iter.rs`, `value.rs`, `literals/key.rs`: containers, merging, accessors |
| `OldParser` | model | `parser.rs:52-153`, `literals/*.rs`: the parser of `value::from_str` |
| `Equality` | model | derived and hand-written `PartialEq` |
| `Errors`, `Cli`, `TakeTill` | model | `errors.rs`; `cli/src/main.rs`; `utils.rs` |
| `CallCount` | model | the parsers of `Parser` and `OldParser` with the number of recursive calls they make; `CallProofs` proves that forgetting the numbers gives those parsers |
| `DepthCount` | model | the same parsers with the largest number of recursive calls under way at once; `DepthProofs` proves the erasure |
| `Fuzz` | model | `fuzz-afl/src/main.rs`, `fuzz-honggfuzz/src/main.rs` |
| `Debug` | model | `{:#?}` of the tool's result: `derive(Debug)` of `value.rs:12`, `lib.rs:149`, `literals/key.rs:12`, with the standard library's builders (external) |
| `CliMain` | model | dispatch and messages of `cli/src/main.rs`; conversions between the error types (`serde/de.rs:60-131`) |
| `Display` | model | the `Display` texts of `errors.rs`, `serde/de.rs`, `cli/src/error.rs` |
| `MergeExec` | validation | one run of merging, for `ModelTests`; proved to be one of the outcomes |
| `ModelTests` | validation | the repository's own unit tests, transcribed and run on the model with `vm_compute` |
| `AnyTarget` | MODEL | the serde protocol between the crate's deserialisers and *any* `Deserialize` implementation (a coinductive client: methods, visitor reactions, element/key/value requests in any order); uses `call` of `Serde` and the state machines of `MapAccess`. Simplification: a key seed sees only the key's text |
| `AnyTypes` | MODEL (external: serde impls and derive) | the types of `Serde` as such clients, step by step |
| `Grammar`, `Printer`, `IoSpec`, `NumSpec`, `BlockSpec`, `BlockExactSpec`, `SerdeSpec`, `SerdeErrSpec`, `SerdeExactSpec`, `MapAccessSpec`, `ValueSpec`, `OldGrammar`, `AgreeSpec`, `EqSpec`, `MeetsSpec`, `OldMeetsSpec`, `FloatSpec`, `StopSpec`, `DenSpec`, `ReachSpec`, `FailSpec`, `AnySpec`, `VReachSpec`, `PubSpec`, `LayoutSpec`, `DebugSpec`, `OldLayoutSpec`, `CommonSpec.v`, `CommonVSpec.v`, `EditSpec.v`, `VEditSpec.v`, `CrlfSpec.v`, `MoveSpec.v`, `CutSpec.v`, `VCutSpec.v`, `EvolveSpec.v`, `RearrangeSpec.v`, `TwoWaysSpec.v`, `WorkCount.v` | SPEC | see each file's header |
| `*Facts`, `*Proofs`, `Locality`, `Reprint`, `OldPanic`, `OldStop`, `EqBlocks`, `BlockExact`, `CallBound` | proofs | lemmas |
| `Prop*` | theorems | the properties |

## 2. Modelling decisions

* A Rust `char` is an `N`, a `str` a `list N`.  Byte lengths matter only in
  `unindent_heredoc` (byte slicing), `SafeIndexing` and UTF-8 decoding; there they are
  explicit (`utf8_len`).
* `IResult` is `Ok rem v | Err | Fail at | Panic | OutOfFuel` (`at` is the input `return_error!` pushes, C93).  `Err` is nom's recoverable
  `Err::Error`, `Fail` is `Err::Failure`.  Of the payload of parse errors the text left over in the `Eof` error of `exact!` (C101) and the
  text in `InvalidUnicodeCodePoint` and `UnexpectedRemainingInput` (C93, C89) are modelled;
  the contexts `alt!` collects (the place in an error of `Expression::parse`) and the wording are not.
  `Errors.v` models the conversion of any such payload into the crate's `Error`.  `OutOfFuel` marks the model's own recursion bound;
  it is proved unreachable at every entry point (C02) and the result is proved not to
  depend on the bound, so it hides no behaviour.
* `Cow` keeps its flavour (Borrowed/Owned), since serde exposes it.  Exception: keys of
  values (`Key`), where nothing observable depends on it.
* Unicode tables (`is_id_start`, `is_id_continue`, `char::is_alphanumeric`) are fixed on
  ASCII and arbitrary functions elsewhere; every theorem quantifies over them (`U : ucd`).
* A `HashMap` is a list of entries with distinct keys.  Its order is unspecified in Rust.
  Therefore: operations on values are relations that allow every order (`Kvp.v`,
  `Value.v`); the block index may be reordered at every level after every operation
  (`Reorder` in `BlockSpec.v`); the theorems hold for all of these.
* `f64`/`f32` are the standard library's `SpecFloat`; reading decimal text is correct
  rounding of the exact rational.  Printing floats (`Display`, external) is a parameter,
  with the explicit hypothesis `ShowsFinite` (PropFloat.v).
* Integer overflow: the parameter `checks` says whether the build has overflow checks;
  theorems are for both.
* A `Read` is an arbitrary sequence of chunks, possibly ending in an error (`IoSpec.v`).
* serde: a target type calls one method of a deserialiser, which answers with one visitor
  call (`event`).  The deserialisers are the crate's code and modelled method by
  method; the target types (`ty`, `visit`) are serde 1.0.101 and its derive, modelled as
  documented there, for the types in `ty`: bool, all integer types, f64, f32, char, `String`, `&str`,
  byte buffers,
  unit, option, newtype, `Vec`, tuples, maps, derived structs, enums (always an error),
  `IgnoredAny`, and a self-describing type such as `serde_json::Value`.  Errors carry their
  kind and payload (`de_error`), not their message text.
* Mutable references are modelled by the change made through them (`BlockMut.v`, `Access.v`).
* The command line tool: arguments as clap hands them over; file system as a map from
  places to contents with an arbitrary resolution of paths; `{:#?}` and message texts are
  parameters (`Debug.v` and `CliMain.v` give them; of the standard library's texts, only that of a float stays a parameter).

Not modelled: performance (other than the number of recursive parser calls, C103, C104 and C118), the size of stack frames (the recursion
depth is modelled, C105), allocation failure, `log` output, `Debug` texts (other than `{:#?}` of bytes and of parsed values), the texts of errors of the
standard library and nom, clap's argument parsing, `lib/build.rs` (checks the compiler's version).

## 3. nom 4.2.3 (external code, not in the repository)

nom's source is not available here; `Nom.v` is written from knowledge of nom
4.2.3 and pinned down by the repository's own tests:

* `CompleteStr` is always at EOF: no `Incomplete`, `need_more` gives `Error`.
* `alt!`, `alt_complete!`, `opt!`, `many0!`, `separated_list!` only recover
  from `Error`; a `Failure` (`return_error!`) is propagated.
* `many0!` stops successfully at an iteration that consumes nothing.
* `separated_list!` with a failing first element returns the empty list; a trailing
  separator is not consumed.
* `sep!(ws, p)` (used by the crate's `whitespace!`/`inline_whitespace!`)
  rewrites `do_parse!`, `alt!`, `tuple!`, `terminated!`, `preceded!`,
  `separated_list!` so that every step is preceded by the separator;
  `many0!(X)` becomes `many0!(ws X)` with X itself not rewritten (required by
  the tests in object.rs, body.rs and parser.rs: multi-line bodies parse,
  `,\n\n` separators parse); any other parser `p` becomes `ws p`.
* `escaped_transform!` on empty content returns the empty string (the tests parse `""`).
* `escaped_transform!` passes a `Failure` of its transformer on unchanged.  No test pins this; if it wrapped it, a bad
  escape would still be rejected, but with a `ParseError` instead of `InvalidUnicodeCodePoint`.
* `recognize_float`, `parse_to!`, `flat_map!` (literals/number.rs) as documented.

## 4. Trusted base

* Coq's kernel.  `Print Assumptions` is run in the build for every property theorem.  For
  all but those of C91 and `C92_f64`, `C92_f32`, `C92_f32_rounds_twice` (and later ones marked
  "reals" in section 5) the answer is "Closed under the global context": no axioms, neither
  ours nor the standard library's.
  (vcheck also lists names `Coq.ssr.ssrunder.Under_rel.*`, `Coq.Reals.Rdefinitions.RbaseSymbolsImpl.*`
  and `RinvImpl.*`: they are fields of module types
  in the ssreflect library and the definition of the reals; no theorem depends
  on them.)
* The theorems about rounding speak of Coq's real numbers and rest on the standard library's
  axioms for them: `ClassicalDedekindReals.sig_forall_dec`, `ClassicalDedekindReals.sig_not_dec`,
  `FunctionalExtensionality.functional_extensionality_dep` and `Classical_Prop.classic`.
  Their proofs use Flocq, which adds no axioms; their statements do not mention it.
* The model is faithful to the code: each definition cites its source lines.
* nom as in section 3; serde and its derive as in section 2; Rust's standard library as
  documented (`str::parse`, `from_utf8`, `HashMap`, `split`, panics of slicing).

## 5. Properties: what is modelled and how it is proved

Where the code does not have a property as a user would state it, the property is kept in full,
a `_refuted` theorem gives a witness, the `_partial` theorems prove what holds, and - where
there is one - a later property states the exact behaviour (proved in full).

| property | model | method | exact behaviour, if refuted |
|---|---|---|---|
| C01 grammar, C04, C06-C08, C23-C28 | Lex, Parser | `Grammar.v` is a relation; soundness by induction on fuel, completeness by mutual induction on derivations | C24, C26: in the partial theorems |
| C02 termination | Parser, OldParser | every parser returns a suffix; the fuel bound suffices | |
| C03 panics | Parser, OldParser | the only source is `unindent_heredoc` | C89 |
| C05, C60-C62 printing, nesting | Parser | `Printer.v`: tokens with typed gaps, any filling; locality of the grammar | |
| C09-C13, C18, C19 lexical | Lex | exact sets of texts and values | C12: value or panic for every content |
| C14-C17 numbers | NumConv | exact integer arithmetic, `SpecFloat` | C17: C96, C75 and the partial theorems |
| C20-C22 input, ownership | Utf8 | exact UTF-8 decoder against RFC 3629 | |
| C29-C37 block index | Blocks | induction over histories of appends, all table orders | C30, C32: C83; C31: C85; C34: C84 |
| C38-C45, C63-C66 serde | Serde | induction on targets and documents | C38: C86; C40, C41: C88; C63: C39_map_entries with C85 |
| C46, C53, C70, C71 `value::from_str` | OldParser | second grammar `OldGrammar.v`, same methods; agreement by mutual induction on both grammars | C53: C90 |
| C47-C52, C54, C67-C69 merging | Value | relations over all table orders; closed form of the result, exactly the set of outcomes (`PropMerge`); one order run in `MergeExec` | C47, C49, C50: C67; C52: C100 |
| C55-C57 containers | Kvp | iterator protocol (`Yields`) | |
| C58 take_till_match | TakeTill, Lex | the loop over indices equals the recursive function | |
| C59 errors | Errors | case analysis, inversion of codes | |
| C72-C74 CLI | Cli | effects on files and standard output, all paths | |
| C75-C77 equality | Equality | each `==` against a normal form or pointwise specification | |
| C78 changes through references | BlockMut | induction on the path | |
| C79, C80, C82 accessors, constructors | Access | exhaustive case analysis | |
| C81 floats | FloatConv | correct rounding of the printed text | |
| C86, C88 exact serde outcomes | Serde | `SerdeErrSpec.v`: what each error says; induction on target and source; prefix lemmas for the map visitors | |
| C89 exact parse outcomes | Parser | `MeetsSpec.v`: a grammar of the documents that reach a bad heredoc; both directions by induction on length / derivation | |
| C90 exact `value::from_str` outcomes | OldParser, Value | `OldMeetsSpec.v`, as C89 | |
| C93 bad escapes (`Err::Failure`) | Nom, Parser, OldParser | `MeetsSpec.v`, `OldMeetsSpec.v`: the same inductive "the reader meets" as C89/C90, generic in the kind of trouble | |
| C94 map key types | Serde | case analysis over the map protocol against the `String` map | |
| C95 wrapper and fixed-size targets | Serde | unfolding one step of the protocol; induction on the component types | |
| C97 keys as deserialisers | KeyDe | case analysis | |
| C98 more text after a document | AppendProofs | the body parser unfolded element by element over the first document; locality of the grammar for the trouble met | |
| C99 the same for `value::from_str` | OldLocality | replacing the rest of a text in the grammar of values, by mutual induction | |
| C100 exact outcome of the walking methods | Value | mutual induction on values; the first part that stops the walk | |
| C101 the place a parse error names | Parser, OldParser (`eof_rest`) | the reader stops at the longest sequence of elements: a body read from any point equals the elements before it and the body read from there | |
| C102 what `serde::de::from_str` returns, exactly (reals) | Parser, Serde, NumConv, FloatConv, Blocks | a meaning relation (`DenSpec`) for all target types; soundness and completeness of the deserialisers by induction on type and document, composed with C01 | |
| C103 linear number of calls | CallCount | instrumented parsers (erasure proved); the calls made are paid for by the characters consumed, one for the call under way | |
| C104 calls of `value::from_str` | CallCount | the same for accepted texts; on rejected ones the three alternatives of an entry re-read the map, hence doubling (a closed form by induction on the depth) | the doubling is a finding |
| C105 recursion depth | DepthCount | instrumented parsers (erasure proved); every nested call is paid for by an opening bracket consumed before it; towers of tuples by induction | unbounded recursion on nested input is a finding |
| C106 fuzz drivers | Fuzz | C89 (exactly which texts panic), C20 (UTF-8) and C02; induction on the inputs | |
| C107 error texts | Display | fixed texts differ in a prefix; the holes are cut out from whichever side they have no spaces; digits contain no comma | texts of io, UTF-8, number errors are parameters |
| C108 messages of the tool | CliMain, Cli, Display | the outcome of a rejected text is unique (C48), so every run is the one that prints it; inversion of the runs | |
| C109 the values `serde::de::from_str` can return, exactly (reals) | Parser, Serde, NumConv, FloatConv, Blocks | from C102: what a document means is a value of `ReachSpec` (induction on the meaning relation), and every such value has a text (literals for all floats, quoted strings, heredocs with a fresh marker for borrowed strings, tuples, objects, attributes) | |
| C110 how `serde::de::from_str` fails, exactly (reals) | Parser, Serde, NumConv, Blocks | `FailSpec.Fails`: the first problem, everything before it meaning a value (C102's `Den`), given an order of visiting block types; soundness by induction on `Fails`, completeness by induction on the depth of type and source, splitting lists at the first part that is not read | |
| C111 which documents can make a type panic (any type) (reals) | Parser, Serde, MapAccess, AnyTarget, AnyTypes | targets are coinductive clients of the protocol; safety by induction on steps over hazard-free parts, with the map access state machines reduced to lists; a walking target panics on every hazard; `Hazard` decided by induction on depth; the listed types are shown to be such targets with the same results | |
| C112 what no type can tell apart, exactly (reals) | Parser, Serde, MapAccess, AnyTarget | `AnySpec.Alike` ⇒ equal runs for every target and number of steps (induction on steps); conversely probes separate documents that differ (induction on depth) | |
| C113 when readings end, for any type | Parser, Serde, MapAccess, AnyTarget, AnyTypes | `AnySpec.Fair` (finitely many questions per part, coinductively); induction on the depth of parts, inside it on the questions; a recursive newtype of an option is shown never to end | |
| C114 the values, merged values and merge errors `value::from_str` can return, exactly (reals) | OldParser, Value, NumConv | from C70 and C67: what is read is in `VReachSpec` (induction on the grammar), every such value has a text; merged tables have an unmerged form (mutual induction), every error of the specification has a two-entry witness | |
| C115 the token functions of the public parser modules, exactly | Lex | each `p s = Ok r v <->` the token's text in `PubSpec`/`Grammar`; `many0` as a run of pieces up to where no piece begins | |
| C116 the public functions for expressions, attributes, blocks and bodies, exactly | Parser | from C01's soundness and completeness lemmas, with the white space around made explicit; repetition as runs up to where neither an item nor anything bad begins | |
| C117 where each of them panics or gives up, exactly | Parser, Lex | from C89's and C93's lemmas on stops through the combinators, one function at a time | |
| C118 the worst case of `value::from_str` | CallCount | one induction for any budget that grows by one per character and doubles at a `{` (CallBound); two such budgets; the text reaching the second by induction | |
| C119 documents as tokens and gaps | Parser | LayoutSpec: layouts by the syntax, fillings of gaps; both directions by induction on the layout and on the grammar's derivations (LayoutProofs, with Locality); also gives C07 for all documents | |
| C120 the tool's output determines the value (reals) | Debug, Cli, OldParser | layout removed from the text (`flat`), then unique readability of what is left by induction on the value; floats and strings of parsed values from C114; bytes by C20's UTF-8 lemmas | |
| C121 what `value::from_str` reads, as tokens and gaps | OldParser | OldLayoutSpec: layouts by the syntax; both directions by induction on the layout and on OldGrammar's derivations (OldLayoutProofs) | |
| C122 the documents that both parsers accept | Parser, OldParser | CommonSpec: layouts carrying both the tree and the entries, CommonVSpec: the values; soundness by C119/C121 (CommonProofs), completeness by induction on the strict derivation with inversion of the other, reachability by constructing a layout (CommonReach) | (reals) |
| C123 editing a document in place | Parser | `EditSpec`: trees with a hole; proof by induction on the place, with `Locality`'s replacement lemmas and `GConfig_split`/`GBody_app` | |
| C124 the same for `value::from_str` | OldParser | `VEditSpec`: values with a hole; induction on the place, with `OldLocality`'s replacement lemmas | |
| C125 LF and CR LF | Parser, OldParser | `CrlfSpec`: `crlf`, `AddCr`, trees equal up to carriage returns in strings; rule induction over both grammars, tokens without line ends by a prefix lemma | |
| C126 order of attributes and members | Serde | `MoveSpec`: permutations of attributes and members at any depth; nested induction over `Den` (C102) | (reals) |
| C127 documents cut short | Parser, Utf8 | `CutSpec`: the first elements, or a shorter last number; rule induction over the grammar, locality of closed tokens | |
| C128 documents for value::from_str cut short | OldParser, Value | `VCutSpec`: the first entries, or a shorter last number; rule induction over the grammar of C70; mergeability of beginnings by C48's `CanMergeMap` | |
| C129 documents and types that evolve | Serde | `EvolveSpec.SameFor`: type-directed relation over the specification `Den` of C102; induction on the depth of the type | |
| C130 order of entries and merging | Value, OldParser | `RearrangeSpec.RMap` relates a value and its rearrangement key by key; the closed form of merging (C67) gives related results, by induction on the value | |
| C131 the two readers agree | Serde, OldParser, Value | the meaning of a document (C102), its translation (C71) and the closed form of merging (C67) are compared by `TwoWaysSpec.DataOf`, by induction on the document | a condition on the place of blocks is needed because of the findings C31/C40 |
| C132 linear time of expressions | Nom, Lex, Parser with a count of steps (WorkCount) | erasure gives the parsers back; a cost bound for each token parser; for blanks before comments that never close a separate measure (`gap`, `jam`); tuples and objects by induction on the rounds, expressions by induction on depth with a claim for texts where nothing can begin | the price list of the primitives is the specification: nom's own loops are not counted more finely; building values is not counted; documents (`body`) are modelled, erased and bounded from below (one step for each character), not from above |
| C91 nearest float | NumConv, FloatConv | (reals) `FloatSpec.v` over the real numbers; the model's integer algorithm against it through Flocq | |
| C92 float and byte targets | Serde | C91 and the same rounding lemmas | C92: `f32` is rounded twice |
| C96 equality of floats | NumConv | (reals: `C96_exact`, `C96_bounds`, `C96_same_number`) `FloatEqSpec.v`; each operation of the comparison against exact rounding (Flocq), then Sterbenz's lemma and the spacing of floats | |
| C87 map access protocol | MapAccess | invariant over call histories; asking in turn gives the steps used in `Serde` | |
| C83-C85 exact block index | Blocks | `BlockExactSpec.v`: placement as a function of the paths in use | |

## 6. Wrong programs

`seeded/LOG.jsonl` has one line per edited model (definition, edit, claim broken, theorems or
lemmas that stop compiling, theorems tightened).  Survivors led to new or stronger
theorems; those lines say which.
