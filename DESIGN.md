# Formal model of arnodel/jsonstream in Rocq (Coq 8.16.1)

## Layout

All Coq files are in `rocq/theories/` (logical name `Verif`).

| kind | files | content |
|------|-------|---------|
| model | `*Model.v` | Gallina transcription of the Go code, one definition per function, each with the file and lines it models |
| specification | `*Spec.v` | small, model-independent definitions: JSON values, RFC 8259 grammar, RFC 9535 selection, independent readers, ... |
| proofs | `*Proofs.v` | lemmas, invariants, simulations |
| properties | `P_*.v` | the theorems named in `MANIFEST.json`, each with a non-vacuity `Example` and `Print Assumptions` |

Naming: `..._partial` proves part of a property, `..._refuted` proves that the
code violates the property (a concrete witness evaluated by the model), and
usually comes with a positive theorem under the exact side condition.

## Modelling conventions

* A byte is an `N`; a Go `[]byte` is a `list N`.
* Go `int` values that are compared or subtracted are `Z`; counters that only
  grow and are far below 2^63 are `nat` or `Z` without wrap-around, except in
  the selector arithmetic, where the range of 64-bit integers is explicit.
* A Go panic is an explicit outcome (`Panic`), never a default value.
* An `error` is a value; error texts are dropped, only their presence (and
  position where the property is about positions) is kept.
* Fuel: functions that are not structurally recursive take a `nat` fuel and
  return `OutOfFuel` when it runs out; theorems show enough fuel is available.
* Goroutines and unbuffered channels: a labelled transition system in which a
  step is one rendezvous or one close (`PipelineModel.v`).
* Go standard library functions (`strconv.ParseFloat`, `json.Unmarshal` of one
  literal, `encoding/csv.Reader`, `regexp`) are parameters of the theorems
  (Section variables that are universally quantified after the section
  closes), or are given a concrete definition where the property depends on it.

## Plan per property

| id | modelled | proof |
|----|----------|-------|
| C01 C02 | `token/cursor.go` with window, shifting copy, catch-up counter | refinement to independent readers for all operation sequences |
| C03 | same model | refuted: a lone cursor never trims; positive: with two live cursors and none lost at most 100 passed tokens are kept, and the bound is restored after any history by 101 re-reads (invariant on the catch-up counter) |
| C04 C05 | `internal/scanner` with buffer, indices, token parts and an arbitrary reader script | simulation with a scanner over the plain byte list |
| C06 | same | invariant; refuted for characters of 3 or 4 bytes, proved for bytes below 0xE0 |
| C07-C12 | `encoding/json/decoder.go` over an abstract scanner interface | induction on the RFC 8259 grammar / on the run; refutations for lenient escapes and flags |
| C13-C16 | `encoding/json/encoder.go`, printers and colorizer | structural induction on values, then C07 |
| C17-C19 | `encoding/jpv` | induction on leaf sequences; refutations for the panics |
| C20-C22 | `encoding/csv/decoder.go` over a list of records | induction; refutations |
| C23 C24 | `transform/builtin.go` | induction on values |
| C25 C26 | `token/pipeline.go` as a transition system | diamond property, progress invariant |
| C27-C30 | `iterator` over a heap of cursors, pools and collections | invariant on the heap |
| C31 | `Scalar.Equal`, and a model of the literal decoding of the Go standard library (`GoLiteral.v`) | case analysis; injectivity of UTF-8; correct rounding; refutations |
| C32 | selector runners and lookahead | integer arithmetic for all lengths; refutation of stepped clamping |
| C33-C38 | `transform/jsonpath`: segment runners, dispatcher, filters, functions, compiler (`PathModel.v`, `CompileModel.v`) | programs over the iterator interface; refinement to selection on trees, then to RFC 9535 (`PathSpec.v`); refutations in `P_PathRefuted.v` |
| C39 C45 | the grammar types and the conversion of literals (`GrammarModel.v`) | induction on queries; refutations |
| C39 C54 C55 | the token table of `lexer.go` with a matcher of regular expressions (`LexModel.v`), the grammar as a parser (`ParseModel.v`); specification: the grammar of RFC 9535 (`QuerySyntax.v`) | tokeniser: what every pattern takes and refuses, layout of tokens and blanks; parser: completeness and soundness by induction on queries and on fuel; refutations |
| C40 | typing checks of the compiler (`PathTypes.v`) | induction on queries |
| C41 | format patterns of `cmd/jp` (`FormatModel.v`) | the patterns as explicit matchers; refutations |
| C42 | a log of what is written and what was unread at that time (`StreamModel.v`) | causality of the iterator, tracked collections, each the last item of the one around it, whose ends are reached only after the last item was written |
| C43 C44 | reader failures in the scanner; the encoder on malformed token sequences | invariant on the scanner; refutation (panic) and a positive part |
| C46 | `iregexp.go` (`IregexpModel.v`), the syntax and meaning of I-Regexps and of Go's expressions (`IregexpSpec.v`) | simulation of the loop by an automaton, induction on expressions, unique reading; refutation for ^ and $ |
| C47 | the cache of `iregexp.Compile` | induction on the sequence of calls; refutation |
| C48 | the key extractors of `internal/legacy` (`LegacyModel.v`) | as C28: scripts on the iterator, induction on values; refutation for keys below keys |
| C49 C50 | the end of `main`: the buffered writer, a device that fails after k bytes, the exit status (`MainModel.v`) | invariant: device and buffer hold what was written, or the device has failed and lacks something; refutations for the status |
| C51 | decoder, encoder and end of `main` together | C07, C13 and C49 |
| C52 | `parseTransformer` (`MainModel.v`) | case analysis against a list of the arguments |
| C53 | decoder, compiled query, encoder and end of `main` together (`P_JpQuery.v`), and the query string (`P_JpText.v`) | C07, C34, C13 and C49; nodes of a query are descendants and inherit validity |
| C56 | both modes of the compiled query (`PathBag.v`, `PathOrder.v`, `P_PathBag.v`) | the list of nodes a segment runner dispatches is, up to order, the nodelist; nodelists of the two modes are permutations of each other by induction on queries |
| C57 | the order of the results in the default mode (`P_DocOrder.v`) | places of values in a document, ordered by their start; induction on the value for the last segment, on the segments before it; refutation for `$..a.b` |
| C58 | the heaps a run goes through and the pieces of the input in its log (`PlainSpec.v`, `Plain.v`, `PlainQuery.v`, `P_Plain.v`) | a logic for programs that clone nothing and copy a value only when its first token is the last one received; then the loops of the engine; with causality it gives C42 at every depth for these queries |
| C59 | all of `main` after the flags are parsed (`CliModel.v`), which commands are acceptable (`CliSpec.v`, `P_Cli.v`) | the checks of `main` one by one against the specification, with C41, C52, C54, C55 and C40 for formats, arguments and queries; C50 for the status |
| C60 | the same; what an argument does to values (`applies` in `CliSpec.v`) | C07, C20, C23, C24, C34, C13 and C49 composed over the list of arguments |
| C61 | two runs of `jp` and a choice of lines between them (`P_JpGrep.v`) | C18 for the lines, C60's pipeline for both commands, C13 for the JSON written; the flags that reading JPV gives are forgotten by JSON |
| C62 | the goroutines of a command: decoder, transformers (split and queries receive tokens only when an iterator needs one) and encoder (`NetModel.v`, `NetProofs.v`, `P_Network.v`) | simulation: an iterator operation does not depend on what it does not read (`StreamCausal.v`), so that the process that has received a part of the input does what the run on the whole input does; what a program copies is what it returns (`StreamEngine.v`); C25 and C26 for the schedules |
| C63 | two jp commands in a pipe against one command with the arguments of both (`P_Chain.v`, `P_ChainJpv.v` for JPV with quoted names) | C60 says what the first command writes; reading it back gives the tokens its last transformer sent; stages of concatenated arguments are concatenated stages; depth=N and CSV before JPV refuted by evaluation |
| C64 | the JPV lines of a value with the leaves after the equal signs replaced (`edited`, `P_JpSed.v`), read by the command jp | the lines of the edited value are the edited lines, and the edited value can be represented; then C18's decoder lemma and the pipeline lemma of C60 |
| C65 | the layout of JSON output as a function of the value and the settings (`layout`, `LayoutSpec.v`), compared with what the model of the encoder prints; the statements of the help text about it | the printer calls of each encoder function are followed by induction on the value (`LayoutProofs.v`); which collections are on one line is read off the layout; the help's statements are refuted by computed outputs |
| C66 | a jp command that waits (`WaitModel.v`): the decoder up to the first scanner method that asks the reader for more than it has delivered, and the bytes that have left the output buffer when the encoder waits for a token; beginnings of JSON texts and the tokens complete in them are a separate specification (`WaitSpec.v`) | the decoder by mutual induction on the beginning of a text, on top of the scanner refinement of C09; the output stage by invariants on the printer calls (a call that breaks a line flushes on a terminal; the encoder's calls for a prefix of the tokens are a prefix of its calls) and the layout theorem C65; `C66_pipe_refuted` and `C66_record_refuted` show by computation what is held back |
| C67 | the network of goroutines of C62, and the same network with a decoder that waits (`WaitNetModel.v`) | every transformer goroutine returns only after it has seen the end of its input (`reads_all`, by coinduction; for the transformers on iterators the invariant is that iterator 0 reads the input and has a current value while a program runs, which every operation of the heap keeps, `DrainProofs.v`); then `C26_no_goroutine_left`; `C67_slice_refuted` by a computed schedule that hands on both items, and `C67_waits` |
| C68 | the windows of the cursor pools in all heaps a run goes through (`heaps`); selectors that count from the end and arrays with small items in `WindowSpec.v` | a logic of runs (`WindowWorld.v`: a triple about a program, the store of IterSpec.v, the invariant of IterRel.v and the windows) in which each pool is either idle (little is left to read through it) or belongs to the array being read and its clone (`active` in `WindowActive.v`); the positions of the two cursors follow from how many items the array and the clone have given (`WindowPos.v`), and the window of a pool with two cursors reaches from a hundred tokens before the one behind to the one in front (`WindowPool.v`, `WindowHeap.v`); the engine in `WindowQuery.v`. The model never frees a pool; in Go the pools of arrays left behind are garbage. The length of the window is bounded, not the capacity of its slice. `C68_mixed_slice_refuted` by evaluation |
| C69 | the windows of the cursor pools in all heaps of a run, as for C68; segments before the filter and values some levels below another in `FilterSpec.v` | programs that clone small values only (`sparing` in `WindowSmall.v`: what is small is read off the store at the end of the run, in which handles still have their values); the clone of a small value that reads the input starts a pool for that value alone, so every pool is idle in the sense of C68 (`idle_clone`, `sparing_runs`); the engine, with conditions and functions, in `WindowFilter.v`. The bound is on each window; how many are in use at a time is not counted. `C69_absolute_query_refuted` by evaluation |
| C70 | the text of JPV output as lines of a value, a relation (`JpvLayoutSpec.v`: decimals are any text that denotes the index), compared with what the model of the encoder prints, with colours and elisions | the printer calls of each encoder function are followed by induction on the value (`JpvLayout.v`); decimals are unique (`C70_text_unique`); the command level by C60. Keys flagged as plain names must have their two quotes, or the encoder panics (`C70_without_quotes`); all keys of JSON input have them |
| C71 | the flags of `main` and the loop of flag.Parse (`FlagModel.v`, with strconv.ParseInt base 0 and ParseBool); which words describe which command, as a relation (`FlagSpec.v`: names, values, Go's integer literals) | each flag of the table against the relation; induction on the words in both directions (`FlagProofs.v`); the literals by induction on digits and underscores (`FlagInt.v`); then C59 and the model of `jp`. The documented -strict and -colors=false are refuted. |
| C72 | csv.Reader with the settings of `csv.NewReader` (`CsvReaderModel.v`: readLine, readRecord, Read); CSV text as a grammar (`CsvTextSpec.v`) | the line in hand and the rest of the input against the text without CR (`repr`); the grammar drives the reader by induction on fields and on the bytes within quotation marks, and every run of the reader gives a text of the grammar (`CsvReader.v`); then C60. Two refutations. |
| C73 | `ToScalar`, `StringScalar`, `ToGo` and the others (`GoValueModel.v`), with json.Encoder on strings of any bytes; the characters of a string with U+FFFD for stray bytes, as a relation (`GoValueSpec.v`) | DecodeRune against UTF-8 in both directions, induction on the characters; then C31's lemmas on literals. FormatFloat is a parameter. |
| C74 | nothing new: the whole command (`CliModel.v`); the recipes as texts, with what each makes of a value in terms of firstn, skipn and an order-preserving choice (`RecipeSpec.v`) | Each text is one of the grammar, so C54 reads it; the nodes of RFC 9535 for such queries are computed in both directions (`Recipes.v`); then C60. For `>` and `<`, FormatFloat must write a text of the literal's value. |
| C75 | nothing new: the whole command with the CSV reader (`CliModel.v`, `CsvReaderModel.v`); tables and the values of their rows (`TableSpec.v`) | C72 reads the records and C20 makes objects of them; these have different keys and scalars with a value, so they are clean (`Tables.v`) and C60 applies; the member with the name of a column is the cell (`P_Table.v`; names given on the command line: `P_NamedTable.v`) |
| C76 | nothing new: two runs of the command, the first reading CSV and writing JPV (`CliModel.v`, `CsvReaderModel.v`); tables as in C75 | the array of the rows is representable in JPV and valid; C18 gives the lines and what any choice of them is read as, C72 the first run, C60's pipeline the second; the leaves of the array are its cells (`P_TableJpv.v`) |
| C77 | nothing new: two runs of the command as in C61; values of the same shape (`EditSpec.v`) | the leaves of a value can be replaced by any leaves, keeping paths, by induction on values; lines have one text, so the edited lines are those of the new value, and C18 says how they are read (`P_Edit.v`) |
| C78 | nothing new: the whole command with the CSV reader; grids and the arrays of their rows (`GridSpec.v`) | as C75, with arrays instead of objects: these are clean, so C60 and the recipes of C74 apply; the item with the number of a column is the cell (`P_Grid.v`) |
| C79 | jp on the same values in two formats (`AlikeSpec.v`, `AlikeProofs.v`, `P_Alike.v`) | values that are alike but for the flags of their strings: the nodelists of RFC 9535 for alike values are alike, by induction on the syntax of queries (negation by symmetry); so are the results of all arguments; the layout of C65 without colours uses only types and bytes. C63 for CSV and for JPV with any names follows |

## Trusted base

* Coq's kernel (`coqchk` re-checks the compiled files).
* The transcription of the Go source into `*Model.v`. Each definition names the
  file and the lines it models, and says where it simplifies.
* The specifications `*Spec.v`, `PathAst.v`, `PathTame.v`: what the theorems mean.
* Axioms: none. `Print Assumptions` is run on every theorem that is listed in
  `MANIFEST.json`, and the answer is `Closed under the global context` for each
  of them. No axiom of the standard library is used.
* Parameters: what a theorem quantifies over because it is outside the code.
  They are ordinary universally quantified variables of the theorem.
  - `grow` (how `append` grows a slice's capacity) in the cursor and iterator theorems;
  - `find` (`regexp.Regexp.FindStringIndex`) and `matches` (the language of an
    I-Regexp) in the JSONPath theorems; `tame` (`PathTame.v`) says where they must agree;
  - Go's package `regexp` in the theorems on patterns, assumed to find a match when
    there is one (`go_regexp`, `IregexpSpec.v`; an instance is given);
  - the script of an `io.Reader` (chunks, errors) in the scanner theorems;
  - the records an `encoding/csv.Reader` returns in the CSV theorems other than C72.

## Modelled

| code | model |
|------|-------|
| `token/cursor.go` | `CursorModel.v` |
| `token/tokens.go`, `token/tokenstream.go` | `Tokens.v`, `ScalarModel.v`, `GoValueModel.v`, `GoLiteral.v` |
| `token/pipeline.go` | `PipelineModel.v`, `PipelineStages.v` |
| `internal/scanner/*` | `ScannerModel.v` |
| `internal/format/*` | `PrinterModel.v`, part of `JsonEncModel.v` |
| `encoding/json/*` | `JsonDecModel.v`, `JsonEncModel.v` |
| `encoding/jpv/*` | `JpvEncModel.v`, `JpvDecModel.v` |
| `encoding/csv/decoder.go` | `CsvModel.v` |
| csv.Reader of the standard library (not in the repository: `readLine`, `readRecord`, `Read` with the settings of `NewReader`), from its published behaviour | `CsvReaderModel.v` |
| `transform/builtin.go` | `TransformModel.v`, `SplitModel.v` |
| `iterator/*` | `IterModel.v`, `ProgModel.v`, `EqualModel.v` |
| `transform/jsonpath/*` | `SelectModel.v`, `PathModel.v`, `CompileModel.v` |
| `internal/jsonpath/ast`, `jsonpath.go`, `parser/grammar.go`, `parser/parse_literals.go` | `PathAst.v`, `GrammarModel.v` |
| `internal/jsonpath/parser/lexer.go`, and the syntax that the structures of `grammar.go` describe | `LexModel.v`, `ParseModel.v` |
| `internal/jsonpath/iregexp` | `IregexpModel.v` |
| `internal/legacy/transformers.go` | `LegacyModel.v` |
| `cmd/jp/main.go`: detection of the input format | `FormatModel.v` |
| `cmd/jp/main.go`: output, exit status, arguments | `MainModel.v` |
| `cmd/jp/main.go`: `main` as a whole, from the values of the flags | `CliModel.v` |
| `cmd/jp/main.go`: the flags of `main`; the package flag (not in the repository: `Parse`, `parseOne` and the values `BoolVar`, `IntVar`, `StringVar`, `BoolFunc`) and strconv.ParseInt/ParseBool, from their documented behaviour | `FlagModel.v` |
| `cmd/jp/main.go`, `token/pipeline.go`, `iterator/transformer.go`: the goroutines of a command | `NetModel.v` |

## Not modelled

* The Go runtime, the garbage collector and the memory model. Goroutines are
  processes of a transition system, unbuffered channels are rendezvous.
* The library `github.com/arnodel/grammar`, whose source is not in the
  repository. Its use is modelled from its tables: `LexModel.v` (the first pattern
  of the table that matches makes the token, unnamed tokens are dropped) and
  `ParseModel.v` (sequences, ordered choices, optional fields and repetitions
  without backtracking into a choice that succeeded) state these assumptions. The
  theorems C45 and C39 of `P_Grammar.v` do not depend on them: there the tokeniser
  and the parser are parameters.
* `regexp`, `strconv.FormatFloat`: parameters, see above; `encoding/csv.Reader` is
  one too except in C72.
* The usage and help texts of `cmd/jp/main.go` and what else goes to standard
  error. A panic in the goroutine of a decoder or transformer ends the
  process at any time: the relation `jp` has no outcome for such runs. The encoder
  is a sink that receives the tokens in `NetModel.v`; that it stops to receive when
  a write fails is in `MainModel.v` only. The
  buffered writer is that of the
  standard library, with its size of 4096 bytes; standard output is a device that
  takes a number of bytes and then fails.
* `*_debug.go` and `internal/debug`: compiled only with a debug tag.
* Error texts.
