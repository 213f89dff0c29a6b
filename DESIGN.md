# Design

Formal model, in Rocq (Coq 8.16.1), of `vimwiki-core` (parser, elements, vimwiki and
HTML output) and of the pure part of `vimwiki-cli`. `/repo` is only read as text.

## Layout (rocq/theories)

| file | content |
|---|---|
| `Base.v` | byte strings, small list library |
| `ModelSpan.v` | `parsers/span.rs` |
| `ModelComb.v` | result type (Ok / Err / Panic / OutOfFuel), nom 6.1 combinators used, `parsers/utils/*` |
| `ModelAst.v` | `elements/*` as data |
| `ModelLink.v` | link data, anchors, percent encoding |
| `ModelTable.v`, `ModelElem.v` | methods of tables, cell positions, list items, definition lists, textual forms |
| `ModelInline.v`, `ModelBlock.v` | `parsers/vimwiki/**` function by function |
| `ModelPath.v` | `output/html/utils.rs` and `config.rs`: paths, wikis, relative links, link resolution |
| `ModelHtml.v` | `output/html/mod.rs`, `formatter.rs`, `convert.rs`, `normalize_id` |
| `ModelVimwiki.v` | `output/vimwiki/{mod,formatter,config,convert}.rs` |
| `ModelCli.v` | `vimwiki-cli`: `ast.rs`, `utils.rs`, `subcommand/{convert,format}.rs` over a file system |
| `ModelJson.v` | `Serialize` and `Deserialize` of the elements, with serde, serde_with and serde_json's pretty printer and reader |
| `ModelInspect.v` | `subcommand/inspect.rs` |
| `ModelMacro.v` | `vimwiki_macros`: the text of a literal, format strings, the value of the generated code |
| `ModelTree.v` | `IntoChildren`, `Region` and the walk over descendants |
| `ModelEntry.v` | parsing a text as one element, `--include` filters |
| `ModelWasm.v` | `vimwiki-wasm`: dates, link descriptions, tables, comments, definitions, `to_js` |
| `ModelExit.v` | `vimwiki-cli/src/lib.rs`: the run as a whole and its exit status, `serve` |
| `ModelTime.v` | `timekeeper.rs`: the table of calls, its report, and the option of the program |
| `ModelErr.v` | `errors.rs`: parse errors, how they are joined and displayed |
| `ModelProps.v` | `vimwiki-wasm/src/elements.rs`: properties of links given and read from JavaScript; strings of JavaScript are sequences of code points, lone surrogates become U+FFFD |
| `ModelEq.v` | `PartialEq`, `StrictEq` and `Hash` of the elements |
| `ModelTests.v`, `ModelTestsHtml.v` | tests of the repository run against the model (see "Tests of the transcription") |
| `ModelOracle.v` | executable URI and date parsers, for examples and witnesses only |
| `SpecDoc.v`, `SpecBlock.v`, `SpecTree.v`, `SpecSpan.v`, `SpecElem.v`, `SpecPath.v`, `SpecHtml.v`, `SpecVw.v`, `SpecCli.v`, `SpecEq.v`, `SpecRound.v`, `SpecJson.v`, `SpecMacro.v`, `SpecWalk.v`, `SpecEntry.v`, `SpecWasm.v`, `SpecExit.v`, `SpecLines.v`, `SpecMove.v`, `SpecEnd.v`, `SpecTime.v`, `SpecErr.v` | specifications, written without the model's parsers and methods |
| `Proof*.v` | lemmas |
| `SampleDoc.v` | one page with every kind of element, parsed by computation |
| `PropertiesPage.v` | C01-C09, C17-C28, C58-C62 |
| `PropertiesSpan.v` | C10-C16, C18 |
| `PropertiesElem.v` | C29-C34, C36-C38 |
| `PropertiesEq.v` | C35 |
| `PropertiesPath.v` | C44-C49, C63 |
| `PropertiesHtml.v` | C39-C43, C64-C70 |
| `PropertiesVimwiki.v` | C50, C51, C53 |
| `PropertiesRound.v` | C52, C76 |
| `PropertiesSame.v` | C75, C77 |
| `PropertiesCli.v` | C54-C57, C71-C74 |
| `PropertiesJson.v` | C78, C79; more of C55 |
| `PropertiesMacro.v` | C80-C85 |
| `PropertiesWalk.v` | C86-C88 |
| `PropertiesEntry.v` | C89, C90 |
| `PropertiesWasm.v` | C91-C96 |
| `PropertiesExit.v` | C97 |
| `PropertiesLines.v` | C98 |
| `PropertiesMove.v` | C99 |
| `PropertiesEnd.v` | C100 |
| `PropertiesTime.v` | C101 |
| `PropertiesErr.v` | C102 |
| `PropertiesProps.v` | C103 |

The `Properties*.v` files hold the theorems claimed in MANIFEST.json, their
`Print Assumptions`, and the examples that show the hypotheses can be met.
A theorem named `..._partial` has the full statement in the comment above it; a theorem
named `..._refuted...` is a concrete input for which the full statement is false.

## Modelling decisions

* Text is `list byte` (Coq.Init.Byte). `str` values are byte lists; UTF-8 validity is a
  predicate and a theorem (C08), not an assumption.
* A span is the record of `span.rs` (buffer, start, end, depth); `usize` is `nat`
  (no wrap-around: buffers are shorter than 2^64). Where the code subtracts, the model
  subtracts with an explicit check and returns `Panic` on underflow (debug semantics).
* Parsers are functions `span -> res A`, with `res` = Ok rest value | Err | Panic |
  OutOfFuel. Error payloads are not modelled (no parser inspects them). nom
  combinators are transcribed, including the "no progress" check of many0/many1.
* Recursion over nesting (decorated text, transclusion descriptions, lists) uses a fuel
  argument equal to the remaining length; OutOfFuel is proved unreachable (C03).
* `uriparse::URIReference::try_from` and `chrono::NaiveDate::parse_from_str` are section
  variables of the parser model: theorems hold for every behaviour of these libraries.
  Examples instantiate them with small executable versions.
* Hash maps become association lists with unique keys; theorems do not depend on order
  unless the code sorts.
* A file path is the list of its components (`Path::components` on Unix); file names are
  byte strings. `RelativePath::relative` (crate relative-path 1.4) is transcribed;
  `RelativeReference::try_from` and `Fragment::try_from` are section variables.
* Rendering to HTML is a function from the formatter's state without its text to the new
  state and the text appended (the formatter only appends). Parameters: `to_lowercase`,
  `from_utf8_lossy`, the whole output of the syntect highlighter, uriparse, the template
  file read and the current date. `escape_html` of voca_rs is transcribed as a
  replacement of six characters. Theorems about tags, ids and nesting assume that parts of
  URIs built by uriparse contain none of `<>"` (RFC 3986) and that highlighting is left to
  the browser; the condition `tame` on the page names the parts the code does not escape.
* Formatting as vimwiki text is a function on the formatter's state (text, indentation
  level, flag "skip white space") that returns a state or panics; one `write_str` for each
  piece of a `write!`. Parameters: roman numerals (crate numerals), `from_utf8_lossy`.
* The command line program is a function from a file system (a list of paths with file
  texts or directories; no links, permissions or devices) to a list of actions (write a
  file, make a directory, delete a file, print) and a result (value, error or panic).
  A crash keeps a prefix of the actions, the last write possibly cut off; an edit is a
  write outside the cache directory. Parameters: SHA-1, the parser and printers, the page encoding
  (instantiated in PropertiesJson.v), `canonicalize`, the home directory, UTF-8 validity of file names. Directory entries are
  visited in the order of the list, so the theorems hold for every order.
* JSON values are a data type with one constructor more, for the place where serializing
  stops with an error (a sequence inside a flattened field); what is written is then what
  came before it. The derived implementations are transcribed from the serde attributes;
  numbers are unsigned integers, keys of maps keep the order of the list, an object is read
  field by field with repeated known fields rejected. serde_json's reader is transcribed
  with its recursion limit of 128. Parameters: uriparse's and chrono's implementations.
* A macro is a function from the source text of its literal to the value of the expression
  it generates; the token stream in between is not represented. Code that does not compile
  and code that panics are one result. The regular expression of `formatter.rs` and
  `std::format!` are transcribed; how a value is displayed under a specification is a
  parameter, specifications that name arguments (`{:1$}`) are errors. Only `vimwiki_page!`
  and its variants are composed; the macros for single elements use the same functions.
* JavaScript's `Date` is ECMAScript's MakeDay and the two-digit year rule of the constructor,
  in whole local days (time zones only move the instant); chrono's `from_ymd` is its documented
  range and panic. wasm-bindgen passes values unchanged; a value that is not of the expected
  class is `None`. `from_abi` takes the value out of the module's memory and frees it, the
  JavaScript object keeps its address (as the code generated by wasm-bindgen does). Overflow of `usize` panics (debug build) in `ModelTree.v`.
* Not modelled: which errors the parsers build (how errors are joined and displayed is), other error messages, timing, memory, stack depth, threads (none are used in the
  modelled code), syntax
  highlighting by `syntect`, command line parsing by `structopt`.

## Trusted base

* Coq's kernel (including `vm_compute`).
* Axioms: every theorem prints "Closed under the global context". The modules loaded
  contain seven library axioms, `Coq.ssr.ssrunder.Under_rel.*` (opaque wrappers of the
  standard library's `under` tactic, loaded with `Coq.ssr`), which no theorem uses.
* The transcription: each definition cites the lines of /repo that it models, and states
  its simplifications. Modelled so far: `vimwiki-core/src/lang/parsers/**` except
  error reporting; `lang/mod.rs` (entry points for blocks); of `vimwiki-core/src/lang/elements/**`
  the data types, table methods, cell positions, list item labels and progress, textual
  forms, definition lookup, link data and anchors, and equality, strict equality and hashing
  (`Hasher` input as a list of strings and numbers; equality and hashing of URIs are
  parameters); of `output/html` the path and link part
  of `utils.rs` and `config.rs`, and `mod.rs`, `formatter.rs`, `convert.rs`. The options
  `list.ignore_newline` (read into an unused variable), `link.base_url`,
  `link.canonicalize` and `link.use_ugly_urls` of the configuration have no effect.
  Of `output/vimwiki`, everything. Of `vimwiki-cli`, loading and caching of files, the
  configuration of wikis, and the subcommands convert, format and inspect (`jsonpath_lib`
  is a parameter). Of `vimwiki_macros`, everything but `args.rs` (parsing by `syn`) and the
  macros for single elements. Not modelled: see above,
  `css.rs`. Of `timekeeper.rs`, everything as a function on trees of calls with given times. Of `vimwiki-wasm`, only what `ModelTree.v` and `ModelWasm.v`
  cite; its other methods are accessors.
* The specification files `Spec*.v`, which say in their own terms what the claims mean.

## Tests of the transcription

The project itself cannot be run here, so its tests are run against the model with `vm_compute`.
They show nothing for all inputs and no claim rests on them, but they would have shown a wrong
transcription. `ModelTests.v` (written by `tools/gen_tests.py`) has the 249 parser unit tests
that state whether a parser fails or what it leaves, and all pages of `vimwiki-core/tests/output`
with the vimwiki and HTML text they become. `ModelTestsHtml.v` has the unit tests of the HTML
output, copied by hand. All pass. They found one mistake, in the executable URI parser of
`ModelOracle.v`: `http://host` is read as `http://host/`.

## Wrong programs

`seeded/LOG.jsonl` records edits of the model made in a scratch copy with `tools/seed.py`.
`theorems_failed` names the first lemma of each file that no longer builds. Files after it
are not reached, so this shows that the proofs noticed the edit, not that each later
theorem is false of the edited program. An empty list is an edit that still built.

## Plan per property

C01-C03: page parser model; well-formedness predicate for parsers (`suffix`, no Err where
the grammar is total, fuel adequacy) proved compositionally, then by induction on fuel.
C02 is false of the code: witnesses by computation plus a partial theorem for inputs that
avoid the two panic sources.
C04-C08: invariant of AST values relative to the buffer (regions bounded/nested/ordered,
texts are slices, boundaries), carried through the same compositional proof.
C09: the parser contract itself. C10-C12: span functions against separate specs; C11 and
C12 are false in general, refuted with witnesses and proved under the missing condition.
C13-C16: byte utilities against search specifications on lists.
C17-C28: structure theorems from the parser model.
C29-C38: element functions.
C39-C49: HTML output, ids, paths and links. C39, C40, C44, C47, C49 expected partly false.
C50-C53: vimwiki formatter; C50, C51 expected false on ragged tables.
C54-C57: CLI model with explicit file system, cache and crash steps.
C80-C85: macros; C80, C81, C83, C85 expected false in corners (blank lines, escapes, doubled
braces, hash map order), the general statements by induction over lines, pieces and pages.
C98-C100: the parsers run on two texts side by side. C101: a table folded over the calls.
C102: characters of the text against bytes, induction over the chain of errors.
C103: UTF-8 sequences are determined by their bytes, so whole names stay distinct.
C86-C97: elements as a tree against an independent enumeration; entry points from the page
parser's first step; the calendar as an inductive day count, not a formula.
