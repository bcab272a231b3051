# Formal model of crates-nvim-rs in Rocq (Coq 8.16.1)

## Layout

| file (rocq/theories) | content |
|---|---|
| `Base.v` | bytes, code points, UTF-8, decimal rendering, the `res` outcome type (Ok / Err / Panic) |
| `XModel.v` | model of the code, definitions only, each citing file:lines in /repo |
| `XSpec.v` | small independent specifications (grammars, denotations, places) |
| `XProofs.v`, `X….v` | lemmas |
| `PropX.v` | the property theorems with `Print Assumptions` and non-vacuity `Example`s |
| `XTests.v` | the model evaluated on the inputs of the repository's own tests and on others |

| component | code | model | specification | theorems |
|---|---|---|---|---|
| Common | common/src/{lib,diagnostic}.rs | `CommonModel` | `CommonSpec` | `PropCommon` C17-C19, C44, C45 |
| Display | common/src/diagnostic.rs | `DisplayModel` | `DisplaySpec` | `PropDisplay` C56-C58 |
| Inline | semver/src/inlinestr.rs | `InlineModel` | `InlineSpec` | `PropInline` C16 |
| Semver | semver/src/{lib,parse,eval,display,error}.rs | `SemverModel` | `SemverSpec` | `PropSemver` C01-C15 |
| Lit | toml/src/parse/{num,datetime,lit}.rs, datetime.rs | `LitModel` | `LitSpec` | `PropLit` C25-C30, C46, C47 |
| Lex | toml/src/lex.rs | `LexModel` (errors: `TomlError`) | `LexSpec` | `PropLex` C20-C24, C48, C49 |
| Parse | toml/src/parse.rs | `ParseModel` | `ParseSpec`, `ParsePlace` (places), `ParseMarks` (order), `CommentSpec` | `PropLine` C83; `PropParse` C31-C34, C50-C52; `PropAbove` C52, C73; `PropOrder` C59 |
| Map | toml/src/map.rs, onevec.rs | `MapModel` | `MapSpec` | `PropMap` C35-C38, C53; `PropOrder` C53 |
| Ide | ide/src/check.rs, cargo.rs | `IdeModel` | `IdeSpec` | `PropIde` C39, C40, C54, C55 |
| Index | ide/src/index.rs, index/fetch.rs | `IndexModel` | `IndexSpec` | `PropIndex` C41-C43 |
| Messages | texts of toml/src/error.rs, semver/src/error.rs, ide/src/{cargo,error}.rs | `DiagModel` | `CliSpec` | `PropCli` C60-C63 |
| Tool | cli/src/main.rs, toml/src/util.rs | `CliModel`, `DebugModel` (standard output) | `CliSpec`, `MeanSpec` (what a document says), `DebugSpec` | `PropCli` C61-C65, `PropDebug` C81; `WriteSpec`, `PropWrite` C82 |
| Manifests | ide/src/check.rs, cli/src/main.rs | (those of Ide, Tool) | `ManifestSpec` | `PropManifest`, `PropManOrder`, `PropFine` C74, C75; `PropPre` C76, `PropLow` C77, `PropLines` C78, `PropLayout` C79, `PropGap` C80 |
| Plugin | nvim/src/lib.rs | `NvimModel` | `NvimSpec` | `PropNvim` C66 |
| Fetching | semver/src/serde.rs, ide/src/index.rs, index/fetch.rs | `FetchModel` | `FetchSpec` | `PropFetch` C67-C69 |
| Arguments | cli/src/main.rs | `MainModel` | `MainSpec` | `PropMain` C71 |
| Containers | toml/src/container.rs | `ContainerModel` | `ContainerSpec` | `PropContainer` C72 |
| Messages | toml/src/error.rs, semver/src/error.rs, ide/src/cargo.rs | `DiagModel` | `MsgSpec`, `MsgSpec2` | `PropMsg`, `PropMsg2` C70 |

## Modelling conventions

* A `&str` is a list of bytes (semver, index, common) or of unicode scalar values (toml, ide); both are `list N`.
  Where the two meet (a requirement in a manifest) the text is encoded with `utf8` of `Base.v`.
* `&mut` state becomes a returned value; `Result`/`Option` stay data; every path that panics in a
  debug build (`unreachable!`, `expect`, slice out of bounds / not on a char boundary, integer
  overflow with overflow checks) is the explicit value `Panic`.
* Where debug and release builds differ (integer overflow) the model takes the build profile as a
  parameter.
* Byte offsets and lines are unbounded `N`: inputs are assumed shorter than 4 GiB
  (`as u32` casts of offsets never truncate).  Numeric *data* (semver fields, TOML integers) has its
  machine width.
* Loops are structural recursion, or recursion on fuel where running out of fuel is `Panic`; the totality theorems
  (C20, C31, C35, C54) show that the fuel given is always enough.
* A theorem with the suffix `_partial` proves part of its property; `_refuted` shows a concrete input on which a
  wished-for property fails in the code.  The exact behaviour is then stated by another theorem.

## Plan per property

Proof method in brackets.

### Semver
* C01-C03 ordering: `Prerelease::cmp`, `BuildMetadata::cmp`, derived `Ord` of `Version` over byte
  strings [order laws by structural induction over the split segments; C02 against a spec that
  compares identifier lists by numeric value].
* C04-C06 versions: `parse_version` as a function on bytes with the char iterator; spec = the
  renderings of (spaces, numbers, identifiers) [iff by inversion/induction on the digit and identifier loops].
  C05 is false of the code (`parse_int` adds the last digit without a check): refuted; the partial theorem excludes
  exactly the numbers 4294967296..4294967299, and others say what happens for these in each profile.
* C07-C09 requirements: grammar as a rendering relation on abstract comparators with spacing;
  [soundness + completeness by induction over the comparator loop; display by computing the rendering].
* C10-C14 evaluation: `eval.rs` with `unreachable!` as Panic; intervals defined with the spec order.
* C15 error spans and what errors say (`error_says`): computed from every error path [case analysis with an iterator invariant that keeps the whole text read so far, and the field it ends in].
* C16 InlineStr: 64-bit words, little-endian byte image, heap as finite map address -> block with an
  allocator oracle returning fresh, even, non-null addresses [bit lemmas, invariant over operation sequences].

### Common
* C17-C19, C44, C45: direct.  `sort_by` is the standard library's stable sort: modelled as insertion sort.
* C56-C58: `display` over code points with panicking slices; the width function of the unicode-width crate is a
  parameter.  Specification: a relation between diagnostic, lines and output [induction over the lines of a span].

### Literals
* C25-C30, C46, C47: functions on the literal's characters with their error spans; grammar specs in `LitSpec`
  [iff by induction over the digit loops].  C26 (prefixed integers wrap silently) and C30 (garbage after an offset,
  underscores in years) are false of the code: exact accepted sets are proved, with refutations.  Binary rounding of
  floats is the standard library's and not modelled: a float is its exact decimal value.

### Lexer
* C20-C24, C48, C49: state machine over the rest of the input, position and storage [loop invariants; every run
  tiles the input (`LexSpec.tiles`), each tile has the shape of its kind].  A malformed string still has a `string_shape`
  and its text stems from the literal (`text_from`, C23_text_characters).  C48 and C49 are false of the code in one case each, which the
  theorems describe exactly.

### Parser
* C31-C34, C50-C52: recursive descent over the items that the lexer made, with the nesting depth; `ParseSpec` is a
  grammar of documents that denotes syntax trees [soundness by induction over the run with the invariant `goes`;
  completeness by induction over the derivation; unambiguity from both].  Places: `ParsePlace`.
  C59: `ParseMarks` lists the spans of a tree from left to right; `ParseOrder` proves for each parser function that its
  spans lie in order between where it started and where it stopped.  C53_error_places follows via `MapPlace`.
  C31 is false of the code for headers with a string spanning lines.  C52: invariant of the statement loop that says where the
  last statement ended and which comments of the read part have a line to themselves (`ParseAbove.v`), with `ParseKeep.v`: a
  value leaves alone what was stored before it.  C73 (values of arrays) is false of the code; proved of `mark_comments_above`.

### Map
* C35-C38, C53: insertion of one statement after another [invariant `wf_table` (every stored index resolves), relation
  `keeps`/`grows` between maps, and `MapDecl`: contents against `declared` of `MapSpec`, a relation on the statements
  alone].

### Ide
* C39, C40, C54, C55: `check` over the map.  `IdeSpec` describes places of dependencies, what their keys say and all
  diagnostics as an inductive relation on the map [one lemma per function, `does m bad P D`: it panics exactly if `bad`,
  otherwise its result satisfies `P` and its diagnostics are exactly `D`; invariants `wf_table` and `nice` of the map
  carry over from the parser].
* C41-C43: index addresses, feature members, crates from index lines; the JSON decoder of a line is an argument
  [order laws by an injective key; C41 by characterising character boundaries; C42 by permutation/sortedness].

### Messages and the command line tool
* C60: places of manifest diagnostics, from C55 (which diagnostics), C50/C53/C59 (where keys and values are) and C15
  (semver errors inside the requirement).  False for requirements with escapes or a newline after the quotes: the marks are off.
* C61-C63: `ctoml` composes everything [the exact condition for a crash is that some span is not between characters of
  a line (C56); C61_validate_succeeds gives a class of texts where this never happens].
* C64, C65: `MeanSpec.means` gives the value of a list of statements place by place, without the map
  [`MeanProofs`: the declarations of statements and of the syntax tree correspond, then C36/C37].  Together with C34:
  the tool is silent exactly on the documents of the grammar that are `consistent`, and prints what they say.

* C66: `check_toml` of the plugin over the lines of a buffer [induction over the lines relates positions of the joined text to lines and
  columns; the places are those of C51, C53 and C60].

* C67-C69: `fetch_crate` over an arbitrary request function, an arbitrary reader from lines to JSON values and an arbitrary
  test of addresses; derived `Deserialize` implementations over JSON values member by member [a `scan` of the members per
  field turns the fold over members into "present once / absent"; `FetchSpec.entry_of` says what a value describes].
* C71: `main` over a list of arguments, a function from paths to contents, six clock readings and a printer of values
  [`Path::file_name` against "what stands behind the last slash", then case distinction on the arguments].
* C72: histories of operations on a memory of arenas, buffers and containers [invariant `good`: a live container's arena
  is live, holds its text and belongs to no other container; counts of arenas, drops and failures].
* C70: the texts of `DiagModel` against a second list of texts, each next to the condition on the document under which it
  is right (`MsgSpec`, `MsgSpec2`) [case by case from C51, C46, C53, C15 and C55, which say what the error values mean].
* C74 order: `in_order` lists kind, target and name of the declared dependencies along the entries of the value; by induction over the loops.
* C74 crate: the crate of a dependency is that of its field `package`, else the name of its entry; from C74_dependencies.
* C74, C75: what a manifest declares and when it is fine, as predicates on the printed value of the document
  (`ManifestSpec`: no map, span or definition occurs) [C74: each field of the map against the field of the value, requirements by
  C07, then C39; C75: every problem of C55 against the condition it violates, both ways, then C64 and C62].
* C76: complete lines at the start of any text [lexer: the completeness run over their pieces, then soundness from the state between two
  pieces (LexPre); parser: completeness of lines, then nothing is taken back (ParsePre: `adds`); map: the map with only the first
  assignments of the last table grows into the final one (MapPre), and holds what the lines say (C36, C64)].
* C77: for the same continuations, everything reported marks a line below [an invariant "from line L on" of the lexer (LowLit, LowLex),
  the parser (LowParse; LowAdds: what it adds to the tree is below) and the mapping (LowMap: an error marks a name of what is being
  inserted; MapPre: what a table with fewer assignments reports is all that the longer one reports about them); starts from the
  states of C76].
* C78: `relined` on texts carried to the pieces (each lexeme with its line breaks changed is valid, separated as before and of the same
  kind; strings by induction over `body`), then the grammar over pieces that are alike [PropLines].
* C79: `C79_split` (uniqueness of the pieces by the parser's soundness and completeness, lines by `g_line_unique`), appending at the end
  of a document, and C76, C78; closure by induction [PropLayout].
* C80: replacing the layout in one gap keeps every grammar derivation: simultaneous induction over values, elements and fields (`gap_all`),
  then lines and documents; that the pieces of a document are unique is C34; `C80_blanks` builds the new pieces from the old [PropGap].
* C81: the text of a value inside k blanks of indentation is a fixed head, entries each behind 4 blanks and before a comma, and an end
  (`ind_body`); unique reading by induction over the value, told apart by the first character (`value_reads`) [PropDebug].
* C82: the pieces of the written text by induction over the value (`value_pieces`: valid, separated, a value of the grammar); every place of
  the value is declared exactly once (`in_says`, `says_nodup`, `below_says`), which gives consistency and meaning; then C65 [PropWrite].
* C83: what the parser consumes up to the line break is on the line (`OnLit`, `OnParse`: every error made on the way, by induction over the
  parser's depth and fuel); the loop gets past the line break with nothing consumed below (`line_loop`); then the completeness run of C34,
  generalised to start behind earlier statements and errors (`ParseCGen`).  Any text: the same for the lexer (`OnLex`, `LexCGen`, `LexLine`) [PropLine].
* C84: the mapper changes only the entry of an item's first key segment, in a way that depends on that entry alone (`MapFocus`: `focus`, by
  induction over the items), so the rest can be filtered away; what is left is read as in C73 (`MeanList`), and is what the statements about
  the key are (`AboutStmts`, specification `stmts_about`). With C83, refined to say that a line without brackets only extends the section it
  is in (`PropLine.goes_on`), a broken line in another section is filtered away too (`PropFocusLine`).

Not expressible: neovim FFI, the HTTP protocol and thread
scheduling, heap exhaustion, the text syntax of JSON.  These are outside the model.

## Trusted base

Coq's kernel (with its `vm_compute`), the faithfulness of the hand-written model to the cited lines, and the
conventions above.  Modelled: the files of the table above, except as follows.

* semver: `serde.rs` is modelled over JSON values (`FetchModel.v`); `display.rs` is modelled for requirements and versions.
* common: `UnicodeWidthStr::width` is an arbitrary function; formatting widths over 65535 (a panic in recent Rust) are not modelled.
* toml: the bump allocator is not modelled (references are the referenced values; in `ContainerModel.v` they are numbers
  of memory regions); of `util.rs`
  only `map_simple` and the `Debug` formatting of `SimpleVal` are; what `char::escape_debug` shows as it is and how `f64` is formatted are parameters.  The optional feature without `indexmap` is not.
* ide: the HTTP protocol, the text of JSON and which addresses `http_req` takes are arguments of the model; the derived
  `Deserialize` implementations are modelled as serde documents them (text is read before values, see `FetchModel.v`).
* cli: the file system and the clock are parameters; what a run that panics printed before is not modelled.
* nvim: the conversion of lines to text and of diagnostics to lua tables is modelled (`NvimModel.v`); reading the buffer and the FFI are not.

### Axioms

Every theorem in a `PropX.v` file is followed by `Print Assumptions`; all answer "Closed under the global
context".  `vcheck` also lists `Coq.ssr.ssrunder.Under_rel.*` of the standard library: these are module
type fields in a file that is loaded (not used) through `lia`; no theorem depends on them.
