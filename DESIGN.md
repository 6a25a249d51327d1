# Formal model of tomllib in Rocq/Coq 8.16.1

## 1. What is modelled

The Rust sources are read as text; every definition of the model carries a
comment citing the file and lines it transcribes.

| model file (`rocq/theories`) | Rust source | content |
|---|---|---|
| `Str.v` | `core::fmt`, `core::num` calls used by the crate | strings as lists of Unicode scalar values, UTF-8 byte length, decimal printing/reading |
| `Regex.v` | the regular expressions used through nom's `re_find!` | regex syntax + leftmost-first (Perl priority) backtracking matcher |
| `Types.v` | `src/types.rs` | `Date`, `Time`, `TimeOffset`, `Value`, `Children`, all constructors, `validate`, `Display` |
| `Ast.v` | `src/internals/ast/structs.rs` | syntax tree, `HashValue`, table helpers, `Display` |
| `State.v` | `src/internals/parser.rs` 14-43 | the `Parser` struct, `Parser::new`, the hash map |
| `Nom.v` | nom 1.2 macros | `IResult`, `chain!`, `alt!`, `many0!`, `many1!`, `complete!`, `tag_s!`, `take_while_s!`, `method!`/`call_m!` state threading |
| `Keys.v` | `src/internals/primitives.rs` 45-422, `objects.rs` 29-194 | key bookkeeping: full keys, map insertion, implicit tables |
| `Grammar.v` | `primitives.rs` 424-674, `objects.rs` 196-594, `util.rs`, `toml.rs` | all parsers |
| `Api.v` | `parser.rs` 45-425, `lib.rs` | `parse`, `get_value`, `get_children`, `set_value`, `Display` |
| `Cli.v` | `src/bin/tomlkit.rs` 132-667 | the command line tool: options, `process_document`, the commands, what is printed and which file is written |
| `Main.v` | `src/bin/tomlkit.rs` 103-130 | `main` after the options are read: names from stdin, several files, files that cannot be opened or written |
| `Args.v` | `src/bin/tomlkit.rs` 91-130, 146-205, 249-319 | `main` and `Options::new` with the options as the option parser answers them, missing arguments, `--help` |
| `Equal.v` | `src/types.rs`, `src/internals/ast/structs.rs` | the hand-written `PartialEq` impls |

Modelling decisions

* **Strings** are `list N` (Unicode scalar values).  `str::len` (bytes) is
  modelled by `blen` (UTF-8 length).  Slices at byte offsets occur only right
  after ASCII delimiters, so they are modelled on characters.
* **Panics** are the explicit result `Panic`; a `Fuel` result exists only to
  make recursion structural and is proved unreachable.
* **usize arithmetic** is unbounded `N` except at the one subtraction that can
  underflow on reachable states (`c.get() - 1` in `get_array_table_key`).  There
  the model has a boolean `ovf` (overflow checks on/off): with checks it
  panics, without it wraps modulo 2^64.  All theorems quantify over `ovf`.
* **Shared mutable cells.** `Rc<RefCell<TOMLValue>>` nodes are shared between
  the hash map and the syntax tree.  A cell is a node carrying an identity (a
  number handed out by an allocation counter).  Cloning the `Rc` copies the node
  including the identity; writing through the `RefCell` replaces the contents of
  every node with that identity in the whole parser state (`Api.write`).  The
  inner `Rc<RefCell<Array>>`/`Rc<RefCell<InlineTable>>` are never written after
  construction and are modelled as plain data.
* **Backtracking.** `method!`/`call_m!` thread the parser through every call,
  also through failing alternatives: side effects of a failed alternative
  persist.  The model's parsers return the new state also on `Error` and
  `Incomplete`.
* **HashMap** is an association list with unique-key update; iteration order is
  never observable through the modelled API.
* `f64` formatting (`Value::float`) is not modelled: `value_float` takes the
  already formatted string.
* Debug logging (`debug!`, `warn!`) is not modelled (with a logger at debug
  level some of these calls format values and could panic; see findings).
* **The command line tool.** A run is a function of the options, the commands,
  the path and the contents of the input file; its result is the text printed and
  the file written.  The option parser (`pirate`), the `csv` crate, the `{:?}`
  formatting of errors and the operating system are outside: the splitting of the
  arguments into fields and the `{:?}` texts are parameters (`Cli.ext`) over which
  all theorems quantify.  In `Cli.v` opening, reading and writing files succeeds;
  `Main.v` adds a file system in which some paths cannot be opened and some cannot
  be written.  Two different paths are two files, and a file that was created is
  written completely.
* The unimplemented error variants of `ParseError` are left out.

## 2. Trusted base

* The Coq 8.16.1 kernel (`vm_compute` is used for examples and witnesses).
* The reading of the Rust source into the model.
* nom 1.2 (source not in the repository; semantics of the macros from its
  documentation): `tag_s!` answers `Incomplete` when the tag is longer than the
  input, `complete!` turns `Incomplete` into `Error`, `alt!` takes the first
  non-`Error` alternative, `chain!`'s `?` makes an `Error` optional, `many0!`
  stops on `Error`, on a non-consuming success and at the end of input and
  propagates `Incomplete`; `many1!` always keeps its first result.
* Rust `regex` 0.1: leftmost-first matching; `\d` is the Unicode class Nd (table
  of Unicode 8.0 in `Regex.v`).
* Rust std: `usize::from_str`/`u64::from_str` accept an optional leading `+` and
  at least one ASCII digit and fail on overflow (64-bit target);
  `format!("{:0>N}")` pads on the left with zeros; `str::to_lowercase` (only its
  action on ASCII letters matters for `bool_from_str`).
* `Print Assumptions` of every theorem is printed by the `Prop*.v` files;
  the answer is "Closed under the global context" for all of them (table in
  section 6).

Not modelled: the option parser `pirate` and the table of options given to it
(`src/bin/tomlkit.rs` lines 33-89; `Args.v` starts from what it answers), `tests/`, logging,
input files and stdin that are not UTF-8, failing writes after a file was created, stack depth, memory exhaustion, mutation of the `Cell`s inside the
`Children` reference handed out by `get_children`.

## 3. The proof files

Specifications (vocabulary of the theorems; they use the data types of the model and
its public functions, not its helpers):

| file | content |
|---|---|
| `Spec.v` | calendar, digit strings, inductive grammars of integers, floats, strings, date-times; flat documents (`entry`, `item`), line counting, duplicates |
| `DocSpec.v` | documents of lines, `[table]` and `[[table]]` sections with values nested to any depth (`spells`), paths (`at_path`, `path_text`), addresses |
| `DotSpec.v` | documents with dotted headers `[a.b.c]` |
| `FaultSpec.v` | documents with wrong headers and repeated keys, and how each fault is reported |
| `CliSpec.v` | what the commands of tomlkit print, the labels, type names, updates and rejections |
| `TreeSpec.v` | documents with nested arrays of tables: what they say, and the order of headers the code gets right |
| `EqualSpec.v` | what equality of documents does not look at |
| `MainSpec.v` | names on stdin, a file processed alone, a file that ends the run, contents after several writes |
| `MixSpec.v` | values with mixed arrays and date-times that do not exist, and the list of their faults |
| `GramSpec.v` | the accepted grammar, relating each text to its tree |
| `WholeSpec.v` | values, lines and documents that have the form of TOML, and the expression that stands for a line |
| `TwinSpec.v` | what a document says apart from its layout, and parsers that answer alike |
| `KinSpec.v` | values of the same structure, and parsers whose answers have the same structure |
| `AgainSpec.v` | updates that keep the structure or the types of values |
| `NextSpec.v` | the last value given to a key, and scalars that are left alone |
| `ArgsSpec.v` | options and commands by their names, missing arguments and their messages |
| `OrderSpec.v` | the lines that errors name, expression by expression (C88) |
| `SibSpec.v` | arrays of tables side by side, their headers in any order (C17) |
| `CauseSpec.v` | what each kind of error is about, at any depth of a value, the errors of each expression, and the date-times of a text that do not exist (C89, C90) |
| `RankSpec.v` | the order of mixed arrays and errors of other kinds (C91) |
| `ReachSpec.v` | C92, C93: the value that a parsed value stands for, the key/values of a document with the names of their headers, what a document writes under a name |
| `KidsSpec.v` | C94: the tables of a document, written or implied; no key/value has the name of a table |
| `AboveSpec.v` | the part of a value that a name tells, and putting another value there |
| `StaySpec.v` | sequences of updates; lines that differ only in their value |
| `OutcomeSpec.v` | the first invalid scalar of a value, flat values, the first nested value |
| `WrittenSpec.v` | updates that keep the structure; what is printed for a key |
| `HeadSpec.v` | inputs whose headers have one name; line ends inside arrays; when a rest starts with a nested value |
| `CalmSpec.v` | inputs whose dotted headers do not go through arrays |
| `ApartSpec.v` | inputs in which no header continues the name of an array of tables |
| `SessSpec.v` | editing sessions: sequences of updates, their effect on the values and on the text |
| `RunSpec.v` | runs of the tool that set several keys |
| `PartSpec.v` | the parts of a date-time given as strings: widths, signs, when they name a real date, time and offset |
| `ShowSpec.v` | values whose printed text is TOML |
| `ClashSpec.v` | headers of arrays of tables whose name is in use |
| `AfterSpec.v` | what later text leaves of an error |
| `NumSpec.v` | the texts that begin with an integer or a float, with digits of any script |
| `OvfSpec.v` | parser and tool without overflow checks |
| `FoundSpec.v` | the keys found by taking children again and again from the root |
| `ApiSpec.v` | scalars, shapes, flat values, "nothing else changed" for set_value |

Proofs:

| file | content |
|---|---|
| `Facts` | strings, decimals, association lists |
| `TypesFacts`, `DateFacts`, `CtorFacts` | dates, constructors, key helpers; the date-time parser reads exactly the printed date-times |
| `RegexFacts`, `NumFacts`, `StringFacts` | the matcher is sound for its language and finds the longest match of the grammars of `Spec.v` |
| `NomFacts`, `ScalarFacts`, `LineFacts`, `FlatFacts` | combinators; the value parser on scalars; whole lines; flat documents |
| `RoundTrip` | every parser reads exactly the source text of the tree it returns |
| `Effects`, `ParseFacts`, `WalkFacts`, `DocFacts` | relations preserved by all parsers; fuel suffices; invariants walked through all parsers |
| `IdFacts`, `WriteFacts`, `SetFacts`, `ApiFacts`, `UpdateFacts` | identities of shared cells, writes through them, reachable parsers, set_value |
| `PathFacts`, `NestFacts`, `SectFacts`, `LookFacts`, `RereadFacts` | nested values, sections, lookups, printing and reading again after updates |
| `WholeFacts` | such documents are read to their end from any state |
| `TwinFacts` | two runs of the parser side by side, on texts that differ in layout |
| `KinFacts` | two runs of the parser side by side, on texts that differ in layout and values |
| `AgainFacts` | the map after updates is the one that reading the printed text builds |
| `NextFacts` | runs of the tool that only ask depend on the answers of the parser only |
| `ArgsFacts` | the command line: a run with all arguments is a run of `Main.main`; without one nothing is written |
| `OrderFacts` | the errors that each parser adds are in order and within the lines it counts (C88) |
| `SibFacts` | such documents are among those of C60 |
| `CauseFacts` | the errors that each parser adds are about what it reads, the keys of the map stay, and each wrong date-time is reported once (C89, C90) |
| `RankFacts` | errors are pushed only so that mixed arrays come first (C91) |
| `ReachFacts` | C92: an entry of the map with a value stays, unless a key or table is refused (`persist`, `calm`); what a key/value writes (`keyval_put`); headers (`std_head`); the loop over expressions (`loop_told`) |
| `ExactFacts` | C93: which keys of the map get a value (`adds`), through values, headers and the loop over expressions |
| `KidsFacts` | C94: places and their keys (`tx`, `tx_inj`); entries with their children through values (`vkid`), key/values and headers (`good_line`, `good_head`, `ait_good`, `std_good`); the whole map of a document (`good`, `kids_good`) |
| `TabSetFacts` | tables are never inside values or in the document; set_value on their names |
| `OwnFacts` | names whose values have a part in common begin with one another, for every document |
| `FrameFacts` | the same through updates; set_value changes nothing at unrelated names |
| `AboveFacts` | what an accepted update does to the values above and below its key |
| `LinkFacts` | in an accepted document the names of parts lead into the value, and updates keep it so |
| `ResizeFacts` | in an accepted document every part of a value is found under its name, and names of no part have no children |
| `StayFacts` | trees that print as TOML stay such trees under updates |
| `OutcomeFacts` | when set_value accepts, refuses and panics |
| `WrittenFacts`, `EditFacts` | every value in the map is a value of the document, and stays so |
| `SafeFacts`, `CalmWalk`, `CalmFacts`, `ApartFacts`, `TotalFacts`, `CountFacts`, `ReportFacts` | absence of panics, get_value's panics, line counting |
| `DotFacts`, `FaultFacts`, `ClashFacts` | dotted headers, recovery after wrong headers and repeated keys, arrays of tables with a name in use |
| `AfterFacts` | entries of the map that no later text changes |
| `OvfFacts` | runs with overflow checks are runs without |
| `NumWide` | the number regexes on strings with digits of any script |
| `BlindFacts` | what is read does not depend on the state of the parser |
| `CliFacts` | the command line tool |
| `TreeView`, `TreeStack`, `TreeActs`, `TreeFacts` | arrays of tables inside arrays of tables |
| `EqualFacts`, `MainFacts` | equality; runs over several files |
| `MixFacts` | which places of a value and of a document have faults, and which of them are reported |
| `LayFacts`, `SessFacts`, `SessDocs`, `RunFacts` | layout of documents around the values; editing sessions; runs of the tool |
| `PartFacts`, `ShowFacts`, `FoundFacts` | string constructors; printed values; walks through documents |
| `GramFacts` | everything the parsers consume belongs to the grammar |
| `PropTypes`, `PropFlat`, `PropParse`, `PropDoc`, `PropApi`, `PropNest`, `PropDocs`, `PropSafe`, `PropDot`, `PropFault`, `PropCli`, `PropTree`, `PropEqual`, `PropMain`, `PropGram`, `PropMix`, `PropSess`, `PropRuns`, `PropCtor`, `PropShow`, `PropFound`, `PropClash`, `PropAfter`, `PropOvf`, `PropBlind`, `PropNum`, `PropArgs` | the theorems of the manifest, each with an `Example` that meets its hypotheses, and `Print Assumptions` |
| `Tests` | the repository's own test documents run through the model by `vm_compute` (tests, not proofs) |

No file states an axiom, a parameter, a module type or a functor, and no kernel
check is switched off.  The axiom scan of the build lists seven names
`Coq.ssr.ssrunder.Under_rel.*`; they are declared by a module of the standard
library that is loaded with `Lia`'s dependencies and no theorem uses them (see
the last column of section 6).

## 4. Method

* Everything is proved for all inputs, by induction over lines, tokens, values
  or fuel; `vm_compute` occurs only in examples and in refutations, where one
  witness suffices.
* Refutations: where the code does not do what the documentation claims, the
  claim is kept in `properties.jsonl`, a theorem `..._refuted` exhibits a
  witness, and the strongest true part is proved as `..._partial`.
* Wrong programs: `seeded/LOG.jsonl` lists edits of the model in the style of
  realistic bugs, with the theorems that stopped to hold and the theorems that
  were added when a claim survived.

## 5. Findings

Defects of the code found while modelling it; the number of the property that
has the witness is given where there is one.

1. The leftover text in `Partial`/`PartialError` is that of the parse before (C03).
2. `a = {}` parses, but printing it panics (C05); printing a parser that has
   parsed nothing panics (C45); printing an empty `Value::Array` or
   `Value::InlineTable` panics (C42).
3. `get_value` of a declared `[table]` panics (C28).
4. `set_value` of a declared table with a scalar answers true and changes
   nothing visible (C29); with an array it drops the lookups below it (C95).
5. Setting an array or inline table to a scalar panics (C23); refusing an
   invalid scalar for an array drops its elements from the lookups (C22);
   restructuring to nested values panics (C23).
6. After an inline table is replaced, old keys stay listed (C25); a restructured
   inline table is printed with spaces inside the braces (C26).
7. `validate` checks only a prefix of integers and floats (C36) and lets
   multi-line strings contain their closing quotes (C39).
8. Date and time fields may start with `+` (C31, C43); a fraction that does not
   fit 64 bits is rejected (C32).
9. Line ends inside arrays and inline tables are not counted, and those of
   multi-line strings inside an array that is then not read are counted (C07).
10. A mixed array is not reported after an error of another kind, nor when the name
    reported last is a prefix of its name: `ab` after `a`, an array around or inside
    the reported one (C10).
11. `[[foo]]` followed by `[[foobar]]` is stored as `foo[0].foobar` (C17).
12. `a = 1` followed by `[[a]]` or `[[a.b]]`; `[[a]]`, `[b]`, `[a.c]`; `[[a]]`, `[b]`,
    `[[a.c]]`; and `[a]`, `[a]`, `x = [2]`, `[x.y]` panic (C06).
13. `[a]` with key/value lines followed by `[a.b]` is reported as an invalid
    table (C49).
14. Elements of arrays below a wrong header and of repeated arrays are entered
    into the map (C50).
15. tomlkit: `--set-value` on a document with an empty inline table truncates the
    file and then panics (C54); `1x` is accepted as an integer and written (C55);
    the `Z` of a date-time is dropped (C56); `--print-doc` after a failed
    `--set-value` prints a partially updated document (C57); `--strip-quotes` also
    strips quotes of the contents (C58); `--quiet` has no effect (C59);
    `--has-value` and `--has-children` panic with too few labels (C52).
16. Nested arrays of tables: `[[f]]`, `[[f.v]]`, `[[f.w]]` panics; `[[f]]`,
    `[[f.v]]`, `[f.t]`, `[[f.v]]` overwrites `f[0].v[0]`; `[[f]]`, `[f.t]`, `[f2]`
    stores the last table at `f[0].f2`; `[[f]]`, `[f.t]` lists `t` at the top;
    `[[f]]`, `[t]`, `[[f]]` reuses `f[0]`; `[[f]]`, `[[f]]`, `[[g]]`, `[[f]]`, `[[f.h]]`,
    `[[f.h]]` reuses `f[2].h[0]` (C60).
17. `==` on documents ignores the kind of a string and the comments and line ends
    of inline tables (`structs.rs:701` compares a field with itself; C63).
18. tomlkit with several files and `--output-file` keeps only the last result (C64).
19. `[1 2]` and `{a=1 b=2}` are accepted, and decimal digits of any script are
    digits of numbers (C67). A digit above U+10FFF ends a comment inside an array,
    so that the rest of the comment is read as values (C67).
20. `a` and `"a"` are different keys: keys are stored with their quotes (C69).
21. `[[a]]` followed by `[a]` is accepted, and the keys below a wrong `[[a]]` are
    stored in `a[0]` (C75).
22. `[[a]]`, `x = 1`, `[b]`, `[[a]]`, `[[a.x.y]]` removes `a[0].x` without a report (C76).
23. A parser that is used again keeps the keys, errors, line count and last header of
    the earlier text (C78).
24. The elements of an array or inline table that is then not read stay in the map: after
    `a = [1, !` the key `a[0]` is found and can be set, though nothing of it is printed (C79).
25. `[1<newline>, 2]`, `\t` in multi-line basic strings, hexadecimal digits in lower case and
    characters above U+FFFF in strings are rejected (C81), characters above U+10FFF in
    comments too (C44).
26. tomlkit: `--array-end` and `--array-separator` without argument are reported as `separator` (C87).
27. `[a.b.c]`, `[a]`, `b = [1]` is accepted without an error; `a.b` is then the array, and its
    children are those of the table (C94).

## 6. Properties, theorems and assumptions

`Print Assumptions` was run on each theorem below; the last column is its answer (`closed` = "Closed under the global context").

| property | status | theorems (file) | assumptions |
|---|---|---|---|
| C01 Lossless print of a fully parsed document | proved | `C01_lossless` (PropParse) | closed |
| C02 Printed text is exactly the parsed prefix; Full means everything was parsed | proved | `C02_prefix` (PropParse) | closed |
| C03 Partial results report the unparsed remainder | partial | `C03_leftover_refuted` (PropParse); `C03_leftover_partial` (PropParse) | closed |
| C04 Parsing always terminates and never answers Failure | proved | `C04_terminates` (PropParse) | closed |
| C05 Printing a parsed document never panics | partial | `C05_show_refuted` (PropParse); `C05_show_partial` (PropParse) | closed |
| C06 Parsing never panics | partial | `C06_no_panic_partial` (PropSafe); `C06_one_name_partial` (PropSafe); `C06_apart_partial` (PropApart); `C06_no_panic_refuted` (PropParse) | closed |
| C07 Reported line number is the line where parsing stopped | partial | `C07_line_refuted` (PropParse); `C07_later_refuted` (PropReport); `C07_line_partial` (PropSafe); `C07_bounds_partial` (PropReport) | closed |
| C08 A Full parse contains no invalid date-time | proved | `C08_dates_valid` (PropDoc); `C08_invalid_reported` (PropDoc) | closed |
| C09 A Full parse contains no mixed-type array | proved | `C09_uniform_arrays` (PropDoc) | closed |
| C10 Every mixed array is reported under its own key | partial | `C10_mixed_reported_refuted` (PropDoc); `C10_prefix_refuted` (PropMix); `C10_mixed_partial` (PropDoc); `C10_key_partial` (PropMix) | closed |
| C11 Errors in the result are exactly the parser's accumulated errors | proved | `C11_errors_reported` (PropParse); `C11_errors_kept` (PropParse) | closed |
| C12 Lookup of key/value lines | proved | `C12_flat_lookup` (PropFlat) | closed |
| C13 Duplicate keys: first value wins, every repetition is reported | proved | `C13_duplicates` (PropFlat) | closed |
| C14 Children of the document root | proved | `C14_root_children` (PropFlat); `C14_first_keys` (PropFlat) | closed |
| C15 Array elements are addressable by index | proved | `C15_array_index` (PropNest) | closed |
| C16 Table sections are addressable by table.key | proved | `C16_sections` (PropNest) | closed |
| C17 Sibling arrays of tables are independent | partial | `C17_prefix_refuted` (PropNest); `C17_siblings_partial` (PropNest); `C17_any_order_partial` (PropSib) | closed |
| C18 Setting an unknown key is refused without effect | proved | `C18_unknown_refused` (PropApi) | closed |
| C19 Setting a scalar over a scalar | proved | `C19_scalar_set` (PropApi) | closed |
| C20 A scalar update touches only the value's own characters | proved | `C20_scalar_text` (PropApi); `C20_places` (PropApi); `C79_change_partial` (PropWritten) | closed |
| C21 Same-structure updates keep all formatting | proved | `C21_same_structure` (PropApi) | closed |
| C22 A refused update leaves the document unchanged | partial | `C22_refused_refuted` (PropApi); `C22_refused_partial` (PropApi) | closed |
| C23 Any value can be changed to any other valid value | partial | `C23_any_value_refuted` (PropApi); `C23_any_value_partial` (PropApi); `C23_terminates` (PropApi); `C80_outcome` (PropOutcome) | closed |
| C24 Replacing an array by a flat array of another length | partial | `C24_resize_refuted` (PropApi); `C24_resize_partial` (PropApi); `C24_documents_partial` (PropDocs); `C24_accepted_partial` (PropResize) | closed |
| C25 Children after replacing an inline table | partial | `C25_table_children_refuted` (PropApi); `C25_table_children_partial` (PropApi); `C25_documents_partial` (PropDocs); `C25_accepted_partial` (PropResize) | closed |
| C26 Default formatting of a restructured value | partial | `C26_format_refuted` (PropApi); `C26_format_partial` (PropApi) | closed |
| C27 Updates to different keys commute and the last write wins | proved | `C27_commute` (PropApi); `C27_last_wins` (PropApi) | closed |
| C28 get_value is total on the keys of a document | partial | `C28_total_refuted` (PropApi); `C28_panics_partial` (PropSafe); `C28_documents_partial` (PropSafe); `C28_accepted_partial` (PropResize) | closed |
| C29 A successful update is visible | partial | `C29_visible_refuted` (PropApi); `C29_visible_partial` (PropApi); `C79_change_partial` (PropWritten) | closed |
| C30 Date validation is the proleptic Gregorian calendar | proved | `C30_date_gregorian` (PropTypes) | closed |
| C31 Date and time fields accept only decimal digits | partial | `C31_only_digits_refuted` (PropTypes); `C31_date_fields_partial` (PropTypes); `C31_offset_fields_partial` (PropTypes); `C31_time_fields_partial` (PropTypes) | closed |
| C32 Time and offset validation | partial | `C32_time_validate_refuted` (PropTypes); `C32_time_validate_partial` (PropTypes) | closed |
| C33 Integer date constructors | proved | `C33_date_from_int` (PropTypes); `C33_datetime_from_int` (PropTypes); `C33_datetime_frac_from_int` (PropTypes); `C33_datetime_zulu_from_int` (PropTypes); `C33_datetime_full_zulu_from_int` (PropTypes); `C33_datetime_offset_from_int` (PropTypes); `C33_datetime_full_from_int` (PropTypes) | closed |
| C34 datetime_parse and Display are inverse | proved | `C34_datetime_parse_sound` (PropTypes); `C34_datetime_parse_complete` (PropTypes); `C34_datetime_valid` (PropTypes) | closed |
| C35 Value::int is always a valid TOML integer | proved | `C35_value_int` (PropFlat) | closed |
| C36 validate accepts an Integer or Float only if it is one | partial | `C36_numbers_whole_refuted` (PropTypes); `C36_integer_partial` (PropTypes); `C36_float_partial` (PropTypes); `C36_integer_any_partial` (PropNum); `C36_float_any_partial` (PropNum) | closed |
| C37 Basic strings: validation and reading back | proved | `C37_basic_string_ok` (PropFlat); `C37_basic_string_reads` (PropFlat) | closed |
| C38 Literal strings: validation and reading back | proved | `C38_literal_string_ok` (PropFlat); `C38_literal_string_reads` (PropFlat) | closed |
| C39 Multi-line strings: a validated value reads back | partial | `C39_ml_string_refuted` (PropFlat); `C39_ml_string_ok` (PropFlat); `C39_ml_string_partial` (PropFlat) | closed |
| C40 bool_from_str | proved | `C40_bool_from_str` (PropTypes); `C40_bool_show` (PropTypes) | closed |
| C41 Key combination helpers | proved | `C41_child_keys` (PropTypes); `C41_child_count` (PropTypes); `C41_helpers` (PropTypes); `C41_injective` (PropTypes) | closed |
| C42 Printing a Value never panics | partial | `C42_show_value_refuted` (PropTypes); `C42_show_value_partial` (PropTypes) | closed |
| C43 Printed scalar values are read back after an update | partial | `C43_sign_refuted` (PropNest); `C43_update_partial` (PropNest) | closed |
| C44 Any Unicode text is allowed in comments | partial | `C44_comment_refuted` (PropParse); `C44_comment_partial` (PropParse) | closed |
| C45 Printing works on any parser | partial | `C45_show_refuted` (PropParse); `C45_show_partial` (PropApi) | closed |
| C46 Every path inside a value is addressable | proved | `C46_paths` (PropNest); `C46_index_text` (PropDocs) | closed |
| C47 Children of tables and arrays of tables | proved | `C47_tables` (PropNest) | closed |
| C48 Arrays and inline tables written by set_value are read back | proved | `C48_array_update` (PropNest); `C48_inline_update` (PropNest) | closed |
| C49 Dotted table headers | partial | `C49_dotted_refuted` (PropDot); `C49_dotted_partial` (PropDot) | closed |
| C50 Wrong headers and repeated keys are reported and do no harm | partial | `C50_faults_refuted` (PropFault); `C50_faults_partial` (PropFault) | closed |
| C51 get-value prints the values | proved | `C51_get_value` (PropCli); `C51_missing` (PropCli); `C51_documents` (PropCli) | closed |
| C52 has-value and has-children answer for every key | proved | `C52_answers` (PropCli) | closed |
| C53 get-children prints the children | proved | `C53_children` (PropCli); `C53_missing` (PropCli) | closed |
| C54 Files are written only after every update succeeded | partial | `C54_kept_refuted` (PropCli); `C54_writes` (PropCli); `C54_refused` (PropCli); `C54_success` (PropCli); `C54_rejected` (PropCli); `C54_count` (PropCli); `C51_missing` (PropCli) | closed |
| C55 What one run sets the next run gets | partial | `C55_set_get_refuted` (PropCli); `C55_set_get_partial` (PropCli); `C55_readable_partial` (PropCli) | closed |
| C56 Type names of set-value | partial | `C56_types_refuted` (PropCli); `C56_types_partial` (PropRuns); `C56_accepted` (PropRuns) | closed |
| C57 print-doc prints the resulting document | partial | `C57_failed_refuted` (PropCli); `C57_print_doc` (PropCli) | closed |
| C58 strip-quotes gives the contents of strings | partial | `C58_strip_refuted` (PropCli); `C58_strip_partial` (PropCli) | closed |
| C59 quiet suppresses the success messages | partial | `C59_quiet_refuted` (PropCli) | closed |
| C60 Nested arrays of tables are indexed as TOML defines | partial | `C60_siblings_refuted` (PropTree); `C60_reopened_refuted` (PropTree); `C60_returned_refuted` (PropTree); `C60_lost_refuted` (PropTree); `C60_prefix_refuted` (PropTree); `C60_top_refuted` (PropTree); `C60_nested_partial` (PropTree) | closed |
| C61 Equality of public values is exact | proved | `C61_values` (PropEqual); `C61_datetimes` (PropEqual) | closed |
| C62 Equality of documents is an equivalence | proved | `C62_equivalence` (PropEqual) | closed |
| C63 Documents that compare equal have the same text | partial | `C63_text_refuted` (PropEqual); `C63_exact_partial` (PropEqual); `C63_text_partial` (PropEqual); `C63_documents_partial` (PropEqual) | closed |
| C64 Files named on stdin are processed one after the other | proved | `C64_several` (PropMain); `C64_in_place` (PropMain); `C64_output_last` (PropMain) | closed |
| C65 The first refused file ends the run | proved | `C65_stops` (PropMain); `C65_alone` (PropMain) | closed |
| C66 Only set-value changes files | proved | `C66_changes` (PropMain); `C66_names` (PropMain) | closed |
| C67 Only TOML is accepted | partial | `C67_only_toml_refuted` (PropGram); `C67_comment_refuted` (PropNum); `C67_only_toml_partial` (PropGram) | closed |
| C68 A date-time that does not exist is reported with its place | proved | `C68_dates_named` (PropMix) | closed |
| C69 A quoted key and a bare key are different keys | proved | `C69_quoted_apart` (PropFlat) | closed |
| C70 An editing session: many updates, then print and read again | partial | `C70_session_refuted` (PropSess); `C70_sections_partial` (PropSess); `C70_dotted_partial` (PropSess); `C70_nested_partial` (PropSess) | closed |
| C71 One run of the tool that sets several keys | partial | `C55_set_get_refuted` (PropCli); `C71_sections_partial` (PropRuns); `C71_dotted_partial` (PropRuns); `C71_nested_partial` (PropRuns) | closed |
| C72 Date-times built from their parts given as text | proved | `C72_date` (PropCtor); `C72_datetime` (PropCtor); `C72_datetime_frac` (PropCtor); `C72_datetime_zulu` (PropCtor); `C72_datetime_full_zulu` (PropCtor); `C72_datetime_offset` (PropCtor); `C72_datetime_full` (PropCtor) | closed |
| C73 A printed value is TOML and is read back as itself | proved | `C73_text` (PropShow); `C73_print_read` (PropShow); `C73_reprint` (PropShow) | closed |
| C74 Walking through a document reaches exactly its keys | partial | `C74_unreachable_refuted` (PropFound); `C74_dangling_refuted` (PropFound); `C74_sections_partial` (PropFound); `C74_dotted_partial` (PropFound); `C74_nested_partial` (PropFound) | closed |
| C75 One name is not both a table and an array of tables | partial | `C75_array_after_partial` (PropClash); `C75_array_first_refuted` (PropClash); `C75_key_refuted` (PropClash) | closed |
| C76 Later text does not change what was read | partial | `C76_later_text_partial` (PropAfter); `C76_element_refuted` (PropAfter) | closed |
| C77 Overflow checks do not change results | proved | `C77_same_parse` (PropOvf); `C77_same_document` (PropOvf); `C77_same_run` (PropOvf) | closed |
| C78 A parser can be used again | partial | `C78_same_tree_partial` (PropBlind); `C78_values_refuted` (PropBlind) | closed |
| C79 Every value that is found is written in the document | partial | `C79_written_partial` (PropWritten); `C79_change_partial` (PropWritten); `C79_unread_refuted` (PropWritten) | closed |
| C80 What set_value ends in | proved | `C80_outcome` (PropOutcome); `C80_accepted` (PropOutcome); `C80_cases` (PropOutcome) | closed |
| C81 A text of the form of TOML is read to its end | partial | `C81_whole_partial` (PropWhole); `C81_comma_refuted` (PropWhole); `C81_tab_refuted` (PropWhole); `C81_hex_refuted` (PropWhole); `C81_plane_refuted` (PropWhole) | closed |
| C82 Updates leave a document in the form of TOML | proved | `C82_stay` (PropStay) | closed |
| C83 Layout has no influence on what is read | proved | `C83_layout` (PropTwin) | closed |
| C84 Values have no influence on what else is read | proved | `C84_values` (PropKin) | closed |
| C85 What is printed after updates is read again as it is in memory | proved | `C85_again` (PropAgain); `C85_kindred` (PropAgain) | closed |
| C86 What one run sets the next run gets, on every document | proved | `C86_next_run` (PropNext) | closed |
| C87 The command line of tomlkit | partial | `C87_options` (PropArgs); `C87_no_change` (PropArgs); `C87_changes` (PropArgs); `C87_message_partial` (PropArgs); `C87_message_refuted` (PropArgs); `C87_command` (PropArgs) | closed |
| C88 Errors are listed in the order of their lines | proved | `C88_order` (PropOrder); `C88_within` (PropOrder); `C88_plain_refuted` (PropOrder) | closed |
| C89 No error without a cause, and no key is lost | proved | `C89_causes` (PropCause); `C89_full` (PropCause); `C89_repeated` (PropCause); `C89_keys_stay` (PropCause) | closed |
| C90 Each date-time that does not exist is reported exactly once | proved | `C90_once` (PropOnce); `C90_full` (PropOnce) | closed |
| C91 Errors of mixed arrays come before all others | proved | `C91_first` (PropRank); `C91_new` (PropRank); `C91_silent` (PropRank) | closed |
| C92 Every key/value of an accepted document is found under its name | proved | `C92_found` (PropReach); `C92_distinct` (PropReach); `C92_clash` (PropReach) | closed |
| C93 What get_value finds is exactly what the document writes | proved | `C93_exact` (PropExact); `C93_same` (PropExact); `C93_one` (PropExact) | closed |
| C94 The children of a name are exactly those that the document writes | proved | `C94_values` (PropKids); `C94_tables` (PropKids); `C94_only` (PropKids); `C94_apart_refuted` (PropKids) | closed |
| C95 What set_value does with the name of a table | proved | `C95_text` (PropTabSet); `C95_scalar` (PropTabSet); `C95_invalid` (PropTabSet); `C95_array` (PropTabSet); `C95_inline` (PropTabSet); `C95_outcome` (PropTabSet); `C95_elsewhere` (PropTabSet) | closed |
| C96 An update changes nothing at unrelated names | proved | `C96_values` (PropFrame); `C96_children` (PropFrame); `C96_sequence` (PropFrame) | closed |
| C97 An update shows above and below its key, at its place | proved | `C97_above` (PropAbove); `C97_below` (PropAbove); `C97_agree` (PropAbove); `C97_shows` (PropAbove) | closed |

### What is missing from the partial claims

* **C03**: False as stated: a fresh parser always reports an empty leftover. Proved: the leftover reported is always the one stored by the parse before, while the true remainder is stored in the parser.
* **C05**: False as stated (`a = {}` panics on print). Proved: after any parse the print completes exactly when the document holds no empty inline table.
* **C06**: False as stated: witnesses with and without overflow checks. Proved for every input whose array-of-tables headers have one name (with overflow checks not the name of a key) and whose dotted table headers do not go through a name that is an array or array of tables anywhere in the input; this includes every input whose headers have one name. Proved too for inputs with dotted array-of-tables headers when no header continues the text of such a header, the names before the last of a header are not keys of arrays, those of an array-of-tables header not keys at all, and with overflow checks its last name is not a key either.
* **C07**: False as stated: line ends inside arrays are not counted, and line ends of multi-line strings in an array that is then not read are counted. For every input, the reported line plus the line ends between elements is not before the line where parsing stopped and not after the last line; it is exactly that line unless the unparsed rest starts with a key and an array or inline table and has three quotes in a row.
* **C10**: False as stated: after an error of another kind mixed arrays are not reported (C10_mixed_reported_refuted), nor when the name of the array reported before is a prefix of the name (C10_prefix_refuted); C91 says for every input that this is always so. Proved: a document with a mixed array always reports an error, a MixedArray error unless errors of another kind are reported (C10_mixed_partial); in documents of key/value lines and table headers without other errors and without such prefixes the errors are exactly the mixed arrays with their full names and lines (C10_key_partial).
* **C17**: False as stated: [[foobar]] directly after [[foo]] is stored as foo[0].foobar (C17_prefix_refuted). Proved for any number of arrays whose headers come in any order, with tables in their elements, when no name continues that of the header before (C17_any_order_partial); missing besides these: tables at the top between headers of one array, where elements are lost (C60_lost_refuted).
* **C22**: False as stated: refusing an invalid value on an array drops its elements from the lookup. Proved: the text never changes, lookups change at most below the key, and not at all if the key has no children.
* **C23**: False as stated: setting an array or inline table to a scalar panics. Proved: for values of the same structure and for all flat arrays and flat inline tables of valid scalars, over any old value; C80_outcome says exactly when it panics.
* **C24**: False as stated in a corner case (a key that was a table before). Proved in full when the children recorded for the key are Count(n) and no element from n on is known; C24_documents_partial shows that this is so for every array line of every DocSpec document, and that get_children and lookups give the new elements there. C24_accepted_partial shows it for every array, at any depth, of every accepted text without arrays of tables in which no key/value has the name of a table (that is the corner case). See also C96/C97 for the names around the key.
* **C25**: False as stated: old keys stay listed. Proved: the list is the old one followed by the new keys, hence exact when no old key disappears and the order is kept; C25_documents_partial says the same for every inline-table line of every DocSpec document, and C25_accepted_partial for every inline table, at any depth, of every accepted text without arrays of tables in which no key/value has the name of a table.
* **C26**: False as stated for inline tables (a space inside the braces). Proved: the exact format of restructured flat arrays (as documented) and of flat inline tables.
* **C28**: False as stated: get_value of a declared table panics. The partial theorems show these are the only keys on which it panics after a parse, and exactly which keys they are for DocSpec documents. C28_accepted_partial: in every accepted text without arrays of tables (and without a key/value that has the name of a table) it answers for every key that is not the name of a table or of the root.
* **C29**: False as stated: a declared table accepts a scalar that is not printed. Proved for keys that hold a scalar of the document; by C79_change_partial those are all keys with a scalar after a parse whose unread rest does not start with a key and a nested value. C95 says what happens to a declared table.
* **C31**: False as stated: a leading plus sign is accepted. Refuted by witness; exact characterisation proved for all strings.
* **C32**: False as stated: a fraction above 2^64-1 is rejected. Exact characterisation with that bound proved.
* **C36**: False as stated: only a prefix is checked, and decimal digits of other scripts pass. Exact characterisation proved for ASCII strings, and for all strings with digits of any script.
* **C39**: False as stated: a body ending in or containing the closing quotes is accepted by the constructor. Proved: exactly which bodies are accepted, and reading back for every accepted body in which the closing delimiter does not occur before the end.
* **C42**: False as stated: an empty array or inline table panics. Proved: printing completes exactly when there is none inside.
* **C43**: False as stated for date-times built by the from_str constructors with a sign in a field (C43_sign_refuted). C43_update_partial: proved for everything else in the claim, and also for digit date-times, integers, floats and multi-line strings that are spelled correctly, on documents with sections and nested values.
* **C44**: False as stated above U+10FFF. Proved: for every comment without control characters the document is parsed Full exactly when no character is above U+10FFF.
* **C45**: False as stated: a parser that has parsed nothing panics. Proved for every reachable parser: printing completes exactly when something was parsed and no inline table of the document is empty.
* **C49**: False as stated: a header inside a table that already has key/value lines is reported as InvalidTable (C49_dotted_refuted). Proved when every header comes before the key/value lines of the table that directly contains it (parents_empty); other ancestors are free.
* **C50**: False as stated when the value below a wrong header or of a repeated key is an array: its elements can be looked up (C50_faults_refuted). Proved for scalar values there and any values elsewhere (arrays on one line, because line ends inside arrays are not counted, C07); these other values may have mixed arrays and invalid date-times, whose errors are described as well.
* **C54**: Everything but the last sentence is proved. That one is false: set-value on a document with an empty inline table empties the file and then panics (C54_kept_refuted); C54_writes shows that this is the only way a file gets other contents than the updated document, and C54_success that it does not happen for documents that can be printed.
* **C55**: False as stated: 1x is accepted as an integer and the file can no longer be read (C55_set_get_refuted). Proved for values that are spelled correctly (all basic and literal strings, booleans and date-times; integers, floats and multi-line strings in TOML syntax) on DocSpec documents. C86 says it for every text of the form of C81 that is read without errors, for scalars that keep their types.
* **C56**: False as stated for date-times with offset Z, which is dropped (C56_types_refuted). C56_types_partial says for every run that writes a file which values were stored: those of the type named that have the text given, except for that Z. C56_accepted: every type is known under both names and a valid text is stored.
* **C57**: The last part is false: after a failed set-value the updates before the failing one are printed (C57_failed_refuted). The rest is proved for documents that can be printed (C05).
* **C58**: False as stated: quotes at the ends of the contents are stripped too (C58_strip_refuted). Proved for contents that do not begin or end with a quote.
* **C59**: False: the option is never looked at, so Success is always printed.
* **C60**: False as stated: a second array inside the same element panics (C60_siblings_refuted); returning to an array after a table overwrites its first element (C60_reopened_refuted, C60_lost_refuted); after returning to an array with two elements from another array, arrays in its elements lose theirs (C60_returned_refuted); a table whose name starts with that of an open array goes into its element (C60_prefix_refuted); tables inside elements are also listed at the top (C60_top_refuted). Proved for documents that open arrays along the open ones or go back to one at the top from another (along_edge) and declare every table named by a header before it; the list at the top is given exactly, and is the right one when table headers have one name.
* **C63**: False as stated: the kind of a string and comments and line ends in inline tables are not compared (C63_text_refuted). C63_exact_partial says exactly what is compared; the claim is proved for documents without strings and without comments and line ends in inline tables.
* **C67**: False as stated: commas may be missing and decimal digits of other scripts are accepted (C67_only_toml_refuted), and such a digit can end a comment inside an array (C67_comment_refuted). Proved for inputs without digits of other scripts, for the grammar of GramSpec.v, which differs from TOML in optional commas, in line ends and comments inside inline tables and in the hexadecimal digits of escapes.
* **C70**: False as stated: after a value has got another shape the children of the old one are still listed in memory (C70_session_refuted). Proved for the documents of C15, C49 and C60 without empty inline tables: updates at any path that keep the shape of the value, and updates of whole values of lines to arrays and inline tables of scalars of another shape; in memory the places inside a value are covered as long as its shape was kept, after reading again always. C85 lifts the updates that keep structure and types to every text of the form of C81.
* **C71**: False as stated: a text that only begins with an integer is accepted and the file cannot be read again (C55_set_get_refuted). Proved for the documents of C15, C49 and C60 without empty inline tables and for values that are spelled correctly, at any path inside the values. C86 says it for every text of the form of C81 that is read without errors, for scalars that keep their types.
* **C74**: False as stated: some documents have values that are in no list of children (C74_unreachable_refuted), and the root may list a name that is no key (C74_dangling_refuted). Proved for the documents of C15, C49 and C60; for those of C60 with a table header of more than one name, that every key is found.
* **C75**: Proved for an array of tables after a table or a key of that name, in documents with other faults and with any text following. False as stated in the other order: the table is accepted; the keys below the wrong header of an array of tables are stored (C75_array_first_refuted); with overflow checks the header panics if the key has a value without children (C75_key_refuted).
* **C76**: Proved for documents of key/value lines and dotted table headers, with faults, followed by any text. False as stated for elements of arrays of tables, whose keys a later header removes without a report, and for the number of children of an array (C76_element_refuted); an error of a wrong table may get more keys.
* **C78**: False as stated: a parser that is used again stores keys below the last header of the earlier text, keeps its keys and errors and goes on counting its lines (C78_values_refuted). Proved for the document read, its printed text, the text left over and the number of lines, from any two states.
* **C79**: False as stated: the elements of an array or inline table that is then not read are found and can be set, but are not printed. Proved for all texts whose unread rest does not start with a key and an array or inline table, in particular all that are read in full, and all sequences of updates that keep the structure or are refused. Updates that change the structure are not covered.
* **C81**: Proved for all parser states and all lines. False for some texts that the specification of TOML also allows: a comma on the line after its element, the escape t in multi-line strings, hexadecimal digits in lower case, characters above U+FFFF in strings (the refuted theorems).
* **C87**: Everything is proved but for the name in the message: --array-end and --array-separator without argument are reported as separator (C87_message_refuted). The splitting of the command line by the crate pirate is not modelled; all theorems hold for whatever it answers.
