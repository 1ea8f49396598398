# Formal model of torao/ebnf — design

Source of truth: `/repo` (Rust, pinned).  Nothing from `/repo` is built or run;
the model in `rocq/theories` is a hand translation, function by function, each
definition carrying the file and lines it models.

## Trusted base

1. **Coq's kernel** (8.16.1), including its virtual machine (`vm_compute` is used in
   Examples and in the witnesses of `_refuted` theorems), and the build of
   `_CoqProject` with its flags unchanged.
2. **Assumptions.**  Below every property theorem stands `Print Assumptions`; each of
   them answers `Closed under the global context`: no axiom is used, neither of the
   standard library nor of any other library.  There is no `Admitted`, no
   `Axiom`/`Parameter`, no section-less `Variable`, no functor and no module type.
   Everything external is a variable that the theorems quantify over (point 4).
3. **The translation** from Rust to Gallina, i.e. that the model files below say what
   the cited lines say.  `Tests.v` replays the expectations of the repository's own
   unit tests on the model (they are tests of the translation, not proofs).
4. **External code**, present as universally quantified parameters:
   * the converter of an encoding (`encoding_rs::Decoder`) is an arbitrary
     `codec`; C23, C28, C29 assume `incremental` (SpecDecode.v): a call converts a
     prefix of the bytes given, says how many bytes it read, and makes progress when
     its output buffer is full.  The instances `wide` and `utf8` show the assumption
     can be met;
   * the table of encodings (`Encoding::for_label`) and the file system (`File::open`)
     are arbitrary functions (C69, C70); for UTF-8, C69 assumes `prompt` (SpecOpen.v):
     no finished character is held back;
   * the regular-expression engine is an arbitrary function from the text peeked at
     to an optional match range;
   * special-sequence scanners supplied by the user are arbitrary terminating programs
     over the reader they are given: they read, ask for the location and for the end,
     compare, peek, skip, place marks, go back to and release their own marks, and
     answer (`sprog` in Graph.v).  They do not call `read_chars`, whose answers depend on
     how the reader is filled, and do not use marks of others;
   * a byte stream is an arbitrary list of fragments followed by the end of the file
     or a failure; a character source is an arbitrary list of chunks followed by the
     end or a failure.  The sizes of the read buffers (1024, 4096) only restrict which
     lists of fragments occur, so the theorems cover them.
5. **Specifications**: the `Spec*.v` files, which are meant to be read.  They use from
   the model only data types, the names of characters (`c_star` …), API entry points
   that are being called, `loc_ltb` (the order of locations, itself characterised by
   C04), and the displays `show_term`, `show_factor`, `show_primary` and
   `scanner_symbol` (the first three are characterised by C18).

## Conventions of the model

* A `char` is its Unicode code point (`N`), a `String`/`Vec<char>`/`&[char]` is
  `list N`.  A `Location` is the record (name, lines, columns); `u64` counters
  are unbounded `N`, and so are the `i32` depths of comments and brackets; Narrow.v and
  NarrowMachine.v repeat the functions concerned with integers of their width, and C80
  says when the two agree.
* `Result<T>` is `res T` with `Ok`, `Err` (location + structured message),
  `Panic` (every `unwrap`/`expect`/`assert!`/indexing/underflow that the code can
  hit is an explicit value) and `OutOfFuel` (only for fuelled loops).
* `format!` messages are constructors of `msg` with their arguments; Message.v renders
  them (`render`, `show_error`).  Which characters beyond ASCII `{:?}` writes without
  escaping is a parameter (`plain`) of the definitions and theorems about that text.
* `&mut self` methods return the new state together with the result, also on
  `Err`, so that histories continuing after an error can be stated.
* A `(slice, position)` pair is modelled by the suffix of the slice at that
  position (plus the slice itself where its last element is inspected).
* `debug_assert!` is modelled under a flag (debug build / release build) in the reader
  and the machine; theorems about them hold for both builds unless they say
  otherwise.  Lex.v models the one in `build_syntax_rule` as in debug builds, LexRelease.v
  as in release builds; C81 relates the two.
* Recursion of the code that is not structural takes fuel.  For the lexer the fuel
  is computed from the input and proved sufficient.  For `Parser::parse` it is a
  parameter: a result is the same for every larger fuel, and "never returns" means
  `OutOfFuel` for every fuel (in the code: stack overflow or an endless loop).
* `HashMap` is an association list in which `insert` shadows; iteration order is never
  observed by the code.

## What is modelled

| file | lines | model | notes |
|---|---|---|---|
| src/lib.rs | 16-52 | Scanners.v | the example of the documentation |
| src/lib.rs | 147-172, 364-368 | Base.v `error`, `msg`; Message.v | every message and its text |
| src/lib.rs | 182-282 | Syntax.v, Decode.v, Read.v, Ast.v | `Syntax` and its lookups, `Display` |
| src/lib.rs | 287-352 | Base.v | `Location`, both orders |
| src/lib.rs | 370-448 | Tree.v | `AST` |
| src/lib.rs | 455-491 | Ident.v | identifier helpers |
| src/lex/tokenizer/mod.rs | all | Tokenizer.v | initial capacity has no effect |
| src/lex/mod.rs | 35-81 | Lex.v `parse_str`, Decode.v `lex_parse`, Open.v `parse_file`, `parse_stream` | |
| src/lex/mod.rs | 102-183 | Lex.v | `Lexer` |
| src/lex/mod.rs | 185-324 | Ast.v | rule trees and their `Display` |
| src/lex/mod.rs | 326-744 | Lex.v | recursive descent |
| src/validity/mod.rs | all | Syntax.v | |
| src/io/mod.rs | 1-369 | Io.v | `CharReader` defaults, `UnreadBuffer`, `MarkableReader`, `BufferedCharReader` |
| src/io/mod.rs | 327-333, 408-425, 505-530 | Open.v | constructors that take a label |
| src/io/mod.rs | 388-603 | Decode.v | `CharDecodeReader`, `Decoder` |
| src/io/mod.rs | 14-199 | OwnReader.v | the traits `CharReader` and `MarkableCharReader`, for any implementation |
| src/io/mod.rs | 305-369 | OwnSource.v | `MarkableReader` over any `CharReader` |
| src/parser/graph.rs | all | Graph.v | compilation |
| src/parser/machine.rs | all | Machine.v, MachineSteps.v | the machine |
| src/parser/mod.rs | all | Graph.v, Machine.v, Scanners.v | events, reactions, scanners, `Parser`; the regex engine (`Regex::new`, `find`) is a parameter |

Not modelled: the texts of operating system errors, `{:?}` of rules and steps
(derived `Debug`), memory and stack limits, `usize` overflow of indices,
`CharReader`s of users that give nothing before the end or go on after a failure (others are in
OwnReader.v and OwnSource.v), scanners of users that
call `read_chars` or use marks that are not their own, concurrency (the library has none), the `test` modules, `src/main.rs`
(prints a greeting).

## Files

* Model: Base Ident Tokenizer Ast Lex Syntax Io Graph Machine Decode Read Tree
  Message Open; Narrow NarrowMachine (the same with machine integers); LexRelease (the
  lexer of a release build); Tests.
* Text and identifiers: SpecText TextFacts PropText.
* Lexical level: SpecTok TokFacts TokRun; calls of the lexer: SpecLex LexRun PropLex, limits: SpecLimit
  LimitFacts PropLimit, which mistake is
  noticed: SpecFirst FirstFacts PropFirst.
* Grammar of EBNF: SpecGram GramFacts GramText GramFinal SpecTree TreeFacts PropGram;
  with locations: SpecSpot SpotFacts PropSpot;
  display: ShowFacts PropShow; concatenation, locations, failures: SpecConcat
  ConcatFacts SpecLoc LocFacts PlaceFacts SpecStick StickFacts PropConcat; what errors
  point at: SpecFault FaultFacts DescentFacts MisfitFacts StopFacts PropFault;
  texts that panic: SpecTrip TripFacts PropTrip;
  where a parse stops: SpecHalt HaltFacts PropHalt.
* `Syntax`: SpecSyntax SyntaxFacts PropSyntax.
* Readers: SpecIo IoFacts PropIo, SpecGauge GaugeFacts PropGauge; decoding: SpecDecode DecodeFacts PropDecode
  SpecUtf8 GarbleFacts PropRead; files and labels: SpecOpen OpenFacts PropOpen.
* Parsing: SpecParse (big-step meaning of rules), Pure PureFacts (the machine on
  positions instead of readers), ParseFacts CodeFacts RunFacts RunComplete EvFacts,
  SpecMachine MachineFacts PropParse; events, languages and panics: SpecEvents
  EventFacts LangFacts PanicFacts PropEvents; termination: SpecTotal TotalFacts
  PropTotal; errors: SpecError ErrorFacts PropError; failing
  sources: FailFacts PropFail; fuel: FuelFacts; corresponding
  rules: SpecLike LikeFacts LikeUse PropLike; LL(1) rules: SpecLL LLFacts LLCheck
  PropLL; rules decided by more than one character: SpecExact ExactFacts ExactUse ExactCheck
  PropExact; marks: SpecMark MarkFacts PropMark; derivations: SpecDeriv DerivFacts
  ProdCheck PropDeriv; kept and lost events: SpecTrace TraceFacts PropTrace; forwarding: SpecForward PropForward; the reader after a parse: SpecLeft LeftFacts PropLeft; places of errors: SpecViable ViableFacts PropViable; laws of the notation:
  SpecLaws LawFacts LawUse LawGlue PropLaws; refactoring: SpecInline InlineFacts PropInline;
  places of texts: SpecMove MoveFacts PropMove; names of sources: SpecName NameFacts
  NameUse PropName; depth of a parse: SpecDepth DepthFacts PropDepth; number of events:
  SpecCount CountFacts PropCount; loops: SpecLoop LoopFacts PropLoop; number of instructions:
  PureSteps SpecWork WorkFacts WorkApi PropWork, for LL(1) rules SpecLinear LinearFacts PropLinear;
  deciding left recursion: DecideLeft PropDecide.  Exponential bound and endless parses: SpecCap CapFacts
  FuelNeed PropCap.  What a parse leaves in the reader: SpecHold HoldFacts PropHold.  What reading an EBNF text costs: LexCost (model) LexCostFacts LexCostFamily PropLexCost.  How deep its calls go: SpecNest LexDepth (model) LexDepthFacts LexDepthFamily PropLexDepth.  One derivation for each text: SpecOnly OnlyFacts TidyCheck PropOnly.  Readers of one's own: OwnReader (model) SpecOwn OwnFacts OwnUse PropOwn.  Sources of one's own: OwnSource (model) OwnRel SpecSource SourceFacts PropSource.  Exchange of scanners: SpecSwap SwapFacts PropSwap.  Trees made of events: SpecFold FoldFacts PropFold.  Rules that grow: SpecGrow GrowFacts PropGrow.  Parts of a parse: SpecPart PartFacts PropPart.  Parts exchanged: SpecEdit EditFacts PropEdit.
* Machine integers: SpecNarrow NarrowFacts NarrowIo NarrowRun PropNarrow.
* Debug and release builds: SpecBuild BuildFacts StuckFacts BuildIo BuildParse PropBuild.
* The example of the documentation, constructors of scanners: SpecDoc DocFacts DocParse PropDoc.
* Messages: SpecMessage MessageFacts ReadBack ClearFacts PropMessage.
* `AST`: PropAst.

## How the main results are obtained

* **Lexing (C05-C17, C47-C53, C62).**  `read_next` is sound, complete and stable under
  extension of the buffer with respect to the relation `lexes` (a text cut into valid
  tokens with a legal next character and exact locations).  Hence the state between
  calls is determined by the text so far, which gives fragmentation independence,
  limits and reset by invariants over call histories.  The recursive descent is
  related both ways to an inductive grammar on token runs.  For C62 a failing descent
  yields closing tokens that complete what it has read, and shows that no continuation
  is read past the reported token; unclosed brackets are refuted by a stack of open
  brackets.  C85 relates the panic of the descent both ways to a grammar of the runs whose
  first mistake it is.
* **Readers (C24-C27).**  The unread buffer refines a cursor (text, position, marks)
  by a representation invariant over arbitrary histories.
* **Parsing (C30-C46).**  On a reader reachable through the API the machine is
  simulated by a pure interpreter on positions (text only), the compiled graph
  represents the rules, and the interpreter agrees both ways with a big-step relation
  `ev` on rule trees which knows nothing of graphs, marks or buffers.  Statements
  through `ev` are for complete texts; C57 carries them over to failing sources by a
  simulation between the source and an arbitrary continuation of its text.
  C58-C60 are instances of one simulation of `ev` between trees of the same shape
  with related locations and names (`parse_like`).
* **LL(1) rules (C63).**  By induction on a derivation of the word: the alternatives
  tried in vain return (no left recursion), do not halt, and if they matched, the word
  they matched (soundness, C32) would begin with a character that is excluded.  The
  condition is stated with words of the language; LLCheck.v computes first and follow
  sets and proves that they bound those words.
* **Stops (C86).**  `ev … (Halt h)` holds if and only if the closure of the relation between a
  construct and what is tried next within it reaches a construct that halts by itself.
* **Rules decided by any look-ahead (C84).**  The same induction, with the whole text that
  follows instead of its first character.  With exceptions, soundness needs that an exception
  is matched by the whole of each of its words, which is completeness for the exception; as
  exceptions use no exceptions, that comes first.  ExactCheck.v describes texts by the sets
  of their first k characters.
* **Derivations (C66, C67).**  A match of `ev` is a derivation once the events of
  abandoned bodies are left out.  For LL(1) rules the induction of C63 is carried out
  along an arbitrary derivation with its events; a body that cannot begin with the next
  character reads nothing and leaves no tokens, provided every construct has a word.
* **Places of errors (C68).**  By induction on `ev`: an attempt that fails or halts has
  read something that a word of the construct begins with; parts not yet reached are
  filled with any of their words.
* **Bytes (C69, C70).**  A reader over a decoder is bisimilar to a reader over the chunks
  of text the decoder gives (`live_alike`), and a parse depends on the text alone (C30).
* **Laws and refactoring (C71-C74).**  Each law is shown for `ev` on one node; a
  simulation (`sim_ev`) carries it through any context and any recursion of the rules,
  for events equal (C71) or any events (C72, C74).  Cutting what follows groups is an
  instance of the laws, which lifts the condition on groups from C32, C66 and C68 (C73).
* **Depth (C77).**  `DepthFacts.v` bounds the fuel of `prun` directly.  A node takes a
  constant from what follows it and needs, for itself, its size plus what the rules it
  tries need; a rule tried at the same place is lower in the order that the absence of left
  recursion gives (at most as many links as rules), any other is tried on a shorter text.
  Fuel counts calls and loop rounds, so the bound is one on the recursion depth of the
  code; it says nothing on the number of steps, which may be exponential (no memoization).
* **Instructions (C94-C97).**  MachineSteps.v counts along `run`; the count is carried to `ev` by a
  relation `work` with the same rules.  For C95 the induction follows `ev`: an attempt that fails
  without reading costs at most a constant, one that reads pays a constant for each character, and
  one character of look-ahead together with productivity ensures that what fails after reading makes
  the whole parse fail.  DecideLeft.v (C96) computes least fixed points over the rules.  The bound of
  C97 needs no condition on the rules: within one place of the text no rule is open twice in a parse that
  ends (its work would be more than itself), so the places and the rules open there bound the nesting.
  FuelNeed.v relates the fuel of the model to the number of instructions.
* **Marks left (C98).**  Identifiers of marks are positions, so of two marks at one place the newer one is
  released first; this is why a `CharsScanner`, whose own mark is at the place of the machine's, leaves
  the machine's.  The simulation of PureFacts.v keeps any marks it is given, so once a mark is set where
  the parse begins and is not released, it is there at the end.
* **Cost of reading (C99).**  LexCost.v has one cost function for each function of src/lex, which follows
  its loops and takes its results from the model.  The bound is an amortised one: `fee` prices the tokens,
  and a call pays with the tokens it takes.  Counted are characters looked at, walked over by
  `move_location` and moved by `drain`, tokens looked at, and tokens moved by `new_tokens.remove(0)`;
  not counted are copies of token texts into strings, growth of vectors and debug assertions.
* **Depth of reading (C100).**  LexDepth.v has one depth function for each function of the recursive descent
  of src/lex/mod.rs; the specification is the depth of brackets of the tree (SpecNest.v).  That a limit of
  the buffer bounds neither names nor brackets is shown by a family of texts of one-character tokens, through
  the grammar of C13 and the harmlessness of limits of C07.
* **One derivation (C101).**  SpecOnly.v has derivations with events and with exceptions taken away; two of the
  same text are compared by induction on the first, using the conditions of C84 to show that they part
  nowhere.  The events of the parse come from the big-step relation of SpecParse.v as in C66.
* **Readers of one's own (C102).**  OwnReader.v has the two traits as records of functions over a state of any type,
  the default methods, and the machine over them; the library's reader is one instance and its parse is proved to
  be the one of Machine.v.  SpecOwn.v has the laws; a simulation (OwnFacts.v) relates each step to a cursor over the text.
* **Sources of one's own (C103).**  OwnRel.v: the machine over two readers is related if their methods are, for
  any relation closed under the ways programs are put together.  The relation used collects the pieces a source gives
  during a run; put in front of any division of the rest they are chunks with which the library does the same.
* **Exchange of scanners (C104).**  One induction over the semantics of SpecParse.v for two configurations, with the
  relation between errors as a parameter: equality, or equality of the places.
* **Trees made of events (C105).**  The fold of events into `AST` is part of the specification.  It is proved equal to
  a relation by the structure of nested events, over which everything else is an induction.
* **Rules that grow (C106).**  A derivation with the old rules is followed by one with the new rules (induction over
  the derivation); C84 says that the text is accepted, C101 that its events are those of any derivation.
* **Parts of a parse (C107).**  What a Begin and its End enclose comes from a derivation of the rule (induction over the
  derivation, and the events without their empty pairs).  A derivation stays one where other text follows it, if no
  choice has to be undone there (`carried`); so it can be moved from the whole text to the part alone, and from the
  items to the list.
* **Parts exchanged (C108).**  Induction over the derivation that the events come from: the part is one of its
  subderivations, and another derivation of the same rule may take its place, moved to the location it is at now
  (`moved_said`).  What exceptions take away is not touched, as they are not around rules.
* **Events (C78).**  `CountFacts.v` counts the events of `ev` by characters read.  What reads
  nothing gives at most a constant (rules tried in turn at one place nest at most as deep as
  there are rules); what reads something pays for its surroundings by a constant for each
  character.  Failed brackets must leave nothing (`tidy`), otherwise events may double with
  each character (`C78_linear_refuted`).
* **Returning (C79).**  `SpecLoop.v` says which rule bodies a parse tries and where (`asks`,
  `leads`), without fuel; a parse `loops` when it comes back to the same body at the same
  place.  `LoopFacts.v` shows that a call from which no such cycle can be reached has an
  outcome (the bodies and places below a state are finitely many, so the relation is well
  founded) and that a call with an outcome reaches none (induction on `ev`).
* **Integers (C80).**  A reader state is `thin K L`: its stream position can reach at most
  `K`, its line and column plus what lies ahead at most `L`, and the same holds of every
  mark and what lies ahead of it.  Every reader call keeps this (NarrowIo.v), hence every
  step of the parser (NarrowRun.v); the reader of an exception gets no more text than lay
  ahead of the mark.  For the lexer, a call moves the location over at most the text given
  so far (after an error the text is read again), so numbers stay below text times calls.
* **Places and names (C75, C76).**  C75 relates two runs of `ev` whose positions differ by
  a fixed shift, so only programs of user scanners need a condition (`hands_on`).  C76
  relates two runs of the tokenizer, the lexer, the decoder and the checks of a syntax
  function by function; every state reached holds locations that correspond.

* **Theorems for programmatic rules** (`SyntaxRule` values not read from a text)
  need `no_dollar`, since `$` prefixes the internal labels of entry points.

## Mutation tests

`seeded/LOG.jsonl` lists the wrong programs tried: each edits one definition of the
model in a scratch copy, and records the theorems that stopped being provable.  Edits
that do not change any claim are recorded as such.


## Properties, theorems and what they say

Status and theorem names are those of MANIFEST.json; the statements are in the
`Prop*.v` files, each with a comment in words and an `Example` that meets the
hypotheses.  A `_refuted` theorem exhibits a concrete input on which the property
as first stated fails for the model (and, by reading, for the code).

* **C01** Identifier normalisation is canonical — proved. For every string.
  Theorems: `C01_normalized_is_canonical`, `C01_words_unique`.
* **C02** Identifier keys ignore gaps and nothing else — proved. For every string and its (unique) word decomposition.
  Theorems: `C02_key_ignores_gaps_only`.
* **C03** Locations count lines and columns of the text read so far — proved. Line and column counters are unbounded naturals in the model.
  Theorems: `C03_location_counts`.
* **C04** Location ordering is a total order that agrees with reading order — proved. For every three locations.
  Theorems: `C04_location_order`.
* **C05** Lexing is independent of how the text is fragmented — proved. Every text, every sequence of push/push_str calls (empty pieces included).
  Theorems: `C05_chunk_invariance`.
* **C06** The error reported does not depend on fragmentation — partial. False as stated: C06_error_identity_refuted gives a text with a grammatical error before a lexical one whose reported error depends on the cut. Proved instead: identical outcome for every text without lexical error, identical lexical outcome always, and at most two outcomes per text. The exact condition is C88.
  Theorems: `C06_error_identity_refuted`, `C06_error_identity_of_tokenisable`, `C06_at_most_two_outcomes`, `C06_lexical_error_identity`.
* **C07** A buffer limit only rejects texts whose tokens are too long — partial. False as stated: the limit counts the pushed fragment too (witness ';;;' with limit 2). Proved instead: with fragments of at most k characters and tokens of at most m-k characters the limit m never matters. The exact condition is C87.
  Theorems: `C07_limit_rejects_only_long_tokens_refuted`, `C07_limit_harmless_for_small_fragments`.
* **C08** A buffer limit bounds buffering and never changes an accepted result — proved. Every history of calls, failed ones included.
  Theorems: `C08_limit_bounds_buffer`, `C08_limited_result_is_unlimited_result`.
* **C09** Lexing never panics — partial. False as stated: 'a=(3);' panics with an out-of-range index, and going on after a grammatical error trips a debug assertion, and flush after a lexical error trips an assertion kept in release builds. Proved instead: lexing any fragments with any limit terminates, and the only panic is the index panic, on texts with an integer directly (up to trivia) before a closing bracket; exactly which texts is C85.
  Theorems: `C09_lexing_never_panics_refuted`, `C09_flush_after_error_panics_refuted`, `C09_flush_after_lexical_error_panics_refuted`, `C09_only_panic`.
* **C10** reset() restores a fresh lexer after any history — proved. Every history before and after.
  Theorems: `C10_reset_is_fresh`.
* **C11** push(char) and flush() never lose a rule — proved. Every state reachable by successful calls and reset.
  Theorems: `C11_push_loses_no_rule`, `C11_flush_loses_no_rule`.
* **C12** Accepted syntax is ISO 14977 syntax (soundness) — proved. Every text; the derived tree is the returned tree, locations included.
  Theorems: `C12_parse_sound`.
* **C13** All grammatical syntax is accepted (completeness) with the right tree — proved. Every derivation; the location of an empty sequence is not fixed by the grammar.
  Theorems: `C13_parse_complete`, `C13_unambiguous`.
* **C14** Tokenisation is lossless, maximal-munch and position exact — proved. Both directions, every text and every cut into pieces.
  Theorems: `C14_tokenisation`, `C14_cut`.
* **C15** Gaps and comments between symbols are irrelevant — proved. Every insertion or removal of trivia around a symbol; more generally any two texts with the same symbols.
  Theorems: `C15_same_symbols`, `C15_trivia_irrelevant`.
* **C16** The final terminator is optional — proved. Every accepted text.
  Theorems: `C16_last_terminator_optional`.
* **C17** Lexer output is well formed — proved. Every accepted text, every node.
  Theorems: `C17_rules_well_formed`.
* **C18** Displaying rules and parsing them back gives the same rules — partial. False as stated: '(3* )' is displayed as '(3*)', which is not readable. Proved instead: the round trip holds exactly when no group is displayed with a star before its closing parenthesis.
  Theorems: `C18_display_round_trip_refuted`, `C18_display_round_trip_iff`, `C18_display_round_trip_trees`, `C18_unreadable_display`.
* **C19** Duplicate definitions are rejected, others are not — proved. Every rule list; a rule with a non-canonical identifier panics instead (see C22).
  Theorems: `C19_duplicate_error`, `C19_only_errors`.
* **C20** A Syntax never refers to an undefined identifier — partial. False as stated: references nested in brackets are not checked ('a=(b);' is accepted). Proved instead: acceptance is exactly canonical distinct names with all top-level references defined, and every reported reference is undefined.
  Theorems: `C20_no_undefined_reference_refuted`, `C20_accepted_iff`, `C20_undefined_error`.
* **C21** Rule lookup is faithful — proved. Every accepted rule list and query.
  Theorems: `C21_lookup_faithful`.
* **C22** Building a Syntax from lexed rules never panics — proved. Every lexer output.
  Theorems: `C22_new_never_panics`.
* **C23** Reading a syntax from a byte stream is independent of read sizes — proved. Every byte sequence and fragmentation, for every converter meeting `incremental` (assumption about encoding_rs, met by the instance C28_assumption_is_met).
  Theorems: `C23_byte_stream_parse`, `C23_byte_stream_is_fragments`.
* **C24** MarkableReader behaves as a cursor over the text — proved. Release build, every history, source and chunking, also failing sources; the debug build differs only by C25.
  Theorems: `C24_reader_is_cursor`.
* **C25** The reader's internal assertions never fire — partial. False as stated: mark, read, unmark, read panics in a debug build. Proved instead: that debug assertion is the only possible panic, only in debug builds and only after an unmark. The exact condition is C89 (C89_stops).
  Theorems: `C25_reader_assertions_never_fire_refuted`, `C25_reader_assertions`, `C25_reader_no_unmark`.
* **C26** A released mark stays invalid — partial. False as stated: identifiers are reused, a stale mark can move the reader to another place. Proved instead: a released mark is rejected until mark() hands out the same identifier again. The exact condition is C89 (C89_identifiers).
  Theorems: `C26_released_mark_stays_invalid_refuted`, `C26_released_mark`.
* **C27** Look-ahead does not consume — proved. Every history, chunking and argument.
  Theorems: `C27_lookahead`, `C27_lookahead_safe`.
* **C28** Decoder output is independent of fragmentation — proved. Every byte sequence, fragmentation and output-buffer schedule, for every converter meeting `incremental`.
  Theorems: `C28_decoder_fragmentation`, `C28_stopping_decoder`, `C28_assumption_is_met`, `C28_assumption_is_met_by_utf8`.
* **C29** CharDecodeReader delivers the complete decoded stream — partial. False as stated: the decoder is never flushed, an incomplete last character is lost. Proved instead: the reads give exactly the text determined by the bytes, without what the converter adds at the end of the stream.
  Theorems: `C29_reader_complete_refuted`, `C29_reader_complete_up_to_flush`, `C29_reader_is_a_source`.
* **C30** Parsing depends only on the text — proved. For any graph and any two readers reachable through the API (any chunks, any marks).
  Theorems: `C30_text_only`.
* **C31** Success means the whole input was matched — proved. Errors and results related to a big-step semantics of the rules, both ways, for complete texts.
  Theorems: `C31_result_means_all_read`, `C31_left_over_is_error`, `C31_answers`, `C31_decided`, `C31_fuel`.
* **C32** Accepted inputs belong to the language of the grammar — partial. False: terms after a group that stands by itself are never tried (refuted on S=('a'|'b'),'c'). Proved for rules where such groups only come last, with scanners that do not forward. C73 says what is left out otherwise.
  Theorems: `C32_accepted_in_language_refuted`, `C32_accepted_in_language`.
* **C33** The first matching definition wins — proved. C33_parse_takes_first is the statement about Parser::parse (release build).
  Theorems: `C33_first_definition`, `C33_unique`, `C33_parse_takes_first`.
* **C34** Events are well nested — proved. For scanners that emit nested events; the scanners of the library do.
  Theorems: `C34_events_nested`, `C34_library_scanners`.
* **C35** Token events spell the input — partial. False: tokens of an abandoned option stay in the events (refuted). Every token is in the text at its location; the tokens spell the text when bodies of options and repetitions leave no events on failure. The exact condition is C90 (C90_tokens).
  Theorems: `C35_tokens_in_text`, `C35_tokens_spell_refuted`, `C35_tokens_spell`.
* **C36** Empty begin/end pairs are removed — partial. The filter drops exactly adjacent pairs in one pass; pairs that become empty by that stay (refuted). Each empty pair left held only empty pairs. The exact condition is C90 (C90_pairs).
  Theorems: `C36_filter`, `C36_no_empty_pair_refuted`, `C36_empty_pair_source`.
* **C37** Parsing always returns — partial. False for left-recursive rules: a rule whose first definition begins with itself never returns (refuted on S=S,'a'|'b'). Proved for every syntax without left recursion: on complete texts for all scanners, on failing sources for scanners that do not forward. C79 gives the exact condition, left-recursive rules included; C77 bounds the depth.
  Theorems: `C37_direct_left_recursion`, `C37_parse_returns_refuted`, `C37_parse_returns`, `C37_parse_returns_any_source`.
* **C38** Repeated sequences cannot loop without progress — proved. Rounds counted up to the u32 limit of the loop counter.
  Theorems: `C38_livelock`, `C38_livelock_stops_parse`, `C38_no_endless_loop`.
* **C39** Repetition counts are exact and greedy — proved. Counts below 4294967295, which the code treats as unbounded; events of a failed optional attempt may be kept, which is C35.
  Theorems: `C39_exact_count`, `C39_optional`, `C39_greedy`.
* **C40** Exceptions remove exactly the fully matching texts — proved. Both directions; the exception is tried on exactly the text matched, from the same location.
  Theorems: `C40_exception_match`, `C40_exception_fail`.
* **C41** The deepest error is reported for a choice — proved. The last one is about Parser::parse.
  Theorems: `C41_furthest_failure`, `C41_all_fail`, `C41_parse_reports_furthest`.
* **C42** Parsers exist exactly for defined rules — proved. For rules without a dollar sign at the start of a name, which all rules read from a text satisfy.
  Theorems: `C42_parser_exists`, `C42_no_dollar_from_text`.
* **C43** Parsing with a valid Syntax never panics — partial. False for a=(b); since references inside brackets are not checked. Proved when every reference at any depth is defined; exactly when a parse panics is C86.
  Theorems: `C43_no_panic_refuted`, `C43_no_panic`, `C43_no_panic_text`.
* **C44** CharsScanner matches the longest allowed run — proved. On every reader reachable through the API.
  Theorems: `C44_chars_scanner`.
* **C45** RegExScanner consumes exactly the match — proved. The regex engine is an arbitrary function; with a mark outstanding, as during a parse.
  Theorems: `C45_regex_scanner`.
* **C46** Forwarding behaves like a reference — partial. False: the failure of the target is ignored (refuted theorem). Proved: where the target matches or stops the parse, so does the forwarding sequence. The exact condition is C91 (C91_forward).
  Theorems: `C46_forward_is_reference_refuted`, `C46_forward`, `C46_forward_dollar`.
* **C47** Rules concatenate — proved. Rules of the first text exactly; rules of the second moved by [after], up to the locations of empty sequences (which may name the pseudo text <unknown>, see C53).
  Theorems: `C47_rules_concatenate`, `C47_rest_accepted`, `C47_after`.
* **C48** Syntax-tree locations point at the construct — proved. Text of the construct at its location, and the whole token run derives it.
  Theorems: `C48_locations`, `C48_whole_construct`.
* **C49** AST::token spells the leaves — proved. Every tree.
  Theorems: `C49_token_spells_leaves`, `C49_every_walk`, `C49_leaf_or_node`.
* **C50** Reading errors of the stream surface as errors — proved. Every stream prefix and failure point.
  Theorems: `C50_read_failure_located`, `C50_buffered_text_survives`, `C50_stream_failure`.
* **C51** Lexing failures are neither premature nor late — partial. Not premature: proved. 'Noticed by the completing call' is false: a lone '$' is accepted by push (C51_noticed_at_once_refuted); what holds is a delay of at most one character. The exact condition is C88 (C88_succeeds, C88_wrong, C88_broken).
  Theorems: `C51_failures_not_premature`, `C51_noticed_at_once_refuted`, `C51_at_most_one_character_late`.
* **C52** Lexical failures stay until reset — proved. Unlimited lexer. flush may even panic (C09_flush_after_lexical_error_panics_refuted).
  Theorems: `C52_lexical_errors_stick`, `C52_flush_fails`, `C52_stays_hopeless`.
* **C53** Every location in a syntax tree lies in the text — partial. False for an empty sequence in empty brackets, which carries <unknown>:1:1; every other location lies in the text. The exact condition is C92 (C92_unknown).
  Theorems: `C53_every_location_in_text_refuted`, `C53_locations_in_text`.
* **C54** Garbled bytes are reported where they are — partial. Success exactly when nothing is garbled: proved. The location is exact unless the text before contains a genuine U+FFFD, which is taken for the garbled one (C54_garbled_location_refuted).
  Theorems: `C54_stops_iff_garbled`, `C54_garbled_location`, `C54_garbled_location_refuted`, `C54_assumption_is_met`.
* **C55** Syntax::read_from_str is parse_str followed by Syntax::new — proved. For every converter that decodes UTF-8 (decodes_utf8); the WHATWG decoder is shown to be one.
  Theorems: `C55_read_from_str`, `C55_read_from_str_limited`, `C55_assumption_is_met`.
* **C56** Syntax errors name what is missing and quote what is there — proved. Errors as structured values (location, expected name, quoted text); the names are the displays of constructs as defined in SpecParse.v.
  Theorems: `C56_errors`, `C56_choice`.
* **C57** A failing source is reported, or does not matter — proved. C57_forwarding_refuted shows that the restriction to scanners that do not forward is needed: the failure of the target of a forward is ignored.
  Theorems: `C57_failing_source`, `C57_forwarding_refuted`.
* **C58** How a syntax is written down does not matter — proved. for complete sources; the configuration must not look at locations (C58_place_matters), which holds for the scanners of the library chosen by content
  Theorems: `C58_locations_irrelevant`, `C58_same_symbols`, `C58_display`, `C58_library`.
* **C59** Only the rules that can be reached matter, and not their order — proved. order: any configuration; unreached rules: scanners that do not forward (C59_forwarding_matters); panics are not told apart
  Theorems: `C59_order`, `C59_reachable`, `C59_more_rules`.
* **C60** Names may be replaced — proved. for complete sources, scanners that do not forward and hand out tokens only
  Theorems: `C60_renaming`, `C60_library`.
* **C61** The text of an error tells where and what — proved. C61_names_matter and C61_users_matter show that the restriction to one source and to the messages of the library is needed
  Theorems: `C61_location`, `C61_quotation`, `C61_messages`, `C61_errors`, `C61_lexer`, `C61_parse_str`, `C61_new`, `C61_parse`, `C61_ascii`, `C61_place`, `C61_literal`, `C61_literal_one`, `C61_code_point`, `C61_names_matter`, `C61_users_matter`.
* **C62** Lexing errors point at what they complain about — proved. For every text, fragmentation and limit.
  Theorems: `C62_errors`, `C62_inside`, `C62_first_misfit`, `C62_one_fault`, `C62_reported`, `C62_at_once`.
* **C63** LL(1) rules are parsed exactly — proved. C63_exactly_the_language for all rule sets meeting predictive (SpecLL.v), C63_checked: the computation ll1 implies predictive; C63_condition_needed shows a text of the language refused without the condition
  Theorems: `C63_exactly_the_language`, `C63_checked`.
* **C64** A scanner written by the user sees the text and nothing else — proved. user programs as described in Graph.v (sprog): everything MarkableCharReader offers except read_chars, and only their own marks
  Theorems: `C64_user_scanner`, `C64_scanner_keeps_marks`.
* **C65** A parse keeps the caller's marks — proved. 
  Theorems: `C65_parse_keeps_marks`.
* **C66** The events of a parse describe a derivation — proved. Exact events when bodies of brackets are clean (tidy rules); otherwise existence of the derivation; abandoned bodies may leave tokens behind (C35_tokens_spell_refuted).
  Theorems: `C66_derivation`.
* **C67** LL(1) rules: the events describe the only derivation — proved. For predictive rules (C63_checked computes this) in which every construct has a word (C67_checked computes this).
  Theorems: `C67_the_derivation`, `C67_checked`.
* **C68** Errors stand after a beginning that can be continued — proved. the exceptions of the rules are not part of the language used to continue the beginning; grammars with constructs without words are excluded (C68_productive_needed); the place need not be the furthest such place (C68_not_furthest)
  Theorems: `C68_viable`, `C68_library`.
* **C69** Parsing bytes is parsing the text they encode — proved. the converter is an arbitrary incremental one; for UTF-8 it is assumed to hold back no finished character, which the instance of SpecUtf8.v does not
  Theorems: `C69_replies`, `C69_parse`, `C69_utf8`, `C69_for_bytes`, `C69_assumption_is_met`.
* **C70** Files and encoding labels — proved. the file system and the table of encodings are arbitrary functions; buffer limits for accepted files are covered by C08 and C23
  Theorems: `C70_file`, `C70_syntax`, `C70_not_opened`, `C70_unknown_label`, `C70_known_label`.
* **C71** Laws of the notation that change nothing — proved. Eleven laws, any chain of them in either direction; what an error says was expected is not compared (the laws change it).
  Theorems: `C71_laws`, `C71_laws_back`, `C71_texts`.
* **C72** Laws of the notation that keep what is accepted — proved. Events may differ (C72_counts_keep_events_refuted), and the option and parenthesis laws fail in the midst of a sequence (the other two refutations), because nothing counts that follows a group standing by itself.
  Theorems: `C72_loose_laws`, `C72_loose_laws_back`, `C72_texts`, `C72_counts_keep_events_refuted`, `C72_parentheses_refuted`, `C72_option_in_sequence_refuted`.
* **C73** What follows a group does not count; with it left out accepted texts are in the language — proved. Lifts the condition on groups from C32, C66 and C68 by naming the syntax the parser really follows.
  Theorems: `C73_cut`, `C73_groups_last`, `C73_language`, `C73_derivation`, `C73_viable`.
* **C74** Refactoring keeps what is accepted — proved. In the midst of a sequence a name is not its definitions in parentheses (C74_group_named_refuted), because nothing counts that follows a group standing by itself.
  Theorems: `C74_refactored`, `C74_refactored_back`, `C74_texts`, `C74_group_named_refuted`.
* **C75** Where a text stands in its source only moves places — proved. User scanners must only hand locations on (hands_on); one that looks at its location can tell the difference (C75_any_scanner_refuted).
  Theorems: `C75_elsewhere`, `C75_shifted_places`, `C75_one_place`, `C75_library`, `C75_source_name`, `C75_any_scanner_refuted`.
* **C76** The name given to the source of a syntax shows only in locations — proved. The second theorem of the pair in C76_read_from covers Syntax::read_from; encodings are a parameter.  Examples C76_case, C76_bytes, C76_parsers_case.
  Theorems: `C76_lexer`, `C76_parse_str`, `C76_read_from`, `C76_determined`, `C76_shown`, `C76_parsers`.
* **C77** A parse needs depth in proportion to its text — proved. Fuel counts recursion levels and loop rounds of the model; complete texts (no read error).
  Theorems: `C77_linear`, `C77_answer`, `C77_decides`, `C77_deep`.
* **C78** The number of events grows with the text at most in proportion — proved. The bound for tidy rules, and for the others the counterexample that the statement names: C78_linear_refuted gives a syntax whose answers double with each character.
  Theorems: `C78_linear`, `C78_library`, `C78_linear_refuted`.
* **C79** A parse returns exactly when no rule is tried again where it is being tried — proved. Complete texts (no read error); a panic counts as returning (C43 says when one happens).
  Theorems: `C79_returns_iff`, `C79_never`, `C79_left_recursion`.
* **C80** The integers of the code are wide enough — proved. Narrow.v and NarrowMachine.v repeat the lexer, the reader and the parser with checked additions of the width of the code (None = overflow); the theorems show agreement with the unbounded model below the bounds, the _sharp theorems that overflow happens just beyond. C80_counts: the counts of lexed rules are u32. Not checked: usize indices into buffers.
  Theorems: `C80_lexer`, `C80_parse_str`, `C80_lexer_sharp`, `C80_reader`, `C80_reader_sharp`, `C80_parser`, `C80_counts`, `C80_parser_sharp`.
* **C81** Debug builds and release builds differ only where a debug assertion fails — proved. C81_release_after_closing_refuted is the witness for the exception in (3), which the statement names.
  Theorems: `C81_lexer`, `C81_lexer_careful`, `C81_parse_str`, `C81_debug_after_error`, `C81_release_after_error`, `C81_release_after_closing_refuted`, `C81_reader`, `C81_parser`, `C81_parser_stopped`, `C81_parser_same`, `C81_parser_library`.
* **C82** The example of the documentation parses exactly its programs — proved. Both directions, with termination, the spelling of the events and the complete tree of rules and tokens (locations by C82_example_exact); the grammar is the text of the documentation, run through the model of the lexer.
  Theorems: `C82_example_ready`, `C82_example_exact`, `C82_example_tree`, `C82_trees`, `C82_one_tree`.
* **C83** The constructors of CharsScanner and RegExScanner — proved. On the concrete reader; the regex engine is a parameter; with_range with the bounds the wrong way round never matches.
  Theorems: `C83_one_of`, `C83_zero_or_more`, `C83_one_or_more`, `C83_with_min`, `C83_with_max`, `C83_with_range`, `C83_from_str`.
* **C84** Rules whose choices never have to be undone are parsed exactly — proved. Generalises C63 to look-ahead of any length and to exceptions; C84_condition_needed gives a refused word for each kind of choice.
  Theorems: `C84_exactly_the_language`, `C84_covers_ll1`, `C84_checked`.
* **C85** The texts on which lexing panics, exactly — proved. The exact version of C09. With fragments and a lexical error that cannot be mended, which of the two is reported depends on the cut (C06).
  Theorems: `C85_exactly`, `C85_fragments`, `C85_unfinished`, `C85_any_limit`.
* **C86** Exactly when a parse panics or stops — proved. Complete texts (no read error). The exact version of C43.
  Theorems: `C86_panics`, `C86_errors`, `C86_stops`, `C86_livelock`, `C86_regex`, `C86_kinds`.
* **C87** Exactly when a buffer limit rejects a text — proved. The exact version of C07.
  Theorems: `C87_rejected`, `C87_otherwise`, `C87_kept`, `C87_characters`, `C87_whole`.
* **C88** Which mistake of a text is reported — proved. The exact version of C06.
  Theorems: `C88_wrong`, `C88_broken`, `C88_other`, `C88_succeeds`, `C88_at_once`, `C88_characters`, `C88_independent`, `C88_unique`.
* **C89** What a markable reader holds and how it names its marks — proved. The exact versions of C25 and C26.
  Theorems: `C89_gauge`, `C89_determined`, `C89_held`, `C89_stops`, `C89_identifiers`.
* **C90** Which events of a parse spell the text — proved. The exact versions of C35 and C36.
  Theorems: `C90_trace`, `C90_complete`, `C90_kept`, `C90_derivation`, `C90_tokens`, `C90_pairs`.
* **C91** What forwarding does, exactly — proved. The exact version of C46.
  Theorems: `C91_forward`, `C91_target`, `C91_accepts`.
* **C92** Rules with all their locations — proved. The exact version of C53; with it C12 and C13 determine parse_str completely.
  Theorems: `C92_located`, `C92_places`, `C92_unknown`.
* **C93** Where a parse leaves the reader — proved. C93_unmoved_refuted: the simpler claim that a failed parse leaves the reader where it was is false. Where a parse that is stopped in the middle (C86: endless loop, scanner error, unknown target of forwarding) leaves the reader is only bounded by C93_forward.
  Theorems: `C93_forward`, `C93_left`, `C93_gives_up`, `C93_choice`, `C93_again`, `C93_unmoved_refuted`.
* **C94** How long a parse takes — proved. Counts turns of the loop of parse_to_subroutine_end including its recursive calls, not the cost of one instruction. C94_polynomial_refuted: the simpler claim of polynomial time is false.
  Theorems: `C94_exact`, `C94_determined`, `C94_reader`, `C94_room`, `C94_exponential`, `C94_polynomial_refuted`.
* **C95** Rules with one character of look-ahead are parsed in linear time — proved. Instructions are counted as in C94. The numbers a and b are not the least possible.
  Theorems: `C95_linear`, `C95_ends`, `C95_checked`, `C95_bound_is_linear`, `C95_productive_needed`.
* **C96** Left recursion can be computed — proved. The library performs no such check; the computation is part of the development (DecideLeft.v). C96_converse_refuted: a left-recursive rule need not make a parse endless (C79 says exactly when it does).
  Theorems: `C96_decided`, `C96_rule`, `C96_returns`, `C96_library`, `C96_converse_refuted`.
* **C97** A parse returns within exponential time or never — proved. Instructions as counted in MachineSteps.v (C94); the bound is step_cap of SpecCap.v. For readers whose text ends normally (C97_enough: any). Memory and the limit of the stack are not modelled.
  Theorems: `C97_at_most_exponential`, `C97_form`, `C97_now_or_never`, `C97_enough`.
* **C98** What a parse makes the reader hold — proved. The rules are told apart by pins and flat of SpecHold.v; rules that are neither (such as those that begin with a terminal and go on with a choice) are not claimed about. The second theorem is for readers made by any history of reader operations.
  Theorems: `C98_holds_all`, `C98_holds_nothing`.
* **C99** What reading an EBNF text costs — proved. What is counted is defined in LexCost.v beside the code it follows: characters looked at, walked over and moved by the tokenizer, tokens looked at and moved by the lexer, and calls of the recursive descent. Copying of token texts and debug assertions are not counted.
  Theorems: `C99_at_most`, `C99_limit`, `C99_tokens_moved`, `C99_comment_read_again`, `C99_brackets_read_again`.
* **C100** How deep the calls go when an EBNF text is read, and what a buffer limit does not bound — proved. What is counted is defined in LexDepth.v beside the code it follows: calls of build_syntax_rule, of the functions of the recursive descent and of read_enclosed_definition_list that are open at the same time. Calls that call none of these are not counted.
  Theorems: `C100_exact`, `C100_at_most`, `C100_limit_does_not_bound`.
* **C101** Rules whose choices never have to be undone have one derivation for each text, exceptions included — proved. Generalises C67 from LL(1) rules without exceptions to the rules of C84. That alternatives have no common words other than the empty one is needed: the rule S='a'|'a'; has two derivations.
  Theorems: `C101_one_derivation`, `C101_events`, `C101_checked`, `C101_tidy_checked`.
* **C102** A parse gives the same result with any reader of the user's that serves the text — proved. Texts that end, and texts whose end is a failure told as the library tells it (MWrapped, at the end). Three sloppy readers show that the laws are needed.
  Theorems: `C102_same_result`, `C102_defaults`, `C102_library`, `C102_library_serves`, `C102_from_start`.
* **C103** A MarkableReader over any CharReader of the user's behaves like one over the text itself — proved. Shows that the chunked sources of Io.v lose no generality. Readers that give nothing before the end, or go on after a failure, are outside.
  Theorems: `C103_parse`, `C103_whole`, `C103_calls`, `C103_cursor`, `C103_nested`.
* **C104** Scanners that answer alike may be exchanged — proved. Answers of scanners as specified in SpecParse.v (C44, C45 and C64 show that the code gives them). The regex engine is a parameter: any that finds the longest run of the class at the head of a text.
  Theorems: `C104_exchange`, `C104_symbols`, `C104_regex`, `C104_regex_limit`, `C104_own`, `C104_by_trying`.
* **C105** The events of a parse make a tree that spells the text — proved. The program that folds the events is a specification (SpecFold.v), the library has none; it uses AST::with_token and AST::with_children. C105_text needs tidy rules as C35_tokens_spell does; C105_lost shows a tree that does not spell the text without.
  Theorems: `C105_nested`, `C105_tree`, `C105_text`.
* **C106** Rules that grow keep their texts and their events — proved. The events agree for tidy rules (C101). C106_parses takes old rules of the same kind, exceptions included; C106_parses_plain takes any old rules without exceptions whose groups come last. C106_condition_needed shows extensions that lose texts.
  Theorems: `C106_derivations`, `C106_parses`, `C106_parses_plain`, `C106_checked`, `C106_scanners`.
* **C107** A part of a parse is the parse of that part — proved. For tidy rules (C101). The rule of the part has to be one whose choices are never undone also where its text ends (determinate for that rule). C107_condition_needed shows a part that is parsed differently by itself where a choice is undone.
  Theorems: `C107_library`, `C107_part`, `C107_list`, `C107_list_back`.
* **C108** A part of a text may be exchanged for another text of its rule — proved. For tidy rules (C101), and for parts inside of the whole (the whole text is exchanged trivially). C108_condition_needed shows an exchange that is refused because of an exception around the part.
  Theorems: `C108_library`, `C108_edit`, `C108_checked`.
