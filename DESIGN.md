# Formal model of lttoolbox: design

Subject: the C++ sources of apertium/lttoolbox in `/repo/lttoolbox`.
Everything here is Rocq/Coq 8.16.1; the model is a set of total Gallina functions
written function by function after the C++ code, which was read as text and never run.

## Layout

* `rocq/theories/*Model.v` – the model: definitions only, each citing file and lines.
* `rocq/theories/*Spec.v` – small independent specifications (no model helpers).
* `rocq/theories/*Proofs.v`, `AnalysisScan.v` – lemmas.
* `rocq/theories/*Props.v` – the property theorems with short proofs, `Example`s showing
  that the hypotheses are met by concrete non-trivial values, and `Print Assumptions`.
  For small parts the specification is at the top of this file.
* `properties.jsonl` – the properties in words. `MANIFEST.json` – property → theorems.
* `seeded/LOG.jsonl` – mutation log (bugs seeded in a scratch copy of the model).

## Conventions

* `_refuted` theorems: the property as a user would state it is false of the
  faithful model; the theorem exhibits a witness. These are findings about the code.
  The manifest status of such a property is `partial`: the true restricted version is
  proved beside the refutation, and the note says what is excluded.
* `_partial` theorems: only part of the stated property is proved; the comment says
  what is missing.
* C++ undefined behaviour, `exit(EXIT_FAILURE)`, exceptions and running out of model
  fuel are distinct outcomes (constructors `UB`, `Exit`, `Throw`, `NoFuel`), never
  normal-looking values. Where a loop takes fuel, a theorem says that enough fuel exists
  (or that the loop does not end).
* `int`/`unsigned` are `Z` with the wrap-around written out where the code can reach
  it; otherwise unbounded `Z`/`N`/`nat` and the comment says so.
* `double` weights are modelled in three ways: in the file codec as exact
  sign/significand/exponent triples; in the serialiser as 64-bit patterns; in the transducer
  algorithms as elements of `Z` (only equality with 0, addition and comparison are used;
  rounding of sums is not modelled). When weights are printed they count millionths.
* `std::map`/`std::set` are sorted association lists / lists with the map operations;
  `std::multimap` keeps insertion order among equal keys (C++11 guarantee).
* ICU character predicates (`u_isupper`, `u_tolower`, …), `std::sort` and C's `tolower` are
  parameters: theorems hold for every such function (with the stated hypotheses).

## What is modelled, file by file

Line ranges are in the comments of the definitions; this table gives the functions.

| source | modelled | not modelled |
|--------|----------|--------------|
| `compression.cc/.h`; UTF-16 parts of `ustring.cc/.h` | `CompressionModel`: numbers, strings, `long double` codec, header words | `FILE*`/stream write errors |
| `serialiser.h`, `deserialiser.h` | `SerialiserModel` | stream failure on output |
| `sorted_vector.hpp` | `SortedVectorModel`, the functions cited there | the rest of the container interface |
| `alphabet.cc` | `AlphabetModel`; `sameSymbol` in `ComposeModel`, `symbolsWhereLeftIs` in `CompilerModel` | overflow of symbol codes |
| `transducer.cc`: construction, `closure`, `joinFinals`, `determinize`, `minimize`, `optional`, `oneOrMore`, `zeroOrMore`, `clear`, `reverse`, `insertTransducer`, `unionWith` | `TransducerModel`; construction also on the `std::map` itself in `TransducerMapModel` | |
| `transducer.cc`: `invert`, `updateAlphabet`, `deleteSymbols`, `epsilonizeSymbols`, `applyACX`, `recognise` | `RelabelModel` | |
| `transducer.cc`: `compose`; `numberOfTransitions` | `ComposeModel`; `ThreadModel` | |
| `transducer.cc`: `weighted`, `write`, `read`, `serialise`, `deserialise`; `trans_exe.cc` `read`; `file_utils.cc` | `FileModel`, `SerialiserModel`, `TransducerMapModel` | |
| `transducer.cc`: `trim`, `copyWithTagsFirst`, `moveLemqsLast`, `appendDotStar`; `alphabet.cc`: `createLoopbackSymbols`; `lt_trim.cc` | `TrimModel` | command line, file access |
| `transducer.cc`: everything else | `AttModel` (`show`, `escapeSymbol`) | small accessors |
| `regexp_compiler.cc` | `RegexpModel` | |
| `compiler.cc` | `DixModel` (from the nodes of the XML reader to the tokens), `CompilerModel` (tokens of an entry to paradigms and sections, `valid`), `EntryFilterModel` (which entries are taken), `UnifiedModel` (unified compilation), `ThreadModel` (minimisation jobs), `LoadModel` (`write`) | libxml2 (the nodes are given), options set on the command line, what the comments there exclude |
| `tmx_compiler.cc`; `lt_tmxcomp.cc` 105-114, `lt_tmxproc.cc` 35-51 | `TmxModel`, `TmToolModel` (`write`, and how both programs go on after their options; `FSTProcessor::valid`) | libxml2 (the nodes are given), options set on the command line |
| `expander.cc` | `ListingModel` (from the nodes of the XML reader to the elements of entries), `ExpanderModel` (from there on) | libxml2 (the nodes are given) |
| `cli.cc`, `lt_proc.cc`, `lt_merge.cc`, `file_utils.cc` (opening) | `CliModel` (`parse_args` with `getopt_long` of glibc, the option tables of all programs that use `CLI`, the decisions of `lt_proc.cc` up to its switch, the streams of lt-proc and lt-merge) | text of the usage message, POSIXLY_CORRECT, failure to open a file |
| `file_utils.cc` (writing, with the lines printed), `ustring.h` (`operator<<`) | `StdoutModel` (`set_events`, `statistics`, `utf16to8`) | buffering: std::cout and stdout are one stream |
| `lt_comp.cc`, `lt_tmxcomp.cc` (main) | `CompCliModel` (`lt_comp_begin`, `lt_tmxcomp_begin`) | what libxml2 finds at the beginning of a file (an argument), failure to open the output, text of messages |
| `state.cc`, `node.cc` | `StateModel` (objects, heap, pool, compound functions), `FinalsModel` (`filterFinals`, `NFinals`), `TmModel` (`filterFinalsTM`), `SaoModel` (`filterFinalsSAO`), `LrxModel` (`filterFinalsLRX`); `hasSymbol` within `ProcessorModel` | read-only printing |
| `fst_processor.cc` | `ProcessorModel` (initial state, final classes, compound analysis, `lookup`, `biltrans`, `biltransfull`, `analysis` and its null flush), `GenerationModel` (`generation`, `removeTags`), `BilingualModel` (`bilingual`, `biltransWithoutQueue`), `QueueModel` (`biltransWithQueue`), `TranslitModel` (`transliteration`, `postgeneration`, `intergeneration` and what they read; also `Alphabet::tokenize` and `merge_wblanks`), `LoadModel` (`load`, `calcInitial`, `classifyFinals`, `initAnalysis`, `initGeneration`, `initBiltrans`; also `Compiler::write`), `StreamModel` (escaping, `printWord…`, `readAnalysis`, `quoteMerge`, `quoteUnmerge`), `TmModel` (`tm_analysis`, `readTMAnalysis`; also `lt_tmxproc.cc`), `CharFileModel` (`parseICX`, `parseRCX` and the options -i, -I, -r of `lt_proc.cc`), `TmToolModel` (`valid`), `SaoModel` (`SAO`, `readSAO`, `printSAOWord`) | stderr messages |
| `buffer.h` | `BufferModel` | |
| `input_file.cc` | `InputModel` | opening files, standard input |
| `stream_reader.cc` | `StreamModel` | |
| `match_exe.cc`, `match_state.cc`, `sorted_vector.cc` (search), `pattern_list.cc` 43-399, 417-421 | `MatchModel`, `PatternModel`, `PatternFileModel` (`write`, `read`) | copying; `serialise`, `deserialise` of lists |
| `string_utils.cc` 9-117, 173-265, 283-306; `symbol_iter.cc` | `StringModel`, `CaseModel` (173-265) | numbers to and from strings, `caseequal`; the case mappings of ICU (parameters) |
| `lt_restrict.cc` | `UnifiedModel` | command line, file access |
| `att_compiler.cc`; `lt_print.cc`, `Transducer::show`, `escapeSymbol` | `AttModel` | UTF-8 conversion, rounding of weights (kept in millionths), weights written `inf`, command line |
| `lt_compose.cc` 25-97 | `ThreadModel` | its command line |
| `lt_append.cc` 46-66, `lt_invert.cc` 38-44, `lt_apply_acx.cc` 40-46 | `ToolsModel` | command lines |
| `lt_append.cc`, `lt_apply_acx.cc`, `lt_compose.cc`, `lt_invert.cc`, `lt_restrict.cc`, `lt_trim.cc` (opening, reading, writing) | `PlaceModel` (`run_tool`) | links, permissions, failures while writing |
| `acx.cc`; `xml_walk_util.cc` 3-60, 80-90; `lt_comp.cc` 131-157 (`acx_file`) | `CharFileModel` | libxml2 (the tree is given) |
| `lt_paradigm.cc` 30-218 | `ParadigmModel` | command line, `-z` (flushing only) |

Outside the model altogether: XML parsing (libxml2), the rest of the `xml_*_util` files, ICU internals,
allocation failure, performance,
and `lt_locale.cc`.

## Properties and how they are proved

| id | what | how |
|----|------|-----|
| C01,C02 | byte-level numbers | arithmetic on the four size classes; unique decodability |
| C03,C44 | UTF-16, strings in files | induction on code points |
| C04 | `frexp/ldexp` as integer arithmetic | bit-range arithmetic |
| C05 | header words, feature test | arithmetic, case analysis |
| C06,C07,C53 | serialiser as a universe of types | induction on the type code; strings refuted |
| C08–C10 | alphabet under any history of calls | invariant; file round trip; deserialise refuted |
| C11–C13 | dictionary files | induction over the lists; truncation refuted |
| C14 | construction calls | invariant; refinement of the map to a list |
| C15 | `closure` | worklist invariant and measure |
| C16–C22 | determinize, reverse, joinFinals, minimize | subset-construction bisimulation, path reversal, Brzozowski |
| C23,C24 | optional …, insertTransducer, unionWith | path decomposition |
| C25–C28 | arc-wise operations | path induction |
| C29 | compose | worklist invariant; product-path correspondence |
| C30 | recognise | refuted + exact set accepted |
| C31 | recursive-descent regular expressions | denotational semantics |
| C32,C33 | entries to sections | trie invariants; sums of weights; refutations |
| C34 | threads | interleaving semantics; disjoint memory, read-only memory; race refuted |
| C35,C36,C38 | run-time states | refinement from heap objects to values; path semantics |
| C37 | analyses reported | sort/filter specification |
| C39 | dictionary look-up | path semantics; refutations |
| C40,C41 | escaping, quote merging | induction on streams |
| C42,C43,C45 | input file, blanks, ring buffer | history invariants |
| C46–C48 | sets, look-up tables, ring of live nodes | refinement |
| C49–C51 | small string functions | induction |
| C52,C57 | lt-expand; which entries are used | multiset of choices; refutations |
| C54 | compound analysis | loop invariant over restarts |
| C55 | stream reader | induction on units |
| C56 | analysis of a text | loop invariants of the whole main loop; longest match |
| C58 | which dictionaries are refused | language of the minimised automaton; refutation |
| C59 | generation | induction on units of a stream; path semantics; refutations |
| C60 | bilingual look-up | induction on units of a stream with a growing alphabet; path semantics; refutations |
| C61 | from the dictionary through compiler, file and loading to the programs | composition of C32, C12, C39, C56, C59; walks through the loaded graph |
| C62 | analyser and generator of one dictionary | mirrored word sets; C61 in both directions; texts of symbols as pieces of a stream; refutations |
| C63 | `Transducer::trim` | keyed search as a product automaton: numbering invariant, termination by finitely many keys, moves split at '+'; refutations |
| C64 | the program `lt_trim` | tag loops and union described as languages, C63 applied per section; refutations on concrete dictionaries |
| C65 | unified compilation in `compiler.cc`, the program `lt_restrict` | words with flags: the image of the flagged language under erasing kept flags and dropping words with others is the chosen language, by induction on the dictionary; invariants hold for every numbering that agrees with the alphabet so far |
| C66 | AT&T text read into a graph of chains, two passes that type its arcs, extraction | an invariant that lists the chains (one per line) and gives every arc its place in one; the forward pass is a least fixed point, compared with reachability without a character of the class; the backward pass changes only arcs from node 0 |
| C67 | `lt_print`, `show`, then the AT&T compiler | each line printed is the text of a line of the specification of C66 (digits, columns); traces and walks correspond; then C66 |
| C68 | `transliteration`, `postgeneration`, `intergeneration` | the queues hold the words of the text read so far (invariant); state after the symbols of a stretch = runs of the dictionary over it (`reads`); each round of the loop is a step of `rewrites`; ending by a measure of text not yet scanned; refutations by computation, the endless one by induction on `rewrites` |
| C69 | `PatternList`: `insert`, `insertIntoSequence`, `endSequence`, `buildTransducer`, then `MatchExe`, `MatchState` | the automaton is a trie of the beginnings of the patterns, its arcs given by a relation on beginnings (`link`; invariant of the building loop); paths over a word = atoms ending at it (`ends_at`) = `fits` (PatternSpec); C48_live gives the answer; in simple patterns each pattern has one live node at a time, so the ring has room |
| C70 | `lt-append`, `lt-invert`, `lt-apply-acx` | induction over the sections in the order of the map; the alphabet only grows (`extends`), so what earlier sections accept is unchanged (`accepts_larger`); each section by C26, C25, C28 |
| C71 | `lt-paradigm` | the transducer of a pattern by induction over its symbols (`built_step`: state reached by exactly the fitting words); trim by C63, extended to acyclic dictionaries; paths listed by induction on their length; invariant over the patterns: alphabet grows, sections keep their relation |
| C72 | `biltransWithQueue` | the states of the beginnings of the word as in C56; invariant of the loop: longest accepted and longest readable beginning so far, queue, tags seen; fuel by settling |
| C73 | reading the XML nodes in `compiler.cc` | a document is a relation between a dictionary and its nodes; each element advances the reader past its nodes, by induction on the layout; then C32 and C58 for the words |
| C74 | reading the XML nodes in `expander.cc` | the documents of C73, without comments where the reader does not allow them; the reader advances past each element, by induction on the layout; then C52 for the lines |
| C75 | `compiler.cc` against `expander.cc` | a side of a line is read as symbols (`AgreeSpec.v`); C73, C74 and an induction over paradigms and sections that relates expansions to words |
| C76 | `tmx_compiler.cc` | units, numbers, marks and sides are described by small relations (`TmxSpec.v`); the reader, the cutting of numbers and parts and the trie are proved against them, C21 for minimisation |
| C77 | `tm_analysis`, `filterFinalsTM` | texts as lists of bits, how a text is cut and how a translation is filled in are relations (`TmSpec.v`) without buffer and queues; an invariant ties the reader, its buffer, blanks and numbers to the bits read since the last segment; states as in C56 |
| C78 | `lt-tmxcomp` and `lt-tmxproc` end to end | `TmToolSpec.v` says which sequences begin a source and which translations they have in terms of the units of the document only; the graph read back from the file has the paths of the compiled one (C11, C76), every label once per node and weight 0, so the paths that spell a sequence are in bijection with the entries (`TmTraceProofs.v`: the states of the machine list every trace once); C77 then gives the text |
| C79 | `PatternList::write`, `read` | an invariant of `buildTransducer` bounds states, arcs per state, tags and final types by the patterns inserted (`PatternFileProofs.v`), so that C11 applies with the bias of the alphabet; the replies are then those of C69 |
| C80 | ignored characters | a simulation between the analyser on a text with ignored characters and the analyser on the text without (`IgnoreProofs.v`): the reader skips them before every symbol, so the sources stay in step (text left, buffer, queues) through `readAnalysis`, blanks, the main loop, compounds and the null flush |
| C81 | restored characters | the step of `analysis` is a choice of `State::step` (C36), so the analyses are the paths over taken letters; these are the letters `restored` of `CharFileSpec.v`; what is printed by C37 |
| C82 | `readACX` | induction over the tree with sorted keys; the dictionary by C70 |
| C83 | compiling with equivalents | the trie proof of C32 generalised: a set `U` of symbols the dictionary writes and their equivalents outside of it, so that from each state at most one arc carries a symbol of `U` and the arcs of its equivalents go to the same state (`AcxTrieProofs.v`); the chain of C32 over it (`AcxCompilerProofs.v`); words by `CompilerAcxSpec.v` |
| C84 | annotated texts, `SAO` | the output as a relation over words and other parts (`SaoSpec.v`); as every entry consists of letters the reader is never more than one part ahead, so three states of it (nothing read ahead, one part just read, one part to be read again) suffice; states as in C56; at the end of the file the same invariant shows the loss and the endless loop for all dictionaries |
| C85 | command lines, `cli.cc` | a relation between argument lists and wishes (`CliSpec.v`): items of one or two arguments, `--`, mistakes; the scanner follows `getopt_long` of glibc with the table as it is passed, and reads each item as its wishes by induction over the items |
| C86 | what lt-proc does, `lt_proc.cc` | options asking for commands, commands at odds, strongest kind of generation (`CliSpec.v`), connected with the chain of tests through one boolean per command; limits are decimal numerals |
| C87 | files of lt-proc and lt-merge | the stream meant by the n-th name (`meant`) against the tests of the programs |
| C88 | dictionaries on the standard output | the events of one writer sorted by target (`in_file`, `in_stdout`) and read by the reader of C12; lines against UTF-8 and decimal numbers |
| C89 | command line of lt-comp | the wishes of C85 and the environment against the build (`compiled`, `improper`, `first_wish`, `section_size`) |
| C90 | command line of lt-tmxcomp | the arguments against the memory to be compiled, for all lists of arguments |
| C91 | matched rules of lexical selection | the result set against an inductive reading of the paths of the final states, uniqueness of the reading, independence of the order |
| C92 | case of words | first and last character found in UTF-16 from both ends, against an inductive reading of the word |
| C93 | files named to the tools | the state of all files after each program against the contents before it; rewriting in place refuted for every operation |

## Trusted base

* The Coq kernel (with its virtual machine: some examples and refutations use `vm_compute`).
* The definitions in `*Model.v` being a faithful reading of the C++ as described above.
* `Print Assumptions` is run on every theorem named in `MANIFEST.json` at the end of the
  `*Props.v` files, and answers "Closed under the global context" for each. No
  axioms are declared here. A whole-library check lists only axioms of the standard library
  module `Coq.ssr.ssrunder`, which `lia` loads and no theorem uses.
* No functors, module types, plugins or kernel switches are used.
