{"id": "C01", "title": "Compressed integers round-trip in any stream context", "statement": "Writing an integer with the compressed integer format and reading it back yields the same integer and leaves the reader exactly at the first byte after the number, whatever was written afterwards. Every integer below 2^30 is writable; every integer from 2^30 up is refused with an error and nothing that could be mistaken for a number is produced.", "quantifier": "every 32-bit unsigned value and every byte string following it", "why_tests_cant": "2^30 writable values times all continuations; a size-class boundary or carry error can hide at any of them", "anchors": ["lttoolbox/compression.cc: Compression::multibyte_write, multibyte_read, writeByte, readByte"]}
{"id": "C02", "title": "Compressed integer streams are uniquely decodable and minimal in size class", "statement": "Two different sequences of writable integers never produce the same bytes, no encoding is a proper prefix of another, every encoding has 1 to 4 bytes, and a larger number never has a shorter encoding.", "quantifier": "every pair of sequences of integers below 2^30", "why_tests_cant": "quantifies over pairs of unbounded sequences", "anchors": ["lttoolbox/compression.cc: multibyte_write, multibyte_read"]}
{"id": "C03", "title": "Strings round-trip through the dictionary file format", "statement": "A string written with string_write and read back with string_read is the same UTF-16 string, including characters outside the BMP, and the reader stops exactly at its end.", "quantifier": "every well-formed UTF-16 string shorter than 2^30 code points, and every following byte string", "why_tests_cant": "surrogate pairs, size classes of both the length and each code point interact; unbounded strings", "anchors": ["lttoolbox/compression.cc: string_write, string_read", "lttoolbox/ustring.h: operator+=(UString&, UChar32)", "lttoolbox/ustring.cc: ustring_to_vec32"]}
{"id": "C04", "title": "Weights survive the file format up to a stated precision", "statement": "A weight written to a dictionary and read back is exactly the same if its significand fits in 30 bits (in particular 0, every integer below 2^30 in magnitude, and both infinities); otherwise it is rounded toward zero with a relative error below 2^-29, keeps its sign, and is never read as an infinity. The reader stops exactly at the end of the weight.", "quantifier": "every finite or infinite double value given as sign, significand and exponent, and every following byte string", "why_tests_cant": "2^64 doubles; the encoding splits significand and exponent at bit boundaries that sampling misses", "anchors": ["lttoolbox/compression.cc: long_multibyte_write, long_multibyte_read"]}
{"id": "C05", "title": "File headers: features are preserved and unknown features are refused", "statement": "The 64-bit feature word of a file or section header is read back as written; a file that declares a feature bit unknown to this version is refused, and a file without the header is read from its first byte as an old-format file.", "quantifier": "every 64-bit feature word and every byte string", "why_tests_cant": "2^64 feature words; old/new discrimination depends on arbitrary following bytes", "anchors": ["lttoolbox/compression.h: write_be, read_be, HEADER_TRANSDUCER, TDF_UNKNOWN", "lttoolbox/file_utils.cc: readShared", "lttoolbox/transducer.cc: Transducer::read"]}
{"id": "C06", "title": "Serialised integers, pairs and containers round-trip", "statement": "Any value built from 8/16/32/64-bit signed or unsigned integers, characters, doubles (as bit patterns), pairs, vectors, sets, maps and multimaps is restored by the deserialiser exactly, and the stream is left at the first byte after it; reading from a stream that ends early raises an error instead of inventing a value.", "quantifier": "every value of every such type, nested arbitrarily, every following byte string, every cut point", "why_tests_cant": "unbounded nesting and sizes, all widths and signs, all truncation points", "anchors": ["lttoolbox/serialiser.h: Serialiser, int_serialise", "lttoolbox/deserialiser.h: Deserialiser, int_deserialise"]}
{"id": "C07", "title": "Serialised strings round-trip", "statement": "A UTF-16 string given to the serialiser is restored by the deserialiser unchanged.", "quantifier": "every UTF-16 string", "why_tests_cant": "holds for every ASCII string a test is likely to try; fails for code units >= 0x80 (finding)", "anchors": ["lttoolbox/serialiser.h: Serialiser<UChar>", "lttoolbox/deserialiser.h: Deserialiser<UChar>::deserialise"]}
{"id": "C08", "title": "Alphabet codes are injective, stable and decodable over any history", "statement": "After any sequence of symbol definitions, pair look-ups and queries: distinct tags have distinct negative codes, distinct pairs have distinct non-negative codes, a code once given out keeps its meaning for ever, decoding a pair code gives back the pair it was made from, asking for a known symbol or pair changes nothing, and the pair of two epsilons always has code 0.", "quantifier": "every finite sequence of alphabet operations and every later query", "why_tests_cant": "invariant over unbounded operation histories", "anchors": ["lttoolbox/alphabet.cc: Alphabet::includeSymbol, operator()(int,int), operator()(UStringView), decode, getSymbol, isSymbolDefined"]}
{"id": "C09", "title": "Alphabets round-trip through the dictionary file format", "statement": "Writing an alphabet and reading it into a fresh alphabet gives an alphabet with the same tags, the same pairs and the same codes for all of them, and the reader stops exactly at its end.", "quantifier": "every alphabet reachable by any history whose symbols are <...> tags, every following byte string", "why_tests_cant": "unbounded alphabets; delta/bias encodings depend on the number of tags", "anchors": ["lttoolbox/alphabet.cc: Alphabet::write, Alphabet::read"]}
{"id": "C10", "title": "Alphabets round-trip through serialisation", "statement": "Serialising an alphabet and deserialising it restores every tag and every pair code: looking up a known pair afterwards returns the code it had before.", "quantifier": "every reachable alphabet", "why_tests_cant": "fails only when the number of tags and of pairs differ in a particular way (finding)", "anchors": ["lttoolbox/alphabet.cc: Alphabet::serialise, Alphabet::deserialise"]}
{"id": "C11", "title": "Transducers round-trip through the dictionary file format", "statement": "A transducer written to a file and read back has the same states, the same initial state, the same final states and the same transitions from each state in the same order, with weights as the weight format delivers them; a transducer without weights never comes back with weights.", "quantifier": "every transducer whose states are numbered consecutively (which every construction keeps), every tag bias, every following byte string", "why_tests_cant": "unbounded graphs; three interacting delta encodings with a modular one", "anchors": ["lttoolbox/transducer.cc: Transducer::write, Transducer::read, weighted"]}
{"id": "C12", "title": "Whole compiled dictionaries round-trip", "statement": "A compiled dictionary file (letters, alphabet, named sections) written by the toolbox is read back by the toolbox as the same letters, alphabet and sections, and the run-time reader builds from it the same graph as the tool reader.", "quantifier": "every letter set, alphabet and finite map of section names to transducers", "why_tests_cant": "composition of all codecs over unbounded data", "anchors": ["lttoolbox/file_utils.cc: writeTransducerSet, readShared, readTransducerSet", "lttoolbox/trans_exe.cc: TransExe::read"]}
{"id": "C13", "title": "A truncated dictionary is never silently accepted as a different one", "statement": "If a compiled dictionary file is cut short at any point (crash while writing, partial download), loading it reports an error rather than producing a transducer that differs from the one written.", "quantifier": "every transducer and every cut point of its file image", "why_tests_cant": "all crash points of all files (finding: end of file reads as zero bytes)", "anchors": ["lttoolbox/compression.cc: readByte, multibyte_read", "lttoolbox/transducer.cc: Transducer::read"]}
{"id": "C14", "title": "State identifiers are fresh and consecutive over any construction history", "statement": "In any sequence of transducer construction calls on existing states, a newly created state never coincides with an existing one, states stay numbered 0..n-1, and no call other than the destructive ones removes a state or a transition.", "quantifier": "every finite sequence of construction calls", "why_tests_cant": "invariant over unbounded histories", "anchors": ["lttoolbox/transducer.cc: newState, insertSingleTransduction, insertNewSingleTransduction, insertTransducer, linkStates, joinFinals"]}
{"id": "C15", "title": "Epsilon closure is exactly reachability", "statement": "closure(state, tags) returns exactly the states reachable from state through transitions whose tag is in tags, and it always terminates; the all-states closure used by determinisation agrees with it on unweighted epsilon transitions.", "quantifier": "every transducer (with any cycles), state and tag set", "why_tests_cant": "all graphs; termination and completeness of two different worklist algorithms", "anchors": ["lttoolbox/transducer.cc: closure, closure_all"]}
{"id": "C16", "title": "Determinisation preserves the language", "statement": "determinize() terminates and the resulting transducer accepts exactly the same label sequences, with the same transition weights, as before.", "quantifier": "every transducer", "why_tests_cant": "language equality over infinitely many words and all graphs", "anchors": ["lttoolbox/transducer.cc: Transducer::determinize"]}
{"id": "C17", "title": "Determinisation yields a deterministic automaton", "statement": "After determinize() no state has two transitions with the same tag and weight, no unweighted epsilon transition remains, the states are 0..n-1, the initial state is 0 and every state is reachable from it.", "quantifier": "every transducer", "why_tests_cant": "structural property of a fixpoint computation over all graphs", "anchors": ["lttoolbox/transducer.cc: Transducer::determinize"]}
{"id": "C18", "title": "Final-state weights survive determinisation and reversal", "statement": "The weight with which a word is accepted (transition weights plus final weight) is the same before and after determinize(), and reverse() keeps it for the mirrored word.", "quantifier": "every weighted transducer and word", "why_tests_cant": "holds for every unweighted test; fails for weighted finals (finding: determinize looks the weight up under the wrong key, reverse drops the weight of a single final state)", "anchors": ["lttoolbox/transducer.cc: determinize lines 326-351, reverse lines 722-725"]}
{"id": "C19", "title": "Joining final states changes nothing observable", "statement": "joinFinals() leaves exactly one final state and every word keeps exactly the set of weights with which it was accepted.", "quantifier": "every transducer with at least one final state", "why_tests_cant": "all graphs, all words", "anchors": ["lttoolbox/transducer.cc: joinFinals"]}
{"id": "C20", "title": "Reversal mirrors the language", "statement": "After reverse() the transducer accepts exactly the mirror images of the words it accepted before, keeping transition weights; reversing twice restores the language.", "quantifier": "every transducer with at least one final state, every word", "why_tests_cant": "in-place reversal with an auxiliary table; all graphs including self-loops and back edges", "anchors": ["lttoolbox/transducer.cc: reverse"]}
{"id": "C21", "title": "Minimisation preserves the weighted language", "statement": "minimize() keeps exactly the accepted words and, unless the transducer had a single weighted final state, exactly their weights.", "quantifier": "every transducer, every word", "why_tests_cant": "four passes over all graphs, infinite languages", "anchors": ["lttoolbox/transducer.cc: minimize"]}
{"id": "C22", "title": "Minimisation produces a smallest deterministic transducer", "statement": "After minimize() no deterministic transducer accepting the same label sequences has fewer states.", "quantifier": "every transducer and every competing deterministic transducer", "why_tests_cant": "quantifies over all competitors (finding: one state too many is possible because reverse adds a joining state; never more than one)", "anchors": ["lttoolbox/transducer.cc: minimize, reverse, determinize, joinFinals"]}
{"id": "C23", "title": "Optional, one-or-more and zero-or-more mean what they say", "statement": "optional() accepts the empty word or a word of the original; oneOrMore() accepts exactly the non-empty concatenations of words of the original; zeroOrMore() accepts exactly all concatenations; weights add up.", "quantifier": "every transducer with a final state, every word", "why_tests_cant": "unbounded iteration", "anchors": ["lttoolbox/transducer.cc: optional, oneOrMore, zeroOrMore"]}
{"id": "C24", "title": "Inserting a transducer concatenates it at a state; union unites", "statement": "After insertTransducer(s, t), paths from s to the returned state through the new part spell exactly the words of t, nothing already present changes, and unionWith(t) accepts exactly the words of either.", "quantifier": "every pair of transducers and every source state", "why_tests_cant": "all pairs of graphs", "anchors": ["lttoolbox/transducer.cc: insertTransducer, unionWith"]}
{"id": "C25", "title": "Inverting a transducer swaps the two sides", "statement": "After invert() the transducer relates y to x exactly when it related x to y before, with the same weights; inverting twice gives back the same transitions.", "quantifier": "every transducer and alphabet", "why_tests_cant": "all relations", "anchors": ["lttoolbox/transducer.cc: invert", "lttoolbox/lt_invert.cc"]}
{"id": "C26", "title": "Re-basing a transducer on another alphabet keeps its strings", "statement": "After updateAlphabet every transition spells the same pair of strings in the new alphabet as it did in the old one, and every symbol and pair already in the new alphabet keeps its code.", "quantifier": "every transducer and pair of alphabets", "why_tests_cant": "all alphabet histories on both sides", "anchors": ["lttoolbox/transducer.cc: updateAlphabet", "lttoolbox/lt_append.cc"]}
{"id": "C27", "title": "Symbol deletion and epsilonisation act exactly on the named symbols", "statement": "deleteSymbols removes exactly the paths using one of the symbols; epsilonizeSymbols keeps every path and its weight and erases exactly those symbols from the words; both terminate.", "quantifier": "every transducer and symbol set", "why_tests_cant": "all graphs (finding: epsilonizeSymbols does not terminate when the set contains the epsilon pair and a state has an epsilon transition)", "anchors": ["lttoolbox/transducer.cc: deleteSymbols, epsilonizeSymbols", "lttoolbox/lt_restrict.cc"]}
{"id": "C28", "title": "Character equivalences are applied exactly", "statement": "After applyACX a word is accepted exactly when the original accepted a word that differs from it only by replacing input characters by one of their declared equivalents, with the same output and weight.", "quantifier": "every transducer, alphabet and equivalence table", "why_tests_cant": "all words, all tables", "anchors": ["lttoolbox/transducer.cc: applyACX"]}
{"id": "C29", "title": "Composition is relational composition", "statement": "compose(g) relates x to z exactly when some y is related to x by this transducer and z to y by g (anchored mode).", "quantifier": "every pair of transducers over any alphabets without wildcard symbols, every pair of words", "why_tests_cant": "existential over intermediate words; product construction with epsilons", "anchors": ["lttoolbox/transducer.cc: compose", "lttoolbox/transducer.h: composeLabel", "lttoolbox/alphabet.cc: sameSymbol"]}
{"id": "C30", "title": "recognise() accepts exactly the words of the transducer", "statement": "recognise(word) returns true exactly when the input side of some accepting path spells the word.", "quantifier": "every transducer and word", "why_tests_cant": "all words (finding: a character matches any tag whose name contains it, and input-epsilon pairs are not followed)", "anchors": ["lttoolbox/transducer.cc: recognise"]}
{"id": "C31", "title": "Regular expressions compile to their language", "statement": "The transducer compiled from a regular expression accepts exactly the strings denoted by it, identity on both sides; malformed expressions are refused.", "quantifier": "every token sequence of the regular expression syntax", "why_tests_cant": "unbounded nesting, recursive-descent parser fused with construction", "anchors": ["lttoolbox/regexp_compiler.cc: RegexpCompiler"]}
{"id": "C32", "title": "A compiled dictionary section accepts exactly its entries", "statement": "The section transducer built from the entries accepts exactly the pairs obtained by concatenating, for some entry, one choice for each of its parts (literal pair, paradigm member, regular expression match).", "quantifier": "every sequence of entries and every order of insertion", "why_tests_cant": "trie sharing between arbitrarily many entries (finding: over-generation when a paradigm ends in a loop)", "anchors": ["lttoolbox/compiler.cc: matchTransduction, insertEntryTokens", "lttoolbox/transducer.cc: insertSingleTransduction, insertTransducer"]}
{"id": "C33", "title": "Entry weights are kept whatever other entries exist", "statement": "The weight of an entry in the compiled dictionary is the weight declared for it, independent of the other entries and of their order.", "quantifier": "every set of weighted entries and every order", "why_tests_cant": "depends on prefixes shared among arbitrary entries (finding: a prefix entry's weight leaks into or is lost to longer entries)", "anchors": ["lttoolbox/compiler.cc: matchTransduction", "lttoolbox/transducer.cc: insertSingleTransduction"]}
{"id": "C34", "title": "Parallel compilation gives the sequential result", "statement": "With worker threads enabled, minimising the sections in parallel yields, for every thread schedule, the same sections as the sequential run; composing sections in parallel yields a consistent alphabet.", "quantifier": "every interleaving of the worker threads", "why_tests_cant": "schedules cannot be enumerated by tests (finding: parallel composition shares one alphabet without a lock)", "anchors": ["lttoolbox/compiler.cc: Compiler::parse lines 71-88", "lttoolbox/lt_compose.cc: compose lines 49-89", "lttoolbox/alphabet.cc: operator()(int,int)"]}
{"id": "C35", "title": "Run-time stepping explores exactly the transducer's paths", "statement": "After any sequence of input steps the live analyses are exactly the paths from the initial state that read that input, each with the output symbols and weights along the path; nothing is lost or invented by reuse of internal buffers.", "quantifier": "every transducer without input-epsilon cycles, every input sequence", "why_tests_cant": "all paths of all graphs over unbounded inputs", "anchors": ["lttoolbox/state.cc: init, step, apply, apply_into, epsilonClosure"]}
{"id": "C36", "title": "Case-insensitive stepping accepts the letter or its alternative, never more", "statement": "Stepping with an alternative symbol explores exactly the paths reading the symbol or its alternative at that position; the careful variant uses the alternative only when the symbol itself has no continuation.", "quantifier": "every state and symbol pair", "why_tests_cant": "all graphs and inputs", "anchors": ["lttoolbox/state.cc: apply(int,int), apply(int,int,int), apply(int,set), apply_careful, step_careful"]}
{"id": "C37", "title": "Reported analyses are distinct, limited and sorted by weight", "statement": "The analyses reported for a word contain no duplicates, at most the requested number, in non-decreasing weight order, restricted to the requested number of weight classes, and every reported one is a real final path.", "quantifier": "every state, every limits", "why_tests_cant": "all multisets of analyses (finding: the weight-class limit counts analyses instead of classes)", "anchors": ["lttoolbox/state.cc: NFinals, filterFinals, filterFinalsArray"]}
{"id": "C38", "title": "Compound pruning keeps exactly the allowed analyses", "statement": "pruneCompounds keeps exactly the analyses with the minimum number of compound parts among those whose last part carries the required symbol; pruneStatesWithForbiddenSymbol removes exactly those containing the symbol.", "quantifier": "every set of live analyses", "why_tests_cant": "all sequences", "anchors": ["lttoolbox/state.cc: pruneCompounds, pruneStatesWithForbiddenSymbol, lastPartHasRequiredSymbol"]}
{"id": "C39", "title": "Bilingual look-up finds what the dictionary contains", "statement": "biltrans/lookup of a word returns the translations the transducer relates to it.", "quantifier": "every transducer and word", "why_tests_cant": "all words (finding: in the default case-insensitive mode a boolean is passed as alternative symbol and every look-up fails; the delimited form also drops the last character)", "anchors": ["lttoolbox/fst_processor.cc: step_biltrans, biltransfull, biltrans, lookup", "lttoolbox/fst_processor.h: beCaseSensitive", "lttoolbox/state.cc: step(int,int), apply(int,int)"]}
{"id": "C40", "title": "Escaping is reversible and complete", "statement": "Text written with escapes contains no unescaped stream metacharacter and reading it back by the stream's escape rule gives the original text.", "quantifier": "every string", "why_tests_cant": "all strings, all placements of metacharacters and backslashes", "anchors": ["lttoolbox/fst_processor.cc: writeEscaped, writeEscapedPopBlanks, writeEscapedWithTags, readAnalysis", "lttoolbox/fst_processor.h: appendEscaped"]}
{"id": "C41", "title": "Unmerging undoes merging", "statement": "quoteMerge joins each marked sequence of lexical units into one and leaves everything else as it was; when the generator has turned the merged unit round (^S<MERGED>/S$), quoteUnmerge writes the merged words and the text between them as running text, and the rest as it was.", "quantifier": "every stream of lexical units and blanks", "why_tests_cant": "unbounded streams with nested escapes", "anchors": ["lttoolbox/fst_processor.cc: quoteMerge, quoteUnmerge"]}
{"id": "C42", "title": "Reading blanks consumes exactly the blank", "statement": "readBlock/readBlank return exactly the bracketed text up to its closing bracket respecting escapes, the stream continues right after it, and concatenating the pieces gives back the input.", "quantifier": "every input stream", "why_tests_cant": "all nestings and escapes, end of input anywhere", "anchors": ["lttoolbox/input_file.cc: readBlock, finishWBlank, readBlank"]}
{"id": "C43", "title": "UTF-8 input is decoded correctly and put-back is exact", "statement": "Reading a well-formed UTF-8 stream yields its code points in order; peek does not consume; unget followed by get returns the same character.", "quantifier": "every sequence of code points and every sequence of get/peek/unget", "why_tests_cant": "all code points, all histories", "anchors": ["lttoolbox/input_file.cc: internal_read, get, peek, unget"]}
{"id": "C44", "title": "UTF-16 conversion is a bijection on code points", "statement": "Appending code points to a string and splitting the string into code points are mutually inverse on Unicode scalar values.", "quantifier": "every sequence of scalar values", "why_tests_cant": "2^20 values, unbounded sequences", "anchors": ["lttoolbox/ustring.h: operator+=", "lttoolbox/ustring.cc: ustring_to_vec32"]}
{"id": "C45", "title": "The input buffer replays exactly what was read", "statement": "A circular input buffer rewound to an earlier position replays exactly the symbols read since, as long as no more than its capacity was read, over any history of reads and rewinds.", "quantifier": "every history of add/next/peek/back/setPos within capacity", "why_tests_cant": "unbounded histories, wrap-around", "anchors": ["lttoolbox/buffer.h: Buffer"]}
{"id": "C46", "title": "sorted_vector behaves as a mathematical set", "statement": "Over any history of insertions, range insertions and erasures the container holds exactly the set of elements inserted and not erased, in strictly increasing order; find, count, lower_bound and intersects answer accordingly.", "quantifier": "every operation history", "why_tests_cant": "unbounded histories; merge/unique shortcuts", "anchors": ["lttoolbox/sorted_vector.hpp: sorted_vector"]}
{"id": "C47", "title": "Pattern transition look-up finds exactly the stored keys", "statement": "The binary search over a matcher node's transitions returns the target stored for the symbol, or nothing if there is none.", "quantifier": "every sorted transition table and symbol", "why_tests_cant": "index arithmetic for every size", "anchors": ["lttoolbox/sorted_vector.cc: SortedVector::search", "lttoolbox/match_node.cc: addTransition"]}
{"id": "C48", "title": "The pattern matcher tracks exactly the live nodes", "statement": "After any symbol sequence the matcher's live nodes are exactly those reachable in the pattern automaton by that sequence, and the rule reported is the smallest permitted rule number among them or -1.", "quantifier": "every automaton, symbol sequence and banned set", "why_tests_cant": "ring buffer wrap-around after 1024 pushes (finding: more than 1023 live nodes are lost)", "anchors": ["lttoolbox/match_state.cc: init, step, applySymbol, classifyFinals, size"]}
{"id": "C49", "title": "Tag patterns split at dots", "statement": "The pattern list sees the tags of a dotted pattern as exactly the pieces between the dots.", "quantifier": "every tag string and index", "why_tests_cant": "all placements of dots (finding: wrong when the string begins with a dot)", "anchors": ["lttoolbox/pattern_list.cc: tagCount, tagAt"]}
{"id": "C50", "title": "Stream tokens partition the string", "statement": "Iterating over a string by symbols yields tags as single symbols, escaped characters without their backslash, and the pieces cover the string without loss; no read is outside the string.", "quantifier": "every string", "why_tests_cant": "all strings (finding: one code unit past the end is read)", "anchors": ["lttoolbox/symbol_iter.cc: symbol_iter::iterator::operator++"]}
{"id": "C51", "title": "Splitting and joining are inverse", "statement": "join(split(s)) restores s up to empty pieces; split_escaped respects escapes; substitute replaces every occurrence and terminates.", "quantifier": "every string and delimiter", "why_tests_cant": "all strings (finding: substitute does not terminate for an empty pattern)", "anchors": ["lttoolbox/string_utils.cc: split, split_escaped, join, substitute"]}
{"id": "C52", "title": "Dictionary expansion lists exactly the dictionary's pairs", "statement": "Expanding an entry lists exactly the pairs obtained by choosing one expansion for each part, direction restrictions respected.", "quantifier": "every sequence of entries and paradigms", "why_tests_cant": "product of unbounded choices", "anchors": ["lttoolbox/expander.cc: procEntry, append"]}
{"id": "C53", "title": "A serialised transducer comes back", "statement": "Deserialising a serialised transducer gives the same initial state, final states with weights and transitions, and leaves the stream right behind it.", "quantifier": "every transducer", "why_tests_cant": "all transducers and all weights, including their bit patterns", "anchors": ["lttoolbox/transducer.cc: serialise, deserialise", "lttoolbox/serialiser.h", "lttoolbox/deserialiser.h"]}
{"id": "C54", "title": "Compound analysis finds exactly the compounds of the longest form", "statement": "compoundAnalysis reports, for an input word, the analyses that consume the whole word with the fewest compound elements, at most the allowed number, and nothing when there is none.", "quantifier": "every dictionary and word", "why_tests_cant": "unbounded number of ways to cut a word", "anchors": ["lttoolbox/fst_processor.cc: compoundAnalysis", "lttoolbox/state.cc: restartFinals, pruneCompounds"]}
{"id": "C55", "title": "The stream reader splits a stream into exactly its units", "statement": "Reading a stream unit by unit gives each unit's blank, word-bound blank, readings with their mark, text and symbols, and chunk, in order; nothing is lost, and at the end or at a NUL the remaining blank is given.", "quantifier": "every well-formed stream and alphabet", "why_tests_cant": "unbounded streams with nested blocks, escapes and blanks", "anchors": ["lttoolbox/stream_reader.cc: StreamReader::next, readReading"]}
{"id": "C56", "title": "Analysis cuts the text into longest matches and loses nothing", "statement": "FSTProcessor::analysis prints, for every text, a sequence of tokens that cover it in order: the longest beginning the dictionary accepts (followed by a non-letter unless the section is inconditional) with exactly its analyses, a maximal run of letters as an unknown word, or a single character; blanks are kept, and every part ended by a NUL is analysed on its own and followed by a NUL.", "quantifier": "every dictionary and every text", "why_tests_cant": "unbounded texts and dictionaries; back-tracking depends on everything read before", "anchors": ["lttoolbox/fst_processor.cc: analysis, analysis_wrapper_null_flush, readAnalysis"]}
{"id": "C57", "title": "The same entries are compiled and expanded", "statement": "An entry is compiled for a direction exactly if its restriction, its ignore mark and its alternative and variant lists admit that direction, and lt-expand lists the entry for just the directions it is compiled for.", "quantifier": "every entry, every choice of alternative and variants, both directions", "why_tests_cant": "two programs that decide the same with different code, over all attribute values", "anchors": ["lttoolbox/compiler.cc: filterEntry, procEntry", "lttoolbox/expander.cc: procEntry"]}
{"id": "C58", "title": "Exactly the dictionaries with words that cannot be looked up are refused", "statement": "lt-comp refuses a dictionary exactly if some word of a section has nothing on the side that is read, or a space as the first thing read; otherwise it gives the compiled sections unchanged.", "quantifier": "every dictionary, both directions", "why_tests_cant": "the words come from paradigms and regular expressions, so there are unboundedly many, and the check is made on the minimised automaton and not on the entries", "anchors": ["lttoolbox/compiler.cc: parse, valid", "lttoolbox/alphabet.cc: symbolsWhereLeftIs", "lttoolbox/transducer.cc: closure"]}
{"id": "C59", "title": "Generation replaces every word by exactly its surface forms", "statement": "FSTProcessor::generation writes a stream with each lexical unit replaced by all surface forms the dictionary gives for it, cheapest first and separated by slashes, in the casing of the unit; units marked unknown and units without a form are marked and shown as the mode says; everything between units, and every NUL, is kept.", "quantifier": "every dictionary, every generation mode and every well-formed stream", "why_tests_cant": "unbounded streams, dictionaries and ambiguity; seven modes times the marks times the casings", "anchors": ["lttoolbox/fst_processor.cc: generation, removeTags", "lttoolbox/state.cc: step_careful, filterFinals", "lttoolbox/stream_reader.cc: StreamReader::next"]}
{"id": "C60", "title": "Bilingual look-up translates every unit and carries the rest over", "statement": "FSTProcessor::bilingual writes each lexical unit followed by its translations: those of the longest beginning of the unit the dictionary has, cheapest first, each followed by the symbols left over; <ANY_CHAR> in the dictionary stands for whatever symbol was read. Units without a translation and units marked unknown are passed on with a mark. Marks, escapes and the text between units are kept, so that the result can be read again.", "quantifier": "every dictionary, mode and well-formed stream, also with tags the dictionary does not have", "why_tests_cant": "unbounded streams and dictionaries; the alphabet grows while the stream is read; which beginning is longest depends on all paths of the dictionary", "anchors": ["lttoolbox/fst_processor.cc: bilingual, compose", "lttoolbox/state.cc: step_override, filterFinalsArray", "lttoolbox/stream_reader.cc: StreamReader::next"]}
{"id": "C61", "title": "A compiled, written and loaded dictionary has exactly its words", "statement": "If lt-comp compiles a dictionary and writes it to a file, the file can be loaded; and what is then read to a final node and what is written is exactly a word of the dictionary: for generation and translation the words of all sections, for analysis those of each kind of sections apart. Look-up, generation and analysis with the loaded file always end and give a result exactly for the words of the dictionary. A section whose name has none of the four kinds stops the analyser.", "quantifier": "every dictionary, both directions, every text and stream", "why_tests_cant": "it joins the compiler, the automaton operations, the file format and the processor; a test can only try some words of some dictionaries, never that no other word is accepted", "anchors": ["lttoolbox/compiler.cc: parse, write", "lttoolbox/fst_processor.cc: load, calcInitial, classifyFinals, initAnalysis, initGeneration, initBiltrans", "lttoolbox/trans_exe.cc: TransExe::read", "lttoolbox/transducer.cc: Transducer::write"]}
{"id": "C62", "title": "Generation undoes analysis", "statement": "A dictionary compiled in the two directions gives an analyser and a generator that are inverse to each other: the analyser maps a surface form to a lexical form exactly if the generator maps the lexical form to the surface form. So an analysis printed by the analyser, given to the generator, yields exactly the surface forms with that analysis, the analysed one among them.", "quantifier": "every dictionary, every word of it, every lexical form", "why_tests_cant": "it relates two compiled files and two programs over unboundedly many words; a test can only try some round trips", "anchors": ["lttoolbox/compiler.cc: parse, matchTransduction, compileEntry", "lttoolbox/fst_processor.cc: analysis, generation, initAnalysis, initGeneration", "lttoolbox/state.cc: filterFinals"]}
{"id": "C63", "title": "Trimming keeps exactly the analyses the bilingual dictionary covers", "statement": "Transducer::trim keeps an analysis with its weight if, compound marks aside, its right side is the left side of a word of the bilingual dictionary, or a sequence of such parts joined by '+'; it drops every other analysis, adds none, and always ends. With a multiword analysis a+b#c, the invariable part after '#' is looked up after the first part.", "quantifier": "every analyser and every bilingual dictionary, with cycles, epsilons, weights and <ANY_CHAR>/<ANY_TAG>", "why_tests_cant": "the kept set is defined over unboundedly many analyses of a cyclic product automaton; a test can only look at some of them, and the search is over triples of states whose numbering decides which arcs are lost", "anchors": ["lttoolbox/transducer.cc: Transducer::trim, joinFinals", "lttoolbox/alphabet.cc: sameSymbol", "lttoolbox/lt_trim.cc: trim"]}
{"id": "C64", "title": "lt-trim keeps exactly the analyses that can be translated", "statement": "lt-trim reads an analyser and a bilingual dictionary and writes an analyser with, section by section, exactly the analyses whose lexical form, or each part of it between '+', begins with a word of the dictionary followed by nothing but further tags; a section named with --match-section is matched with the section of the same name only, all others with the union of the rest. Weights are kept, and a lemma queue after '#' is matched as it stands in the dictionary.", "quantifier": "every analyser and bilingual dictionary, with any number of sections and any set of section names to match", "why_tests_cant": "it joins the union and minimisation of the sections, the tag loops put behind every word, the reordering of lemma queues and the product search; a test can only try some words, never that no other analysis is kept", "anchors": ["lttoolbox/lt_trim.cc: trim", "lttoolbox/transducer.cc: appendDotStar, moveLemqsLast, copyWithTagsFirst, trim, unionWith, minimize", "lttoolbox/alphabet.cc: createLoopbackSymbols"]}
{"id": "C65", "title": "Restricting a dictionary compiled for all choices gives what compiling for one choice gives", "statement": "lt-comp in unified mode keeps direction, variant and alternative attributes of entries as symbols in the transducer; lt-restrict then makes a dictionary for one direction and choice. In each section it leaves exactly the words of the entries, within paradigms too, whose attributes admit the direction, the alternatives and the variants asked for, turned round for right to left; the result has the same words as the dictionary compiled at once with the same options.", "quantifier": "every dictionary with any attributes, both directions, every choice of variants and alternatives", "why_tests_cant": "it relates two ways of compiling over all words of all dictionaries; the symbols for attributes pass through tries, shared paradigms, minimisation, deletion and inversion, where a test sees only some words", "anchors": ["lttoolbox/compiler.cc: procEntry, symbolFilters, unified compilation", "lttoolbox/lt_restrict.cc: main, get_symbol", "lttoolbox/transducer.cc: deleteSymbols, epsilonizeSymbols, invert, minimize"]}
{"id": "C66", "title": "An AT&T file compiles to exactly the words it gives", "statement": "lt-comp reads a file in AT&T format, with one or more transducers separated by lines of hyphens, and compiles it. The words accepted, with their weights, are exactly those the file gives: the sequences of columns along the lines from the start of one of its transducers to a final state. Words that begin with punctuation go to final@inconditional and the others to main@standard, none is lost or added; the letters of the compiled file are the word characters in the file, in both cases.", "quantifier": "every AT&T file with any number of transducers, states, multi-character columns and weights, in both directions, with and without HFST conventions and splitting", "why_tests_cant": "the words of a cyclic transducer are unboundedly many, and the split depends on all paths that lead to a state; a test can only try some words of some files", "anchors": ["lttoolbox/att_compiler.cc: parse, add_transition, symbol_code, classify_forwards, classify_backwards, extract_transducer, write", "lttoolbox/lt_comp.cc: main"]}
{"id": "C67", "title": "Printing a compiled file in AT&T format and compiling it again gives back its words", "statement": "lt-print writes the sections of a compiled file as transducers in AT&T format, one after the other. The text gives exactly the words of the sections with their weights, so that compiling it again accepts exactly the words that one of the sections accepted.", "quantifier": "every compiled file with any number of sections, states, tags and weights, with and without HFST conventions", "why_tests_cant": "it relates a printer and a parser of unboundedly many files with cyclic transducers; a test can only try some files and some words", "anchors": ["lttoolbox/lt_print.cc: main", "lttoolbox/transducer.cc: show, joinFinals, escapeSymbol", "lttoolbox/att_compiler.cc: parse, convert_hfst"]}
{"id": "C68", "title": "Transliteration and post-generation replace exactly what the dictionary says", "statement": "lt-proc -t, -p and -x rewrite a text word by word: from left to right, at each place the longest stretch of text the dictionary knows, possibly across several words, is replaced by its cheapest translation, in the letter case of the text, and the search goes on behind it. Blanks, superblanks and word-bound blanks keep their places and are joined where words are joined; everything else is written as it was read, post-generation leaves out the mark '~', and the NUL that closes a section is kept. The program comes to an end on every text.", "quantifier": "every dictionary, every text of words, tags, escapes, blanks and word-bound blanks, any number of sections closed by NUL", "why_tests_cant": "the matches depend on unbounded stretches of text ahead of the word, on queues of blanks and on replacements that are scanned again; tests show single sentences, and cannot show that nothing is lost, swapped or scanned for ever in any text", "anchors": ["lttoolbox/fst_processor.cc: transliteration, postgeneration, intergeneration, readTransliterationWord, readTransliterationBlank, wblankPostGen", "lttoolbox/alphabet.cc: tokenize", "lttoolbox/string_utils.cc: merge_wblanks"]}
{"id": "C69", "title": "A compiled list of patterns answers with the first rule that fits", "statement": "PatternList collects the patterns of numbered rules, as lemma and tags with '*' for anything and as sequences joined by '+' with labels for the patterns of earlier rules, and builds an automaton. A MatchState taken over a word, however it was used before, then reports the least number among the rules one of whose patterns fits the whole word, a queue after '_', ' ' or '#' being allowed, and -1 exactly when no rule fits.", "quantifier": "every list of rules, with any lemmas, tags, wildcards, sequences and labels, every word and every earlier use of the MatchState", "why_tests_cant": "the automaton shares beginnings and loops between all the patterns, and words are unbounded: whether one pattern hides another or is lost depends on the whole list of rules", "anchors": ["lttoolbox/pattern_list.cc: beginSequence, endSequence, insertOutOfSequence, insertIntoSequence, insert, buildTransducer", "lttoolbox/match_exe.cc: MatchExe", "lttoolbox/match_state.cc: step, classifyFinals"]}
{"id": "C70", "title": "Compiled dictionaries can be joined, turned round and respelt without changing any other word", "statement": "lt-append puts the sections of two compiled dictionaries into one file: each section of the result has exactly the words of that section in the second file if it is there, otherwise in the first (with -k the first goes before the second), with the same symbols, pairs and weights although the two files number their symbols differently, and the letters are those of both. lt-invert swaps the two sides of exactly the words there were, in each section. lt-apply-acx adds exactly the words in which characters are replaced by declared equivalents.", "quantifier": "every pair of compiled dictionaries with any alphabets, sections and weights, and every table of equivalents", "why_tests_cant": "all sections share one alphabet that grows while they are processed; a symbol that changed its meaning for an earlier section would show only on certain words of certain pairs of dictionaries", "anchors": ["lttoolbox/lt_append.cc: main", "lttoolbox/lt_invert.cc: main", "lttoolbox/lt_apply_acx.cc: main", "lttoolbox/transducer.cc: updateAlphabet, invert, applyACX", "lttoolbox/file_utils.cc: writeTransducerSet"]}
{"id": "C71", "title": "A pattern given to lt-paradigm lists exactly the words that fit it", "statement": "lt-paradigm reads patterns, one a line, of characters, tags, '*' for any letters, <*> for any tags, <*|a|b> for any of these tags, <*-a-b> for any tags but these and <|a|b> for one of these. For each it prints a line analysis:form for every word of the dictionary whose analysis fits, and for no other, with an analyser (-a) as with a generator; with -s in the order of the text and each once. The tags given with -e are not among those that a star stands for. The patterns before one have no effect on its answer.", "quantifier": "every compiled dictionary with any sections and alphabet, every sequence of patterns, and all the options", "why_tests_cant": "patterns stand for unboundedly many words and pass through a trie with loops, an intersection with every section and a listing of paths, over an alphabet that grows with each pattern; tests show the answers of a few patterns", "anchors": ["lttoolbox/lt_paradigm.cc: expand, split_tag, process, main", "lttoolbox/transducer.cc: trim, joinFinals, linkStates", "lttoolbox/string_utils.cc: symbol_iter", "lttoolbox/input_file.cc: get"]}
{"id": "C72", "title": "A word looked up with its queue is answered by its longest known beginning and the rest", "statement": "biltransWithQueue returns a text and a number. The text has the translations of the longest beginning of the word that the bilingual dictionary has, separated by slashes, each followed by the rest of the word; the number is the length of that rest. Letter case follows the word, a word without tags is translated only as a whole, a word of which nothing is known comes back with '@', one marked '*' as it is, and a mark '=' is kept; with delimiters ^ and $ stand around the answer.", "quantifier": "every compiled dictionary with unweighted output, every word, with and without delimiters and marks, case-sensitive and not", "why_tests_cant": "the longest known beginning depends on all the paths of the dictionary and on symbols read after it; tests show single words, and cannot show that no beginning is missed and nothing of the rest is lost", "anchors": ["lttoolbox/fst_processor.cc: biltransWithQueue, compose", "lttoolbox/state.cc: step_case, isFinal, filterFinalsArray, filterFinals", "lttoolbox/symbol_iter.h: symbol_iter"]}
{"id": "C73", "title": "A dictionary document compiles to the dictionary it describes", "statement": "lt-comp reads an XML dictionary. Whatever its layout, comments and further attributes, the letters are those of the alphabet element, the symbols those declared, and each section accepts exactly the words that its entries, with the paradigms they use, describe in the direction asked for, entries left out by their attributes excepted; a document with a word that could not be used is refused. In a separable dictionary every word is accepted with and without a final word boundary.", "quantifier": "every document of alphabet, symbol definitions, paradigms and sections, with entries of i, ig, p, re and par elements in any order, any text and comments between them, any selection of entries and both directions", "why_tests_cant": "the document is an unbounded stream of nodes through which a hand-written reader with skipping loops goes; a node skipped or taken twice shows only with a certain layout, and sections share one alphabet and all paradigms", "anchors": ["lttoolbox/compiler.cc: parse, procNode, procDictionary, procAlphabet, procSDef, procParDef, procEntry, procTransduction, procIdentity, procRegexp, procPar, procSection, readString, skip, skipBlanks, requireEmptyError, requireAttribute"]}
{"id": "C74", "title": "lt-expand lists the dictionary a document describes", "statement": "lt-expand reads an XML dictionary. Whatever its layout, comments and further attributes, it prints for each entry of the sections, in order, one line for every expansion the entry has with the paradigms it uses, each in the directions it is for, and no other line; two documents of the same dictionary are listed alike.", "quantifier": "every document of alphabet, symbol definitions, paradigms and sections, with entries of i, ig, p, re and par elements in any order, any text and comments between them, and any options", "why_tests_cant": "the document is an unbounded stream of nodes through which a hand-written reader goes that mostly ignores the result of the XML reader; a node skipped or taken twice shows only with a certain layout", "anchors": ["lttoolbox/expander.cc: expand, procNode, procParDef, procEntry, procTransduction, procIdentity, procIdentityGroup, procRegexp, readString, skip, skipBlanks, requireEmptyError"]}
{"id": "C75", "title": "lt-expand lists what lt-comp compiles", "statement": "For one XML dictionary and the same options, every line of lt-expand that is for the direction lt-comp was asked for is a word of a section that lt-comp compiles, with the same two sides, and every word of a section has such a line.", "quantifier": "every document of alphabet, symbol definitions, paradigms and sections, in any layout, any options and both directions", "why_tests_cant": "the two programs read the document with two hand-written readers and combine paradigms in different ways, one over texts and one over automata; tests compare each with expected outputs of a few dictionaries and never with one another", "anchors": ["lttoolbox/compiler.cc: parse, procEntry, insertEntryTokens, write", "lttoolbox/expander.cc: expand, procEntry", "lttoolbox/entry_token.cc: EntryToken"]}
{"id": "C76", "title": "A translation memory compiles to its units", "statement": "lt-tmxcomp reads a TMX document and two languages. Whatever its layout and further variants, the compiled memory has one word for each unit with a text of some length in both languages, and no other: the source with a symbol <n> for each number and a blank for each inline element, the translation with @(k) for the number that is the k-th of the source and (#) for each inline element.", "quantifier": "every document of units with variants in any languages and order, any texts, numbers, inline elements and nodes between them", "why_tests_cant": "numbers, inline elements and blanks may come anywhere in texts of any length and are cut by hand-written loops with positions; a number cut or counted wrongly shows only where it stands in a certain way, and words of all units share one transducer", "anchors": ["lttoolbox/tmx_compiler.cc: parse, procNode, procTU, insertTU, trim, align, numberLength, split, join, align_blanks"]}
{"id": "C77", "title": "Looking a text up in a translation memory", "statement": "lt-tmxproc replaces the units of the memory in a text by their translations in brackets, where something that may follow a unit follows (punctuation; with -s also a space): the first such place from the left, with the numbers of the text for @(k) and its format blanks, or spaces, for (#). The rest of the text, its format blanks included, is kept as it is, and the numbers and blanks of one unit are never used for another.", "quantifier": "every memory, every text of characters, escaped characters, numbers and format blanks, both modes", "why_tests_cant": "whether a place is a unit depends on all the paths of the memory and on text read beyond it, and numbers and blanks are kept in queues filled while reading ahead; a queue that is not in step with the text shows only after false starts of certain kinds", "anchors": ["lttoolbox/fst_processor.cc: tm_analysis, readTMAnalysis, tm_wrapper_null_flush, printSpace, flushBlanks", "lttoolbox/state.cc: filterFinalsTM", "lttoolbox/lt_tmxproc.cc: main"]}
{"id": "C78", "title": "From a TMX document to a translated text", "statement": "A document compiled by lt-tmxcomp and used by lt-tmxproc translates texts by the units of the document: wherever a text has the source of a unit, with any numbers for those of the unit and capital letters for small ones, and something that may end a unit follows, the translations of all units with such a source are written, every one once, with the numbers and format blanks of the text; the rest of the text is kept. A file that lt-tmxproc cannot use is refused, for every text.", "quantifier": "all TMX documents whose words fit the file format, pairs of languages, texts of characters, numbers, blanks and escaped characters, character classes and case tables", "why_tests_cant": "Two programs, a file and a graph lie between the document and the text; a test compares one document with one text and cannot show that determinization, minimization, sharing of prefixes and the weights of the file lose or repeat no translation for any document.", "anchors": ["lttoolbox/tmx_compiler.cc: write", "lttoolbox/lt_tmxcomp.cc: main", "lttoolbox/lt_tmxproc.cc: main", "lttoolbox/fst_processor.cc: load, initTMAnalysis, valid, tm_analysis"]}
{"id": "C79", "title": "Lists of patterns survive their files", "statement": "A list of patterns that one program builds and writes and another reads matches like the original: same alphabet, nodes and final types, so every word gets the same rule number, the least of a rule that fits.", "quantifier": "all sequences of insertions, labels and sequences whose symbols and rule numbers fit the format, all words, banned rules and lists read into", "why_tests_cant": "The transducer is written with a bias for its tags and the final types separately by state number; one lost or shifted entry shows only for words that end in that state.", "anchors": ["lttoolbox/pattern_list.cc: write, read, newMatchExe", "lttoolbox/match_exe.cc: MatchExe"]}
{"id": "C80", "title": "Ignored characters make no difference", "statement": "lt-proc analyses a text with characters to be ignored (the soft hyphen, or those of the files of -i) exactly as the text without them: same words, same analyses, same blanks, also with -z. The files of -i add exactly the characters they list; -I switches the soft hyphen off.", "quantifier": "every dictionary, every list of files of characters in any layout, every text in which the ignored characters stand anywhere before another character, an escape or a blank", "why_tests_cant": "ignored characters are skipped inside the reader that analysis calls ahead of time and backs up over with positions into a circular buffer; one that is counted or kept shows only in front of certain symbols, after a false start or across a NUL", "anchors": ["lttoolbox/fst_processor.cc: parseICX, procNodeICX, isIgnored (readAnalysis), initGeneration", "lttoolbox/lt_proc.cc: main"]}
{"id": "C81", "title": "Restored characters", "statement": "With -r files lt-proc reads a word as every word that it may stand for: each character as itself, as one the files give for it, or as its lower-case letter; the analyses are exactly those of the words of the dictionary of that kind.", "quantifier": "every list of files in any layout, every dictionary and every word, both case modes", "why_tests_cant": "the number of words that a word may stand for grows exponentially with its length and all are followed at once through the paths of the dictionary", "anchors": ["lttoolbox/fst_processor.cc: parseRCX, procNodeRCX, analysis", "lttoolbox/state.cc: step(input, alts)", "lttoolbox/lt_proc.cc: main"]}
{"id": "C82", "title": "Files of equivalent characters", "statement": "readACX reads from a file exactly the equivalents it lists for each character, whatever its layout, and refuses every other document; lt-apply-acx with the file makes a dictionary whose words are those of the original with any characters to be read replaced by equivalents.", "quantifier": "every XML document and every compiled dictionary", "why_tests_cant": "the characters may be of one or two UTF-16 units, in any order, in entries with or without equivalents, and the words of the result are all combinations of equivalents over all paths", "anchors": ["lttoolbox/acx.cc: readACX, get_val", "lttoolbox/xml_walk_util.cc: children, getattr, load_xml", "lttoolbox/lt_apply_acx.cc: main", "lttoolbox/transducer.cc: applyACX"]}
{"id": "C83", "title": "Compiling with equivalent characters", "statement": "A dictionary compiled by lt-comp lr with a file of equivalent characters accepts its words in every spelling the file allows: where an entry writes a character on the left, one of its equivalents may stand, with the same right side, any number of times in a word; nothing else is accepted. For rl the file makes no difference.", "quantifier": "every document of equivalents, every dictionary of paradigms and sections, both directions", "why_tests_cant": "equivalents are extra arcs to shared states of a trie that later entries go on from, and the number of spellings grows exponentially with the length of a word; a word too many shows only for certain combinations of entries", "anchors": ["lttoolbox/compiler.cc: parseACX, matchTransduction, insertEntryTokens", "lttoolbox/acx.cc: readACX", "lttoolbox/lt_comp.cc: main"]}
{"id": "C84", "title": "Annotated texts", "statement": "lt-proc -s writes a text with every word (a run of letters) that the dictionary accepts replaced by one of its analyses, tags as &name; and in the letter case of the word, and every other word within <d> and </d>; all the rest, escaped characters and blocks of CDATA included, is kept as it is and in its place.", "quantifier": "every dictionary and every text of characters, escaped characters and blocks of CDATA, of any length", "why_tests_cant": "words are found by reading ahead and backing up in a circular buffer while blocks of CDATA wait in a queue; whether a character is lost, repeated or read for ever depends on where in a word the dictionary or the file ends", "anchors": ["lttoolbox/fst_processor.cc: SAO, readSAO, printSAOWord, printSpace", "lttoolbox/state.cc: filterFinalsSAO", "lttoolbox/lt_proc.cc: main"]}
{"id": "C85", "title": "Command lines", "statement": "Every program reads its command line by the conventions of getopt_long: letters alone or together, values attached, after '=' or in the next argument, long names also cut short, options and files in any order, '--' before the last files. Exactly the options given are set, each option has its values in order, the files are in order; too few or too many files, unknown options, missing and superfluous values end the program with the usage, and -h and --help show it.", "quantifier": "every table of options whose letters and names differ (those of all the programs do) and every list of arguments", "why_tests_cant": "there are unboundedly many ways of writing one request; a table without an end mark goes unnoticed as long as the memory behind it happens to be zero", "anchors": ["lttoolbox/cli.cc: parse_args, print_usage, add_file_arg", "lttoolbox/lt_*.cc: main"]}
{"id": "C86", "title": "What lt-proc is told to do", "statement": "lt-proc does what its options say: one command (analysis by default, generation if only a kind of generation is given, lexical transfer together with generation), in the kind asked for, with the switches, files of characters and numeric limits given; requests that contradict each other and limits that are not positive numbers are refused.", "quantifier": "every command line of lt-proc, of any length", "why_tests_cant": "27 options in any number and order; the decision is a chain of tests that depends on the order of the tests, not of the options", "anchors": ["lttoolbox/lt_proc.cc: main", "lttoolbox/cli.cc: parse_args"]}
{"id": "C87", "title": "Files named on the command line", "statement": "lt-proc and lt-merge read and write the files named on their command lines; a missing name and '-' stand for the standard input or output.", "quantifier": "every command line and every choice of names", "why_tests_cant": "tests name all the files or none; which name is consulted for which stream shows only when some are left out", "anchors": ["lttoolbox/lt_proc.cc: main", "lttoolbox/lt_merge.cc: main", "lttoolbox/file_utils.cc: openInBinFile, openOutTextFile", "lttoolbox/input_file.cc: open_or_exit"]}
{"id": "C88", "title": "Dictionaries on the standard output", "statement": "A dictionary written by any of the programs, to a file or to the standard output (no name, or '-'), is read back with the same letters, alphabet, section names and sections. While it is written, one line for each section is printed on the standard output: its name, the number of its states and the number of its arcs.", "quantifier": "every alphabet, every set of letters and every set of sections that fits the format, of any size", "why_tests_cant": "the lines are text in the middle of binary data; the readers take them for the length of a name and go on without complaint, and with a single section nothing is wrong", "anchors": ["lttoolbox/file_utils.cc: writeTransducerSet, readTransducerSet, openOutBinFile", "lttoolbox/ustring.h: operator<<", "lttoolbox/transducer.cc: size, numberOfTransitions"]}
{"id": "C89", "title": "What lt-comp is told to do", "statement": "lt-comp compiles the dictionary named, in the direction named, with the variants, alternative, switches and section size given; a file that is no XML is compiled as AT&T text, reversed for rl. A direction other than lr, rl and u, a left variant for lr and a right variant for rl are refused, and so is whatever else is given that cannot be used.", "quantifier": "every command line of lt-comp, every value of LT_JOBS and LT_MAX_SECTION_ENTRIES, every kind of input file", "why_tests_cant": "options, files and variables of the environment combine without bound; what is silently left unused leaves no trace in the output", "anchors": ["lttoolbox/lt_comp.cc: main", "lttoolbox/cli.cc: parse_args", "lttoolbox/file_utils.cc: openOutBinFile"]}
{"id": "C90", "title": "What lt-tmxcomp is told to do", "statement": "lt-tmxcomp lang1-lang2 memory output compiles the memory named from lang1 to lang2 into the file named, with the language codes given by -o and -m; other command lines are refused.", "quantifier": "every command line of lt-tmxcomp", "why_tests_cant": "the arguments are taken from the end of an argv that getopt_long has reordered, so what is what depends on the number and the order of all arguments", "anchors": ["lttoolbox/lt_tmxcomp.cc: main", "lttoolbox/tmx_compiler.cc: setOriginLanguageCode, setMetaLanguageCode"]}
{"id": "C91", "title": "Matched rules of lexical selection", "statement": "The rules that State::filterFinalsLRX reports are exactly those that the alive final states spell: the words are what stands before each mark <$>, in order, each symbol shown by its text (in upper case if that is asked for) and special characters after a backslash; empty words are not counted; what follows the last mark is the name of the rule. Each final state says exactly one thing, nothing is reported twice, and neither the order of the states nor repeating one changes the result.", "quantifier": "for all sets of alive states, all paths of symbols of the alphabet and characters, all alphabets, sets of special characters and both cases", "why_tests_cant": "the result is a set built from any number of paths of any length, with words cut at a symbol recognised by its text; tests fix a few rules", "anchors": ["lttoolbox/state.cc: filterFinalsLRX", "lttoolbox/alphabet.cc: getSymbol"]}
{"id": "C92", "title": "Case of words is found out and copied", "statement": "StringUtils::getcase gives aa, Aa or AA as the first and the last character of the word are upper case letters (a single capital is Aa), whatever planes the characters are in; StringUtils::copycase rewrites the target in small letters, title case or capitals by the same reading of the source, leaves it alone if either is empty, and always gives a word.", "quantifier": "for all words of Unicode characters, all targets and all case mappings", "why_tests_cant": "characters outside the first plane take two units, so first and last have to be found from both ends; whether the result fits the buffer depends on the mapping of each word", "anchors": ["lttoolbox/string_utils.cc: getcase, copycase, tolower, toupper, totitle"]}
{"id": "C93", "title": "Files named to the programs that make a dictionary of others", "statement": "lt-append, lt-apply-acx, lt-compose, lt-invert, lt-restrict and lt-trim write to the output what they make of the contents the inputs had when the program was started, also if the output is one of the inputs; no other file changes; if an input is missing, or the program fails, the output is as it was.", "quantifier": "for all states of the files, all names, and all contents", "why_tests_cant": "whether a file survives depends on the order in which files are opened, emptied and read, for every choice of names", "anchors": ["lttoolbox/lt_append.cc: main", "lttoolbox/lt_apply_acx.cc: main", "lttoolbox/lt_compose.cc: main", "lttoolbox/lt_invert.cc: main", "lttoolbox/lt_restrict.cc: main", "lttoolbox/lt_trim.cc: main", "lttoolbox/file_utils.cc: openInBinFile, openOutBinFile"]}
