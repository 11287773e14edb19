{
 "claims": [
  {
   "property": "C01",
   "status": "proved",
   "theorems": [
    "C01_integers_roundtrip",
    "C01_large_refused",
    "C01_sequences_roundtrip"
   ],
   "note": ""
  },
  {
   "property": "C02",
   "status": "proved",
   "theorems": [
    "C02_unique",
    "C02_prefix_free",
    "C02_size",
    "C02_monotone"
   ],
   "note": ""
  },
  {
   "property": "C03",
   "status": "proved",
   "theorems": [
    "C03_strings_roundtrip"
   ],
   "note": "Strings of fewer than 2^30 UTF-16 units, paired or unpaired surrogates."
  },
  {
   "property": "C04",
   "status": "proved",
   "theorems": [
    "C04_exact",
    "C04_rounding",
    "C04_infinities"
   ],
   "note": "NaN is not modelled; negative zero is read back as zero (equal value)."
  },
  {
   "property": "C05",
   "status": "proved",
   "theorems": [
    "C05_features_roundtrip",
    "C05_unknown_refused",
    "C05_old_format",
    "C05_cut_header_refused"
   ],
   "note": ""
  },
  {
   "property": "C06",
   "status": "proved",
   "theorems": [
    "C06_roundtrip",
    "C06_truncated_refused",
    "C06_unique"
   ],
   "note": "All types except those containing UTF-16 units (see C07). Doubles as 64-bit patterns."
  },
  {
   "property": "C07",
   "status": "partial",
   "theorems": [
    "C07_refuted",
    "C07_ascii_roundtrip_partial",
    "C07_what_comes_back",
    "C07_other_units_change"
   ],
   "note": "False of the code: Deserialiser<UChar> returns char. Proved: refutation, the exact mapping of units, and the round trip for 7-bit strings."
  },
  {
   "property": "C08",
   "status": "proved",
   "theorems": [
    "C08_tag_code_stable",
    "C08_tag_codes_distinct",
    "C08_defined_iff_included",
    "C08_pair_code_stable",
    "C08_pair_codes_distinct",
    "C08_epsilon_pair",
    "C08_setSymbol_refuted"
   ],
   "note": "setSymbol is outside the histories; the refutation shows why."
  },
  {
   "property": "C09",
   "status": "proved",
   "theorems": [
    "C09_file_roundtrip"
   ],
   "note": ""
  },
  {
   "property": "C10",
   "status": "partial",
   "theorems": [
    "C10_refuted",
    "C10_out_of_bounds_refuted",
    "C10_restored_partial"
   ],
   "note": "False of the code: the loop restoring the pair map is bounded by the number of tags."
  },
  {
   "property": "C11",
   "status": "proved",
   "theorems": [
    "C11_roundtrip",
    "C11_unweighted"
   ],
   "note": "Files below 2^30 in every count, as the number format requires."
  },
  {
   "property": "C12",
   "status": "partial",
   "theorems": [
    "C12_roundtrip",
    "C12_runtime_agrees",
    "C12_runtime_loads",
    "C12_letters_bmp_partial",
    "C12_letters_refuted"
   ],
   "note": "Alphabet, sections and run-time graph proved for every dictionary, and the letters when given as a string (the compiler). False for letters outside the BMP when given as a set of code points (lt-trim, lt-compose, lt-apply-acx, lt-restrict): C12_letters_refuted."
  },
  {
   "property": "C13",
   "status": "partial",
   "theorems": [
    "C13_header_cut_partial",
    "C13_other_cuts_accepted",
    "C13_refuted",
    "C13_dictionary_refuted"
   ],
   "note": "False: the reader treats end of file as zero bytes. Proved exactly which cuts are reported (those inside the feature field)."
  },
  {
   "property": "C14",
   "status": "proved",
   "theorems": [
    "C14_call",
    "C14_history",
    "C14_from_new",
    "C14_no_exit",
    "C14_same_as_lists",
    "C14_missing_source_refuted"
   ],
   "note": "Proved on the std::map with the search for a free number, for every history of calls on existing states; C14_same_as_lists shows that the list model used by the other theorems does the same. With a missing source (excluded by the property) the numbering breaks, which is proved too."
  },
  {
   "property": "C15",
   "status": "proved",
   "theorems": [
    "C15_closure",
    "C15_closure_all",
    "C15_agree"
   ],
   "note": ""
  },
  {
   "property": "C16",
   "status": "proved",
   "theorems": [
    "C16_determinize"
   ],
   "note": ""
  },
  {
   "property": "C17",
   "status": "proved",
   "theorems": [
    "C17_deterministic"
   ],
   "note": ""
  },
  {
   "property": "C18",
   "status": "partial",
   "theorems": [
    "C18_refuted",
    "C18_reverse_refuted",
    "C18_default_partial",
    "C18_where_from"
   ],
   "note": "False of the code: determinize looks the final weight up under the new state number, and reverse drops the weight of a lone final state. Proved: refutations, the default-weight case, and where every final weight comes from."
  },
  {
   "property": "C19",
   "status": "proved",
   "theorems": [
    "C19_joinFinals",
    "C19_no_finals"
   ],
   "note": ""
  },
  {
   "property": "C20",
   "status": "proved",
   "theorems": [
    "C20_reverse_labels",
    "C20_reverse",
    "C20_twice"
   ],
   "note": "Total weights are kept except that the weight of a lone final state is lost; the theorem says exactly by how much."
  },
  {
   "property": "C21",
   "status": "partial",
   "theorems": [
    "C21_minimize",
    "C21_no_finals",
    "C21_empty_language_exits",
    "C21_lone_weight_refuted"
   ],
   "note": "Proved whenever some word is accepted or there is no final state; with unreachable final states only, the code ends the process, which is proved too."
  },
  {
   "property": "C22",
   "status": "partial",
   "theorems": [
    "C22_refuted",
    "C22_within_one",
    "C22_smallest_partial"
   ],
   "note": "False of the code by one state. Proved: the refutation, the bound of one extra state, and minimality when the determinised reversal has one final state."
  },
  {
   "property": "C23",
   "status": "proved",
   "theorems": [
    "C23_optional",
    "C23_oneOrMore",
    "C23_zeroOrMore"
   ],
   "note": ""
  },
  {
   "property": "C24",
   "status": "partial",
   "theorems": [
    "C24_insert",
    "C24_union",
    "C24_union_exact_partial",
    "C24_union_words_refuted",
    "C24_union_weight_refuted"
   ],
   "note": "insertTransducer is proved in full. unionWith over-generates when the first transducer has a loop through its initial state and drops the weight of a lone final state; its exact language is proved."
  },
  {
   "property": "C25",
   "status": "proved",
   "theorems": [
    "C25_traces",
    "C25_relation",
    "C25_twice"
   ],
   "note": ""
  },
  {
   "property": "C26",
   "status": "partial",
   "theorems": [
    "C26_pairs",
    "C26_single_partial",
    "C26_single_refuted"
   ],
   "note": "Proved in full for two-sided transducers. One-sided mode (lt-append --single) looks every non-negative tag up in the pair table, out of bounds for ordinary letters: refuted, and proved when every such lookup succeeds."
  },
  {
   "property": "C27",
   "status": "partial",
   "theorems": [
    "C27_delete",
    "C27_epsilonize",
    "C27_epsilonize_refuted"
   ],
   "note": "Deletion proved in full. Epsilonisation proved when the epsilon pair is not among the symbols; otherwise it never ends as soon as there is an epsilon transition, which is proved."
  },
  {
   "property": "C28",
   "status": "proved",
   "theorems": [
    "C28_applyACX"
   ],
   "note": ""
  },
  {
   "property": "C29",
   "status": "partial",
   "theorems": [
    "C29_product",
    "C29_words",
    "C29_composition",
    "C29_anywhere",
    "C29_no_finals",
    "C29_tags_refuted",
    "C29_weights_refuted",
    "C29_subpath_refuted"
   ],
   "note": "Termination and the exact relation proved in every mode (wildcards, right-to-left, anywhere), and relational composition for plain transducers over known tags. Refuted: tags of the second unknown to the first alphabet vanish; of two weights for a pair one is lost; --anywhere matches only end parts of paths."
  },
  {
   "property": "C30",
   "status": "partial",
   "theorems": [
    "C30_exact",
    "C30_characters_partial",
    "C30_refuted"
   ],
   "note": "False of the code: a unit matches any tag whose name contains it and input-epsilon pairs are not passed. Proved: exactly what is accepted, and the property for transducers whose non-epsilon pairs all have one BMP character as input."
  },
  {
   "property": "C31",
   "status": "partial",
   "theorems": [
    "C31_language",
    "C31_standard",
    "C31_accepted",
    "C31_outcomes",
    "C31_negated_refuted",
    "C31_trailing_refuted",
    "C31_dangling_refuted"
   ],
   "note": "Proved for every token sequence: an expression without negated classes compiles to exactly its language, and what compiles is characterised. Refuted: a negated class accepts the empty string and no symbol above 255, a closing parenthesis too many cuts the expression silently, and an empty expression or a backslash at the end reads outside the vector."
  },
  {
   "property": "C32",
   "status": "partial",
   "theorems": [
    "C32_sections",
    "C32_order",
    "C32_undefined",
    "C32_self",
    "C32_loop_refuted",
    "C32_empty_paradigm_refuted",
    "C32_alternatives_refuted"
   ],
   "note": "Proved for every dictionary (paradigms, sections, literals, expressions) whose paradigms are defined once, before use; paradigms used before the end of an entry are finite; the paradigm right before a section is not empty; no alternative characters, not separable. Each excluded case has a refutation: a looping paradigm over-generates, an empty paradigm swallows the next section, alternative characters over-generate. XML reading is not modelled."
  },
  {
   "property": "C33",
   "status": "partial",
   "theorems": [
    "C33_apart",
    "C33_sums",
    "C33_unweighted",
    "C33_prefix_refuted",
    "C33_elements_refuted"
   ],
   "note": "Proved: a section of literal entries none of which is a beginning of another keeps every weight, in every order; in every dictionary whatever the settings the weight of a word is a sum of weights written in it, and 0 without weights. Refuted: an entry which is a beginning of another takes or gives weight, and an entry of several literal elements counts its weight once per element."
  },
  {
   "property": "C34",
   "status": "partial",
   "theorems": [
    "C34_minimise",
    "C34_compose_serial",
    "C34_compose_known",
    "C34_compose_refuted",
    "C34_alphabet_refuted"
   ],
   "note": "Proved: for every schedule of the minimising threads the sections are those of the sequential run (or both exit), and every schedule ends; composing threads run one after the other give the sequential result, and every schedule does if the alphabet already has all pairs. Refuted: with new pairs two threads can take the same number, so that a section translates the wrong word, and the alphabet no longer fits the numbers."
  },
  {
   "property": "C35",
   "status": "partial",
   "theorems": [
    "C35_paths",
    "C35_steps",
    "C35_memory_safe",
    "C35_terminates",
    "C35_epsilon_cycle_refuted",
    "C35_weights_refuted",
    "C35_copy_refuted"
   ],
   "note": "Proved for every graph, history and number of State objects sharing a heap, with the cell pool modelled: the live analyses are exactly the paths, and no released cell is touched. False in two respects, both proved: an input-epsilon cycle makes stepping endless, and the weight of arcs that neither read nor write is dropped. The public copy() on a used object writes through released cells."
  },
  {
   "property": "C36",
   "status": "proved",
   "theorems": [
    "C36_alternatives",
    "C36_careful"
   ],
   "note": ""
  },
  {
   "property": "C37",
   "status": "partial",
   "theorems": [
    "C37_reported",
    "C37_complete",
    "C37_defined",
    "C37_words",
    "C37_is_final",
    "C37_line",
    "C37_weight_classes_refuted",
    "C37_repeats_count_refuted",
    "C37_wide_weight_refuted"
   ],
   "note": "Proved for every sorting routine and state: distinct, sorted, limited, real final paths, complete when the limits leave room, end to end from init/step, and recoverable from the written line. Refuted: the class limit counts analyses of non-zero weight rather than weight classes, repeated texts use up the allowance, and showing a weight of 10000 or more overruns a buffer."
  },
  {
   "property": "C38",
   "status": "partial",
   "theorems": [
    "C38_compounds",
    "C38_forbidden",
    "C38_first_separator_refuted"
   ],
   "note": "Proved in every reachable situation where no analysis starts with the separator; such an analysis is miscounted, which is proved."
  },
  {
   "property": "C39",
   "status": "partial",
   "theorems": [
    "C39_lookup",
    "C39_longest",
    "C39_returns",
    "C39_sections",
    "C39_output",
    "C39_marked",
    "C39_without_queue",
    "C39_without_queue_marked",
    "C39_default_refuted",
    "C39_last_unit_refuted",
    "C39_gap_refuted",
    "C39_full_refuted",
    "C39_single_refuted"
   ],
   "note": "Proved for case-sensitive processors and dictionaries with no arc on U+0001: lookup returns exactly the translations of the word, step_biltrans those of its longest known beginning. Refuted: in the default mode nothing is ever found; biltrans and biltransfull ignore the last unit of the word; symbols between the known beginning and the point where reading stops are lost; biltransfull answers ^$ for longer words; a single upper-case letter makes the code read behind the view."
  },
  {
   "property": "C40",
   "status": "partial",
   "theorems": [
    "C40_escaped",
    "C40_read_back",
    "C40_word",
    "C40_unknown",
    "C40_pop_blanks",
    "C40_pop_blanks_word",
    "C40_tags",
    "C40_ignored_refuted",
    "C40_mark_refuted",
    "C40_tags_refuted"
   ],
   "note": "Proved for every text: what writeEscaped writes says exactly the text, is read back by readAnalysis (texts without NUL, U+FFFF and ignored characters) and by StreamReader (texts not beginning with a mark); blanks taken from the queue are printed unless the word shows them. Refuted: an ignored character at the end reads as U+FFFF, a form beginning with a mark loses it, and writeEscapedWithTags leaves what follows a '<' in a lemma unescaped and escapes the tags after a lemma ending in a backslash."
  },
  {
   "property": "C41",
   "status": "partial",
   "theorems": [
    "C41_roundtrip",
    "C41_blank_refuted",
    "C41_unclosed_refuted",
    "C41_direct_refuted"
   ],
   "note": "Proved for every stream whose text between merged units has no escapes and no '/', '$' or brace. Refuted without that restriction, for a sequence that is never closed, and for the merged stream without the generator's step."
  },
  {
   "property": "C42",
   "status": "partial",
   "theorems": [
    "C42_block",
    "C42_wblank",
    "C42_blank",
    "C42_any_input",
    "C42_unclosed_refuted",
    "C42_nul_refuted"
   ],
   "note": "Proved for every well-formed blank in every UTF-8 stream, and that on every NUL-free input the pieces keep the text in order. False at the end of data inside a bracket or escape (U+FFFF is appended) and for a NUL inside a bracket (it is lost)."
  },
  {
   "property": "C43",
   "status": "partial",
   "theorems": [
    "C43_reads",
    "C43_decoded",
    "C43_malformed",
    "C43_rewind_refuted",
    "C43_noncharacter_refuted"
   ],
   "note": "Proved for every UTF-8 text and every program of get, peek, unget and eof; bytes that are not UTF-8 are refused. Refuted: rewind keeps characters put back, and U+FFFF in the text looks like the end."
  },
  {
   "property": "C44",
   "status": "proved",
   "theorems": [
    "C44_append_is_utf16",
    "C44_split_after_append",
    "C44_append_after_split"
   ],
   "note": ""
  },
  {
   "property": "C45",
   "status": "partial",
   "theorems": [
    "C45_tape",
    "C45_replay",
    "C45_full_refuted",
    "C45_same_position_refuted",
    "C45_copy_refuted"
   ],
   "note": "Proved for every history going back fewer symbols than the size. Refuted at exactly the capacity, for setting the position to where it already is after the last cell was filled, and for copied buffers (a quarter of the contents is copied)."
  },
  {
   "property": "C46",
   "status": "proved",
   "theorems": [
    "C46_contents",
    "C46_queries",
    "C46_intersects",
    "C46_canonical",
    "C46_assign_refuted"
   ],
   "note": "assign from const iterators copies without sorting and is outside the histories; the refutation shows why."
  },
  {
   "property": "C47",
   "status": "partial",
   "theorems": [
    "C47_search",
    "C47_exact",
    "C47_second_target_refuted"
   ],
   "note": "Proved for every sorted table; with two targets for one symbol only one is found, and such tables arise from patterns using labels."
  },
  {
   "property": "C48",
   "status": "partial",
   "theorems": [
    "C48_live",
    "C48_single_room",
    "C48_clear",
    "C48_full_refuted"
   ],
   "note": "Proved for every deterministic table and sequence of steps for which the ring has room (always for one symbol per step); refuted for 1024 paths."
  },
  {
   "property": "C49",
   "status": "partial",
   "theorems": [
    "C49_tags",
    "C49_leading_dot_refuted"
   ],
   "note": "Proved for every string not beginning with a dot; refuted for those that do."
  },
  {
   "property": "C50",
   "status": "partial",
   "theorems": [
    "C50_symbols",
    "C50_nothing_lost",
    "C50_unique",
    "C50_reads_past_refuted",
    "C50_backslash_behind_refuted"
   ],
   "note": "Proved for every string followed in memory by a unit that is no backslash (every std::basic_string). False in general: the unit behind the string is read, and a backslash there derails the iteration."
  },
  {
   "property": "C51",
   "status": "partial",
   "theorems": [
    "C51_split",
    "C51_join",
    "C51_join_split",
    "C51_split_join",
    "C51_split_join_unit",
    "C51_split_escaped",
    "C51_split_escaped_join",
    "C51_substitute",
    "C51_affixes",
    "C51_trim",
    "C51_join_refuted",
    "C51_split_empty_refuted",
    "C51_substitute_empty_refuted",
    "C51_trim_blank_refuted"
   ],
   "note": "Proved for every non-empty delimiter or pattern; for the empty one split and substitute never end. join drops the delimiter after leading empty pieces. trim reads behind a string of spaces."
  },
  {
   "property": "C52",
   "status": "partial",
   "theorems": [
    "C52_dictionary",
    "C52_sound",
    "C52_directions",
    "C52_text",
    "C52_text_unique",
    "C52_regexp",
    "C52_regexp_total",
    "C52_two_paradigms_refuted",
    "C52_variant_refuted",
    "C52_no_expansions_refuted",
    "C52_empty_paradigm_refuted",
    "C52_self_closing_refuted",
    "C52_first_character_refuted",
    "C52_unused_refuted"
   ],
   "note": "Proved for all dictionaries satisfying dictionary_fine: every section entry is listed with exactly its expansions as often as there are choices, with the right direction marks; for all dictionaries nothing else is listed. Refuted: in an entry with two paradigms the one-direction expansions of the first are lost; an entry for one direction by its variant loses its paradigms; an LR entry with a paradigm for RL ends the program if something follows; a paradigm all of whose entries are left out is undefined; a self-closing pardef swallows the sections; the first character of a text is not escaped; an entry both v and vr exclude is listed."
  },
  {
   "property": "C53",
   "status": "proved",
   "theorems": [
    "C53_roundtrip",
    "C53_unique",
    "C53_truncated"
   ],
   "note": "Every transducer that fits in memory; doubles as their bit patterns."
  },
  {
   "property": "C54",
   "status": "partial",
   "theorems": [
    "C54_compounds",
    "C54_returns",
    "C54_unfinished_refuted",
    "C54_limit_refuted",
    "C54_early_output_refuted",
    "C54_astral_refuted",
    "C54_inner_plus_refuted"
   ],
   "note": "Proved for every dictionary whose initial epsilon arcs write nothing and whose analyses do not begin with '+': compoundAnalysis reports exactly the final compounds (with or without case folding) that carry compound-R, are within the limit and have the fewest separators among the live ones, and it returns. Refuted: the fewest elements are taken over unfinished analyses too; the limit admits one element more; initial epsilon output of later parts is lost; characters beyond U+FFFF are not found; a '+' in a dictionary analysis counts as separator. Hypothesis calm: no state exceeds 32767 analyses and the case folding mode is the same throughout."
  },
  {
   "property": "C55",
   "status": "proved",
   "theorems": [
    "C55_unit",
    "C55_stream"
   ],
   "note": "Streams of every length in which blocks are closed."
  },
  {
   "property": "C56",
   "status": "partial",
   "theorems": [
    "C56_analysis",
    "C56_null_flush",
    "C56_tokens",
    "C56_lines",
    "C56_end_refuted",
    "C56_space_entry_refuted",
    "C56_tag_refuted",
    "C56_buffer_refuted",
    "C56_pair_refuted",
    "C56_escaped_space_refuted"
   ],
   "note": "Proved for every text of characters, escaped characters and blanks and every dictionary without preblank/postblank sections, restriction characters, decompounding and shown weights, whose entries do not begin with a space: the analysis ends, and its output is the sequence of longest matches; texts that end with white space such as a newline are covered completely. Refuted: at the end of the input what follows the last match is lost; a dictionary entry starting with a space makes the analysis loop for ever; an unescaped known tag prints U+FFFF and an unknown one ends the analysis; more than 2045 characters of look-ahead lose text; a character beyond U+FFFF that starts an entry is cut in half; an escaped space moves a blank and adds one."
  },
  {
   "property": "C57",
   "status": "partial",
   "theorems": [
    "C57_compiled",
    "C57_same",
    "C57_variant_refuted",
    "C57_list_refuted",
    "C57_restriction_refuted"
   ],
   "note": "Proved: which entries are compiled, for all attribute values; lt-expand agrees if the attributes are single words, v is empty or the variant asked for and the restriction is LR, RL or none. Refuted: entries of another variant v, lists of variants and misspelt restrictions. Unified compilation is C65."
  },
  {
   "property": "C58",
   "status": "partial",
   "theorems": [
    "C58_refused",
    "C58_empty",
    "C58_exact",
    "C58_loop_refuted"
   ],
   "note": "Proved for dictionaries meeting the conditions of C32 (no ACX file, not separable): nothing is refused without such a word; a word with nothing to read is always refused; and one beginning with a space is refused when there is a limit for the number of leading spaces. Refuted: after an insertion on the other side, a regular expression beginning with a repeated space gets through, because the space arc returns to its own state."
  },
  {
   "property": "C59",
   "status": "partial",
   "theorems": [
    "C59_stream",
    "C59_returns",
    "C59_case_sensitive",
    "C59_unique",
    "C59_lemma",
    "C59_careful_refuted",
    "C59_escapes_refuted",
    "C59_case_refuted",
    "C59_backslash_refuted"
   ],
   "note": "Proved for every well-formed stream and every mode: what is written for each unit, that everything else is kept, and that the program ends (no epsilon loops). The condition item_calm fixes whether case is folded during the run; it always holds of a case-sensitive processor. Refuted: mode -C loses words marked '@'; escaped characters of unknown words are escaped twice; aB is generated as AB; the tags of a lemma ending in a backslash are not removed."
  },
  {
   "property": "C60",
   "status": "partial",
   "theorems": [
    "C60_stream",
    "C60_returns",
    "C60_case_sensitive",
    "C60_one_reading",
    "C60_exclusive",
    "C60_marks_refuted",
    "C60_escape_refuted",
    "C60_chunk_refuted",
    "C60_single_refuted",
    "C60_keep_refuted"
   ],
   "note": "C60_stream: whatever is written is the specified result, part by part (hypotheses: letter case is folded throughout or never along the look-ups, as it is for a case-sensitive processor; no escaped NUL inside a unit). C60_returns: it returns for every stream if the dictionary has no cycle without input and weights are not shown. C60_one_reading, C60_exclusive: the specified result is determined by the dictionary. Refuted parts of the statement: marks other than * and # are lost, an escaped = # or % at the beginning loses its escape, text in braces is lost, and with -o and -O units with a single reading vanish or lose their mark."
  },
  {
   "property": "C61",
   "status": "partial",
   "theorems": [
    "C61_written",
    "C61_loads",
    "C61_words",
    "C61_kinds",
    "C61_reads",
    "C61_ready",
    "C61_lookup",
    "C61_generation",
    "C61_analysis"
   ],
   "note": "Proved for dictionaries without weights that meet the conditions of C32 (no ACX file, not separable) and are not too large for the file format. C61_lookup and C61_generation are for case-sensitive processors, C61_analysis also for others where the condition steady of C56 holds. Missing: weights, the separable option, ACX."
  },
  {
   "property": "C62",
   "status": "partial",
   "theorems": [
    "C62_inverse",
    "C62_roundtrip",
    "C62_star_refuted",
    "C62_case_refuted"
   ],
   "note": "C62_inverse: the two relations are inverse, for dictionaries as in C61 and entries that are the same in both directions. C62_roundtrip: the same for the text the generator writes, for a case-sensitive generator and lexical forms that do not begin with one of the marks * @ # = %. Refuted without these: a lexical form that begins with '*' is not generated, and aB comes back as ab when case is folded."
  },
  {
   "property": "C63",
   "status": "partial",
   "theorems": [
    "C63_kept",
    "C63_sound",
    "C63_whole",
    "C63_part_refuted",
    "C63_hash_refuted",
    "C63_group_refuted",
    "C63_weights_refuted"
   ],
   "note": "C63_kept: for analysers that write no separator of lt-compose and not both '#' and '+', trimming ends and keeps exactly the analyses covered by the dictionary; weights are kept if the dictionary has none on arcs that read nothing. C63_sound: no analysis is added, whatever the symbols. Refuted: the part before a '+' need not be a word of the dictionary, only the beginning of one; an arc with '#' makes the search lose the analyses through later arcs of the same state; a+b#c can be lost though a, b and a#c are words of the dictionary; weights of the dictionary's epsilon arcs are added to the analyses."
  },
  {
   "property": "C64",
   "status": "partial",
   "theorems": [
    "C64_kept",
    "C64_middle_refuted",
    "C64_weights_refuted",
    "C64_hash_sound_refuted",
    "C64_untagged_refuted",
    "C64_hash_mixed_refuted"
   ],
   "note": "C64_kept: for dictionaries without '#' and with the conditions of C63 on the analyser, lt-trim ends, keeps every analysis of a non-empty word whose lexical form is translated, and every analysis it keeps was there before and is translated, the latter if tags stand only at the end of each part. Weights are exact unless the analyser has a single final state with a weight. Refuted without these: tags may occur in the middle; the weight of a single final state is lost; if all words of the dictionary have '#', the analysis with nothing as its lexical form is kept; a word with '#' and without tags is lost; the queues of words that end in the same state of the dictionary are mixed (with a#b<n> and a#c<v> the analysis a<n>#c is kept). Missing: a positive theorem on lemma queues."
  },
  {
   "property": "C65",
   "status": "partial",
   "theorems": [
    "C65_restrict",
    "C65_direct",
    "C65_side_refuted",
    "C65_hyphens_refuted",
    "C65_minimise_refuted",
    "C65_symbol_refuted",
    "C65_blank_refuted"
   ],
   "note": "C65_restrict: unified compilation and then lt-restrict leave in each section exactly the words of the entries kept, for dictionaries in which no symbol looks like a restriction and attributes joined by hyphens stay different, and if a section to be minimised keeps a word. C65_direct: the same words as compiling at once, if the attribute of the other side (vl from left to right) admits what is asked for and no attribute consists of spaces. Refuted without these: vl and vr are both looked at by lt-restrict, only one by lt-comp; attributes that give the same name with hyphens share flags; -m with a section left without words ends with an error; a symbol <v:x> of the dictionary is erased; an attribute of spaces. Weights are not stated; the check for words that start or end in blanks (valid) is modelled but not compared."
  },
  {
   "property": "C66",
   "status": "partial",
   "theorems": [
    "C66_compile",
    "C66_letters",
    "C66_split_sound",
    "C66_split",
    "C66_parts",
    "C66_start_refuted",
    "C66_weights_refuted",
    "C66_split_refuted",
    "C66_empty_refuted",
    "C66_letters_refuted"
   ],
   "note": "C66_compile: without splitting the section accepts exactly the words of the file, with exact weights unless a transition is given twice with different weights, for every file whose lines are well formed and, if it has one transducer, starts at state 0. C66_letters: the letters are exactly the word characters and their other case, within 16 bits. C66_split_sound: with splitting no word is added. C66_split: a word that begins with a letter (punctuation) is in main@standard (final@inconditional) with its weight, if every line from the start begins with one of the two, the start is not final and no state on the way can be reached without reading a character of that kind; C66_parts: then words of each section begin accordingly if no line leads back to the start. Refuted without these: a transducer starting at another state compiles to nothing; a second weight is lost; a word such as ?zab is lost when it joins the states of zab; a file with the empty word is refused when splitting; letters beyond 16 bits are cut down. Weights are in millionths; rounding of doubles is not modelled."
  },
  {
   "property": "C67",
   "status": "partial",
   "theorems": [
    "C67_print",
    "C67_round",
    "C67_greek_refuted",
    "C67_tab_refuted",
    "C67_empty_refuted",
    "C67_initial_refuted"
   ],
   "note": "C67_print, C67_round: for sections that start at state 0, have an arc there and a final state, and whose symbols are tags in angle brackets or characters other than newline, U+FFFF and, without -H, tab and Greek epsilon: the text gives exactly the words of the sections with their weights, and compiling it with -S accepts exactly these (with exact weights if no two arcs differ in weight only). Refuted without these: epsilon is read as nothing, a tab breaks the line, a section without words ends the program, the initial state is not printed. Weights are in millionths."
  },
  {
   "property": "C68",
   "status": "partial",
   "theorems": [
    "C68_text",
    "C68_case_sensitive",
    "C68_ends",
    "C68_unchanged",
    "C68_letter_by_letter",
    "C68_shorter_refuted",
    "C68_end_refuted",
    "C68_escaped_space_refuted",
    "C68_unknown_tag_refuted",
    "C68_beyond_refuted",
    "C68_ends_refuted"
   ],
   "note": "C68_text: whenever the program returns, each section of the text is rewritten as the specification in TranslitSpec says (longest match, cheapest translation, letter case, joined words with their blanks, the place where the search goes on), for dictionaries whose outputs are within 16 bits or tags with names, if letter case is either always or never folded (that is, no state with 65536 analyses comes up when it is folded) and a blank or a NUL follows the last word. C68_ends: it returns if no translation is longer than what it replaces. C68_unchanged: a text with nothing in the dictionary comes out as it went in. C68_letter_by_letter: a dictionary of single letters maps exactly the letters. Refuted without these or in general: after a shorter replacement, text of the same word is passed over; U+FFFF is written if the input ends with a word; an escaped space is undefined behaviour; unknown tags vanish; outputs beyond 16 bits are lost; a letter replaced by two is scanned for ever."
  },
  {
   "property": "C69",
   "status": "partial",
   "theorems": [
    "C69_match",
    "C69_simple",
    "C69_stars_refuted",
    "C69_label_refuted",
    "C69_unknown_label_refuted",
    "C69_banned_refuted",
    "C69_room_refuted"
   ],
   "note": "C69_match: the answer is the least number of a fitting rule, or -1, if no lemma or tag list has two '*' in a row, tag names are not the three reserved ones, labels are known where used, numbers are below 2^31-1, no word is followed by '+' both directly and through a label, and the ring of 1024 has room. C69_simple: there is room for every word if there are at most 512 patterns in which nothing follows a '*' that it could take itself and a queue is last. Refuted without these: two '*' are taken for one, one of two '+' is lost, the parts before an unknown label are forgotten, banning a rule hides another with the same pattern, a rule is lost when the ring is full."
  },
  {
   "property": "C70",
   "status": "partial",
   "theorems": [
    "C70_append",
    "C70_invert",
    "C70_acx",
    "C70_letters_refuted",
    "C70_single_refuted"
   ],
   "note": "C70_append, C70_invert, C70_acx: for dictionaries whose sections have different names and use symbols of their alphabet, exactly the words stated, pair by pair with weights; the symbols of the first dictionary keep their codes; the letters too if they are within 16 bits. Refuted without that (letters beyond 16 bits become other letters) and for lt-append -s (a letter in a one-sided section is looked up outside the table of pairs)."
  },
  {
   "property": "C71",
   "status": "partial",
   "theorems": [
    "C71_pattern",
    "C71_listing",
    "C71_plus_refuted",
    "C71_unknown_tag_refuted",
    "C71_star_refuted",
    "C71_wide_refuted",
    "C71_loop_refuted",
    "C71_empty_section_refuted",
    "C71_exclude_refuted"
   ],
   "note": "C71_listing: for all sequences of patterns, with and without -a, -s and -e, the lines printed are exactly those of the words that fit (all of them if no section has a cycle), if every section has a final state, on the side of the analyses is no '+' and no <$>, <$_>, <$->, and the patterns use tags of the dictionary and characters other than '*' within 16 bits. C71_pattern: the transducer built for a pattern. Refuted without these: '+' restarts the pattern, unknown tags are left out of it, an escaped star is a star, characters of two units are left out, with a cycle words are missing, a section without final states ends the program; and -e does not disregard the paths that contain the tag."
  },
  {
   "property": "C72",
   "status": "partial",
   "theorems": [
    "C72_answer",
    "C72_marked",
    "C72_number",
    "C72_last_unit_refuted",
    "C72_gap_refuted",
    "C72_nothing_refuted",
    "C72_astral_refuted",
    "C72_single_refuted"
   ],
   "note": "C72_answer: total correctness for all dictionaries without epsilon cycles and all words, with the unit left out made explicit: the translations of the longest known beginning, each followed by the symbols from the one on where the dictionary can read no further; '@' for unknown words. Refuted: the last unit of the word is left out; symbols between the known beginning and that point are lost; a word with tags that can be read but is not in the dictionary is answered by nothing; a letter outside the basic plane counts as a tag; one upper-case letter without delimiters is read beyond its end. Weights are off (p_weights = false)."
  },
  {
   "property": "C73",
   "status": "partial",
   "theorems": [
    "C73_reading",
    "C73_document",
    "C73_layout",
    "C73_separable",
    "C73_refused",
    "C73_closing_refuted",
    "C73_truncated_refuted",
    "C73_empty_entry_refuted",
    "C73_pardef_refuted",
    "C73_alphabet_comment_refuted",
    "C73_alphabet_alone_refuted",
    "C73_comment_refuted",
    "C73_par_pair_refuted",
    "C73_verbose_refuted"
   ],
   "note": "C73_reading: every document, separable or not, reaches the compiler as the dictionary it describes; C73_document: for the others, the words of the sections are those described, or the document is refused and has a word that cannot be used (conditions of C32); C73_layout: layout makes no difference; C73_separable: every path also with <$>; C73_refused: elements of a side that should be empty and are not, unknown ones and undeclared symbols are refused. For documents in which symbols come before they are used, as the DTD asks, not unified, without warnings and without splitting of sections. Refuted: a file that breaks off between entries is compiled; left out entries <e .../>, <pardef/>, <alphabet/>, <par></par>, comments within letters or sides are not read as written; with -V an empty side is undefined behaviour; a separable dictionary may accept a word that is none."
  },
  {
   "property": "C74",
   "status": "partial",
   "theorems": [
    "C74_reading",
    "C74_document",
    "C74_layout",
    "C74_refused",
    "C74_comment_refuted",
    "C74_empty_entry_refuted",
    "C74_left_out_refuted",
    "C74_boundary_refuted",
    "C74_useless_refuted",
    "C74_truncated_refuted",
    "C74_expression_refuted",
    "C74_undeclared_refuted"
   ],
   "note": "C74_reading: every document without comments in pairs and after the last paradigm of an entry is expanded as the dictionary it describes, with the same outcome; C74_document: so with the conditions of C52 every entry is listed with exactly its expansions; C74_layout: layout makes no difference; C74_refused: elements of a side that should be empty and are not, and unknown ones, are refused. The _refuted ones: comments in pairs, in expressions and before the end of an entry, empty entries, <f/> and boundaries, documents that break off, symbols not declared."
  },
  {
   "property": "C75",
   "status": "partial",
   "theorems": [
    "C75_agree",
    "C75_side_unique",
    "C75_two_paradigms_refuted",
    "C75_variants_refuted",
    "C75_one_line_refuted"
   ],
   "note": "C75_agree: for one document, with the conditions of C73 and C74 and entries that both programs select alike (C57) and without <re>, the lines of lt-expand for a direction and the words of the sections compiled in that direction are the same, side by side; C75_side_unique: a side of a line stands for one sequence of symbols. Refuted without these: of two paradigms in an entry, words of the first for one direction only are compiled but not listed; alt=\"x y\" and v=\"x\" are compiled and not listed (or for one direction only); one word may have two lines."
  },
  {
   "property": "C76",
   "status": "partial",
   "theorems": [
    "C76_memory",
    "C76_sides",
    "C76_short_refuted",
    "C76_number_refuted",
    "C76_literal_refuted",
    "C76_last_mark_refuted",
    "C76_empty_refuted",
    "C76_header_refuted"
   ],
   "note": "C76_memory: for two different languages, every document of units compiles to exactly the words of its units with at least five symbols on both sides; C76_sides: a unit has one pair of sides, and has one unless a number missing in the source comes near the beginning of the translation. Refuted: short units are left out; a number missing in the source leaves both sides with their digits, or is cut so that the end of it becomes a reference; @(1) and (#) of the texts are not told from references; an inline element at the end is dropped; <tuv/> runs on into the next unit and <tu/> never ends; <note> in the header is refused."
  },
  {
   "property": "C77",
   "status": "partial",
   "theorems": [
    "C77_text",
    "C77_cut_unique",
    "C77_end_refuted",
    "C77_numbers_refuted",
    "C77_decimal_refuted",
    "C77_reference_refuted",
    "C77_start_refuted",
    "C77_escape_refuted",
    "C77_tag_refuted",
    "C77_blank_refuted"
   ],
   "note": "C77_text: a text that is cut into units, rest and an unfinished end (the only way, C77_cut_unique), and whose units can be filled in, is written as the translations of the units, filled with their own numbers and blanks, and the rest as it is; no cut of the text includes an escaped character inside a word, a longer beginning of another unit over a unit, or tags. C77_end_refuted: what is a unit or begins one at the end of the text is lost, for every memory. Refuted by cases: numbers read again, or forgotten by a shorter unit, are undefined behaviour; numbers of a section reach the next one; decimals are split and units with figures never found; @(1) without a number is undefined behaviour; a unit inside the word after a false start is missed; backslashes inside words are lost; an unknown tag ends the section; blanks of a false start at the end are written twice."
  },
  {
   "property": "C78",
   "status": "partial",
   "theorems": [
    "C78_writes",
    "C78_text",
    "C78_cut_unique",
    "C78_refused",
    "C78_start_refuted",
    "C78_decimal_refuted",
    "C78_number_refuted",
    "C78_reference_refuted"
   ],
   "note": "C78_writes: every document of units with a unit long enough is compiled to a file if it fits the format. C78_text: with the file loaded, every text that is cut by the sources of the document (the only way, C78_cut_unique), and whose units can be filled in, is written as C77 says, with exactly the translations of the document's units, each once, in some order. C78_refused: if one source begins with a blank, lt-tmxproc refuses the file for every text. Refuted by cases: an inline element at the beginning of one unit makes the whole file useless; a unit with a decimal number does not translate its own text; a number written in words in the translation is replaced all the same, so that 7 cats are translated by twelve; a unit whose translation has a number of its own is never found; @(1) in a translation without numbers is undefined behaviour."
  },
  {
   "property": "C79",
   "status": "partial",
   "theorems": [
    "C79_file",
    "C79_reply",
    "C79_match",
    "C79_number_refuted",
    "C79_cut_refuted"
   ],
   "note": "C79_file: whatever a client inserts, if it fits the format the list is written and read back into any list with the same alphabet, nodes and final types; C79_reply: every word then gets the reply of the original list; C79_match: with C69, the least number of a rule that fits. Refuted: rule numbers from 2^30 on and negative ones match but cannot be written; a file cut behind the alphabet, or in front of the final types, is read without complaint and matches nothing. Not modelled: serialise, deserialise of lists."
  },
  {
   "property": "C80",
   "status": "partial",
   "theorems": [
    "C80_text",
    "C80_file",
    "C80_default",
    "C80_invalid",
    "C80_ltproc",
    "C80_default_refuted",
    "C80_astral_refuted",
    "C80_value_refuted",
    "C80_broken_refuted",
    "C80_end_refuted"
   ],
   "note": "C80_text: for every dictionary and every text, analysis prints the same for the text with ignored characters and without them, also in the null-flush mode; C80_file, C80_default: which characters are ignored, by files and options; C80_invalid: other elements end the program; C80_ltproc: both together. Assumes that '[', backslash and NUL are not to be ignored and that something follows each ignored character. Refuted: -I with -i still ignores the soft hyphen; characters beyond U+FFFF are not ignored; <char/> makes NULs disappear; a malformed file is used up to the error; an ignored character at the end of the input is printed as U+FFFF."
  },
  {
   "property": "C81",
   "status": "partial",
   "theorems": [
    "C81_file",
    "C81_invalid",
    "C81_word",
    "C81_printed",
    "C81_capital_refuted",
    "C81_hyphen_refuted",
    "C81_tolower_refuted",
    "C81_orphan_refuted"
   ],
   "note": "C81_file: the map has exactly the pairs of the files, and what is ignored then; C81_word: the analyses held after a word are exactly the paths of the dictionary over the words it may stand for; C81_printed: the analyses printed for it. For characters below U+10000, no NULs, one case mode throughout the word (it changes when the set of analyses grows too large), capital letters on which C and ICU agree. Refuted: a capital letter is not restored through its small letter without an entry of its own; -r switches the soft hyphen off; capital letters beyond U+00FF in the files are undefined behaviour, and so is a <restore-char> outside <char>."
  },
  {
   "property": "C82",
   "status": "partial",
   "theorems": [
    "C82_file",
    "C82_accepted",
    "C82_dictionary",
    "C82_twice_refuted",
    "C82_empty_refuted"
   ],
   "note": "C82_file: the table has the equivalents of the first entry of each character that has any, so all if no character has two entries; C82_accepted: other documents, with attributes that are not empty, end the program with a message; C82_dictionary: with C70, the words of the dictionary that lt-apply-acx makes. Refuted: a second entry for a character is dropped silently; an empty value follows a null pointer."
  },
  {
   "property": "C83",
   "status": "partial",
   "theorems": [
    "C83_sections",
    "C83_spellings",
    "C83_file",
    "C83_direction",
    "C83_shared_refuted",
    "C83_stuck_refuted",
    "C83_regexp_refuted"
   ],
   "note": "C83_sections: compilation succeeds and each section accepts exactly the words of the dictionary with what entries write out respelt on the left; C83_spellings: without regular expressions, exactly the spellings of the words accepted without equivalents; C83_file: the same for lt-comp lr with a document; C83_direction: lt-comp rl does not look at the file and compiles as without. For dictionaries that do not themselves write the equivalents of characters they write, and the conditions of C32. Refuted without these: a dictionary that writes an equivalent may accept spellings of no word; three characters with one equivalent may leave the compiler without a state (undefined behaviour); characters matched by regular expressions are not respelt."
  },
  {
   "property": "C84",
   "status": "partial",
   "theorems": [
    "C84_text",
    "C84_kept",
    "C84_lost_refuted",
    "C84_end_refuted",
    "C84_cdata_refuted",
    "C84_slash_refuted",
    "C84_capital_refuted",
    "C84_dash_refuted",
    "C84_twice_refuted"
   ],
   "note": "C84_text: for dictionaries without inconditional and postblank sections whose entries consist of letters and whose analyses have no slash, every text that does not end within a word is written as described (shown in SaoSpec.v; which of several analyses is not said); C84_kept: a text without words is copied. Refuted without these: a word of the dictionary, or the beginning of one, at the very end of the file is lost; an unknown word there makes the program run for ever, unless its last letter begins a word of the dictionary; so does a block of CDATA that is not closed and, with entries that begin with other characters than letters, a text that begins like one; entries with other characters inside make text appear twice; an analysis with a slash is cut there; a word of one capital letter has its whole analysis in capitals."
  },
  {
   "property": "C85",
   "status": "partial",
   "theorems": [
    "C85_tables",
    "C85_read",
    "C85_ends",
    "C85_refused",
    "C85_names_refuted"
   ],
   "note": "C85_read, C85_ends, C85_refused: all of it for the tables of all programs (C85_tables), with long names written out in full. Refuted (C85_names_refuted): the vector of long options has no end mark, so a long name that is cut short or unknown - also --help for programs that do not list it - is undefined behaviour. getopt_long itself is modelled from its definition in glibc, not verified."
  },
  {
   "property": "C86",
   "status": "partial",
   "theorems": [
    "C86_task",
    "C86_one",
    "C86_kinds_refuted",
    "C86_numbers_refuted"
   ],
   "note": "C86_task: for every command line read by C85 the task, the switches and the limits, and the refusal of commands at odds; C86_one: the task is determined. Refuted: kinds of generation that contradict each other or the command are not refused (one of them, or all, are ignored); text after the digits of a limit is ignored, and a limit above 2^31-1 is undefined behaviour."
  },
  {
   "property": "C87",
   "status": "partial",
   "theorems": [
    "C87_proc",
    "C87_merge",
    "C87_dash_refuted",
    "C87_merge_refuted"
   ],
   "note": "C87_proc: lt-proc, unless the text is given as '-'; C87_merge: lt-merge with two files or none. Refuted: for lt-proc a text '-' is a file of that name; lt-merge with one file does not read it but the standard input (lt_merge.cc:38 tests the second name instead of the first)."
  },
  {
   "property": "C88",
   "status": "partial",
   "theorems": [
    "C88_lines",
    "C88_file",
    "C88_one_section",
    "C88_several_refuted"
   ],
   "note": "C88_lines: what is printed, for names without halves of surrogate pairs. C88_file: a file of its own is read back. C88_one_section: so is a standard output with one section. Refuted for the standard output with two sections or more (C88_several_refuted): whenever the first name begins with a Latin letter and all names are shorter than 256 units, a reader that does not fail returns a section nobody wrote. std::cout and stdout are taken as one buffer (no program switches their synchronisation off)."
  },
  {
   "property": "C89",
   "status": "partial",
   "theorems": [
    "C89_build",
    "C89_missing",
    "C89_acx_refuted",
    "C89_variants_refuted",
    "C89_number_refuted"
   ],
   "note": "C89_build: for every command line read by C85, what is compiled and how, and the refusals named. C89_missing: a dictionary that cannot be opened. Refuted: a file of equivalent characters is ignored for rl, u and AT&T text; of several variants all but the first are ignored; an LT_MAX_SECTION_ENTRIES that is no number ends in an uncaught exception. What libxml2 finds at the beginning of the file is an argument of the model."
  },
  {
   "property": "C90",
   "status": "partial",
   "theorems": [
    "C90_plain",
    "C90_only",
    "C90_options_refuted",
    "C90_single_refuted"
   ],
   "note": "C90_plain: the languages and files; C90_only: nothing else is accepted, but for one case. Refuted: the options -o and -m can never be given, as the program insists on three arguments and takes the first of them for the languages (C90_options_refuted); a single language is taken for both (C90_single_refuted)."
  },
  {
   "property": "C91",
   "status": "proved",
   "theorems": [
    "C91_rules",
    "C91_one",
    "C91_order"
   ],
   "note": "C91_rules: what is reported against an independent reading of the paths of the final states; C91_one: the reading is unique; C91_order: order and repetition of states do not matter. Assumed: tag numbers are within the alphabet, characters and their upper case are code points, and tags are not special characters."
  },
  {
   "property": "C92",
   "status": "partial",
   "theorems": [
    "C92_getcase",
    "C92_copycase",
    "C92_empty",
    "C92_one_way",
    "C92_safe",
    "C92_long_refuted"
   ],
   "note": "C92_getcase, C92_copycase: all words of Unicode characters against their first and last character, with the result or the end of the program; C92_one_way: the reading is unique; C92_empty. Refuted: the case cannot always be copied, as there is room for twice the units only (C92_long_refuted: U+0390, whose upper case has three; the mapping is a hypothesis on ICU). Of words with halves of surrogate pairs only C92_safe speaks (nothing outside the word is read)."
  },
  {
   "property": "C93",
   "status": "partial",
   "theorems": [
    "C93_apart",
    "C93_others",
    "C93_missing",
    "C93_failure_refuted",
    "C93_old_refuted",
    "C93_in_place_refuted"
   ],
   "note": "C93_apart: an output of its own; C93_others: no other file ever changes; C93_missing: a missing input. Refuted: if the program fails later the old output is gone (C93_failure_refuted); a dictionary cannot be rewritten in place: what it held makes no difference in any of the six programs (C93_old_refuted), and lt-invert and lt-apply-acx succeed and leave a dictionary without sections, whatever there was (C93_in_place_refuted), as the output is emptied before the input is read and an empty file is read as an empty dictionary. Links, the standard streams and failures while writing are left out."
  }
 ]
}