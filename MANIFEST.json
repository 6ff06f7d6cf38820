{
 "claims": [
  {
   "property": "C01",
   "status": "proved",
   "theorems": [
    "C01_is_diacritic_grammar",
    "C01_accessors_without_value",
    "C01_accessors_with_value",
    "C01_documented_regex_refuted"
   ],
   "note": "Exact grammar and accessors; the regular expression in the code comment is narrower than what the code accepts (C01_documented_regex_refuted)."
  },
  {
   "property": "C02",
   "status": "proved",
   "theorems": [
    "C02_fdstate_semantics",
    "C02_empty_value_refuted"
   ],
   "note": "For at most 32766 non-empty values and 65535 features (beyond, the code's short encoding wraps) and no empty values; the empty-value case is refuted."
  },
  {
   "property": "C03",
   "status": "proved",
   "theorems": [
    "C03_is_valid_string",
    "C03_total"
   ],
   "note": "Holds for every vector and every previous table state."
  },
  {
   "property": "C04",
   "status": "proved",
   "theorems": [
    "C04_machines_agree",
    "C04_empty_value_refuted"
   ],
   "note": "Holds when no flag carries an empty value (then refuted) and within the numeric limits of C02."
  },
  {
   "property": "C05",
   "status": "partial",
   "theorems": [
    "C05_is_valid_string_always_true",
    "C05_is_valid_string_refuted",
    "C05_find_diacritic_never_finds"
   ],
   "note": "REFUTED: the code always answers true (C05_is_valid_string_refuted); what holds instead is stated by the other theorems."
  },
  {
   "property": "C06",
   "status": "proved",
   "theorems": [
    "C06_numbering",
    "C06_numbering_total",
    "C06_harmonization_vector",
    "C06_reverse_harmonization_vector"
   ],
   "note": ""
  },
  {
   "property": "C07",
   "status": "proved",
   "theorems": [
    "C07_tokenization_lossless",
    "C07_tokenization_lossless_no_skip",
    "C07_cut_utf8_symbol_out_of_bounds_refuted",
    "C07_byte255_symbol_out_of_bounds_refuted"
   ],
   "note": "Whenever tokenization returns; symbols cutting a UTF-8 character or containing byte 255 make it leave its buffers (the two _refuted theorems)."
  },
  {
   "property": "C08",
   "status": "proved",
   "theorems": [
    "C08_leftmost_longest"
   ],
   "note": "UTF-8 symbols and input; ICU is an argument of the model."
  },
  {
   "property": "C09",
   "status": "proved",
   "theorems": [
    "C09_pair_tokenization",
    "C09_pair_tokenization_total"
   ],
   "note": ""
  },
  {
   "property": "C10",
   "status": "proved",
   "theorems": [
    "C10_encoder_longest_match",
    "C10_empty_symbol_refuted"
   ],
   "note": "Non-empty NUL-free symbols with numbers below 65535; registering an empty symbol is undefined behaviour (C10_empty_symbol_refuted)."
  },
  {
   "property": "C11",
   "status": "proved",
   "theorems": [
    "C11_replace_all",
    "C11_replace_all_absent"
   ],
   "note": ""
  },
  {
   "property": "C12",
   "status": "partial",
   "theorems": [
    "C12_att_escape_no_blank",
    "C12_att_roundtrip_partial",
    "C12_att_roundtrip_without_escapes_refuted"
   ],
   "note": "The escaped form never contains a blank (all symbols); the round trip is proved for att_reversible symbols. The English exception is not enough: C12_att_roundtrip_without_escapes_refuted exhibits a symbol without any escape sequence that comes back different."
  },
  {
   "property": "C13",
   "status": "partial",
   "theorems": [
    "C13_prolog_symbol_roundtrip_partial",
    "C13_prolog_arc_roundtrip_partial",
    "C13_percent_zero_refuted",
    "C13_trailing_backslash_refuted"
   ],
   "note": "Holds except for %0, %? and symbols ending in a backslash on arcs; both exceptions are refuted by concrete symbols."
  },
  {
   "property": "C14",
   "status": "partial",
   "theorems": [
    "C14_structure",
    "C14_final_weight_map",
    "C14_well_formed_partial",
    "C14_step_partial",
    "C14_substitute_by_empty_set_refuted",
    "C14_remove_transition_refuted",
    "C14_substitute_special_refuted",
    "C14_remove_symbol_refuted",
    "C14_insert_freely_marker_refuted"
   ],
   "note": "Structure and final-weight map hold after every history of the modelled calls; the alphabet part holds for safe histories (C14_well_formed_partial). The excluded calls really break it: the five _refuted theorems."
  },
  {
   "property": "C15",
   "status": "proved",
   "theorems": [
    "C15_add_transition",
    "C15_remove_transition",
    "C15_remove_transition_alphabet",
    "C15_final_weights",
    "C15_get_final_weight"
   ],
   "note": "Exact effects for every transducer, state and argument."
  },
  {
   "property": "C16",
   "status": "partial",
   "theorems": [
    "C16_sort_arcs_order",
    "C16_sort_unique",
    "C16_documented_order_refuted"
   ],
   "note": "REFUTED as documented: transitions are ordered by target first (C16_sort_arcs_order, C16_documented_order_refuted)."
  },
  {
   "property": "C17",
   "status": "proved",
   "theorems": [
    "C17_trie",
    "C17_empty_symbol_rejected"
   ],
   "note": "Any list of entries, added to the empty transducer; entries with empty symbols are rejected."
  },
  {
   "property": "C18",
   "status": "proved",
   "theorems": [
    "C18_complete",
    "C18_complete_rejects"
   ],
   "note": "Language unchanged, every non-special alphabet symbol readable in every state; throws exactly on unequal pairs."
  },
  {
   "property": "C19",
   "status": "proved",
   "theorems": [
    "C19_substitute_symbol",
    "C19_substitute_symbol_total",
    "C19_symbol_outside_alphabet_refuted"
   ],
   "note": "For transducers whose alphabet contains their symbols (guaranteed by C14 for safe histories)."
  },
  {
   "property": "C20",
   "status": "proved",
   "theorems": [
    "C20_symbols_simultaneous",
    "C20_pairs_simultaneous",
    "C20_total"
   ],
   "note": ""
  },
  {
   "property": "C21",
   "status": "partial",
   "theorems": [
    "C21_pair_to_set_partial",
    "C21_empty_set_partial",
    "C21_empty_set_refuted",
    "C21_function",
    "C21_function_empty_set_refuted"
   ],
   "note": "Non-empty set: proved. Empty set: proved when no two adjacent transitions of a state match, refuted otherwise. Functions: proved; a function returning an empty set is undefined behaviour."
  },
  {
   "property": "C22",
   "status": "partial",
   "theorems": [
    "C22_pair_to_transducer_partial",
    "C22_two_matches_refuted",
    "C22_symbol_map",
    "C22_symbol_map_rejects"
   ],
   "note": "substitute(pair, transducer): proved for at most one match per state, undefined behaviour otherwise. substitute(map): proved without restriction."
  },
  {
   "property": "C23",
   "status": "proved",
   "theorems": [
    "C23_insert_freely",
    "C23_insert_freely_total",
    "C23_insert_transducer_freely",
    "C23_marker_refuted"
   ],
   "note": "Both overloads; the transducer overload assumes the reserved marker is on no transition (C23_marker_refuted shows why)."
  },
  {
   "property": "C24",
   "status": "partial",
   "theorems": [
    "C24_intersect_sound",
    "C24_intersect_partial",
    "C24_missing_path_refuted",
    "C24_initial_weight_refuted",
    "C24_duplicate_labels_refuted"
   ],
   "note": "Soundness and termination proved for all transducers (up to the initial final weight being the minimum). The full statement is proved when sorting leaves the labels of each state strictly ordered and the initial final weights agree; refuted otherwise (three _refuted theorems)."
  },
  {
   "property": "C25",
   "status": "partial",
   "theorems": [
    "C25_meaning_kept_partial",
    "C25_labels_agree_partial",
    "C25_once_is_enough_partial",
    "C25_removed_special_refuted"
   ],
   "note": "Proved for transducers whose alphabets hold the special symbols, whose identity symbols are paired and which have no empty symbol. An alphabet that lost the unknown symbol through remove_transition breaks it (C25_removed_special_refuted)."
  },
  {
   "property": "C26",
   "status": "proved",
   "theorems": [
    "C26_negative_epsilon_cycles"
   ],
   "note": "Exact for every well-structured graph; weights are integers in the model (the code adds floats)."
  },
  {
   "property": "C27",
   "status": "proved",
   "theorems": [
    "C27_infinitely_ambiguous"
   ],
   "note": "Exact for every well-structured graph, including cycles that are not reachable from the initial state, as the function tries every state."
  },
  {
   "property": "C28",
   "status": "proved",
   "theorems": [
    "C28_lookup_infinitely_ambiguous"
   ],
   "note": "Exact for every well-structured graph and input; flag diacritics always count as free (is_valid_string never rejects, see C05)."
  },
  {
   "property": "C29",
   "status": "proved",
   "theorems": [
    "C29_longest_path_size",
    "C29_cyclic_diverges"
   ],
   "note": "Exact on acyclic graphs; with a reachable cycle the call does not return (C29_cyclic_diverges)."
  },
  {
   "property": "C30",
   "status": "proved",
   "theorems": [
    "C30_lookup_exact",
    "C30_lookup_sound",
    "C30_complete_without_cycles"
   ],
   "note": "Exact for every well-structured graph and input, with termination; a literal epsilon or flag in the input is matched literally, as the code does. Integer weights."
  },
  {
   "property": "C31",
   "status": "proved",
   "theorems": [
    "C31_cycle_count_exists",
    "C31_no_cycle_iff",
    "C31_acyclic_never_cut",
    "C31_stretch_bound"
   ],
   "note": "Number of cycles defined by chronological loop erasure (unique count, C31_cycle_count_exists); the exact limit is part of C30_lookup_exact."
  },
  {
   "property": "C32",
   "status": "proved",
   "theorems": [
    "C32_header_roundtrip",
    "C32_header_refused"
   ],
   "note": "The header codec, including every refusal."
  },
  {
   "property": "C33",
   "status": "proved",
   "theorems": [
    "C33_alphabet_roundtrip",
    "C33_alphabet_read_exact",
    "C33_unterminated_accepted"
   ],
   "note": "Also: a truncated last symbol is accepted (C33_unterminated_accepted)."
  },
  {
   "property": "C34",
   "status": "partial",
   "theorems": [
    "C34_transducer_roundtrip",
    "C34_weights_dropped",
    "C34_read_exact",
    "C34_copy",
    "C34_after_unknown_lookup_refuted",
    "C34_unweighted_tables_refuted"
   ],
   "note": "Exact round trip for every consistent transducer; two reachable in-memory states break it: after looking up an unknown symbol (C34_after_unknown_lookup_refuted) and unweighted tables under a weighted header (C34_unweighted_tables_refuted)."
  },
  {
   "property": "C35",
   "status": "partial",
   "theorems": [
    "C35_tables_partial",
    "C35_converts",
    "C35_diverges",
    "C35_throws",
    "C35_insertion_refuted"
   ],
   "note": "Proved for input sides without @I.x@ symbols, weights whose 32-bit encoding is faithful and tables below 2^31 entries. False with @I.x@ inputs (C35_insertion_refuted). Conversion succeeds up to 65535 symbols, never returns with exactly 65536 (C35_diverges) and throws with more."
  },
  {
   "property": "C36",
   "status": "partial",
   "theorems": [
    "C36_sound",
    "C36_complete_partial",
    "C36_complete_without_flags",
    "C36_limit",
    "C36_complete_refuted"
   ],
   "note": "Soundness (C36_sound) and the limit (C36_limit) are proved for every converted transducer and any history of lookups; completeness for runs that, between two tokens, take no two flag transitions to one state from the same flag values (C36_complete_partial), hence for all runs when there are no flags (C36_complete_without_flags). Full completeness is false (C36_complete_refuted). Assumed: no @I.x@ inputs, no default symbol, flags with non-empty values, fewer than 32767 symbols, symbol numbers below 2^16, texts without NUL or the epsilon name."
  },
  {
   "property": "C37",
   "status": "partial",
   "theorems": [
    "C37_inside_partial",
    "C37_unknown_character_refuted",
    "C37_cut_off_character_refuted"
   ],
   "note": "Proved when the text has a tokenization and each token is an input symbol or both unknown and identity are input symbols. False otherwise: C37_unknown_character_refuted, C37_cut_off_character_refuted."
  },
  {
   "property": "C38",
   "status": "proved",
   "theorems": [
    "C38_ordered_set",
    "C38_transitions"
   ],
   "note": "For every strict total order; instantiated with the comparator of transitions. Forming a reference to the end of the vector in insert (undefined behaviour in the standard, harmless in practice) is not modelled."
  },
  {
   "property": "C39",
   "status": "proved",
   "theorems": [
    "C39_lazy_intersection",
    "C39_any_nesting",
    "C39_queries_answered",
    "C39_nondeterministic_refuted"
   ],
   "note": "Any number of rules, any nesting, any query history. Deterministic means: no two transitions of a state with the same label, at most one identity transition in a state. Without it: C39_nondeterministic_refuted."
  },
  {
   "property": "C40",
   "status": "partial",
   "theorems": [
    "C40_joined_paths_partial",
    "C40_identity_refuted",
    "C40_flags_refuted"
   ],
   "note": "One rule, deterministic or not, or several deterministic rules that know no flag diacritics; the identity symbol of the lexicon matches nothing. Both restrictions are needed (C40_flags_refuted, C40_identity_refuted). HfstTransducer::compose_intersect around it (harmonization, word boundaries, inversion) is not modelled."
  },
  {
   "property": "C41",
   "status": "partial",
   "theorems": [
    "C41_check_partial",
    "C41_words_found",
    "C41_answers",
    "C41_epsilon_cycle_refuted",
    "C41_epsilon_text_refuted"
   ],
   "note": "For texts without NUL and without the name of the epsilon symbol (C41_epsilon_text_refuted). Accepted words are always found; a negative answer comes only without cycles of epsilons and flags (C41_epsilon_cycle_refuted: the checker can loop for ever)."
  },
  {
   "property": "C42",
   "status": "partial",
   "theorems": [
    "C42_header_roundtrip",
    "C42_header_written",
    "C42_stream_roundtrip",
    "C42_own_properties_partial",
    "C42_properties_leak_refuted"
   ],
   "note": "Transducers and order are exact; properties are exact up to carry-over from earlier transducers of the stream (C42_properties_leak_refuted)."
  },
  {
   "property": "C43",
   "status": "partial",
   "theorems": [
    "C43_strip_add_percents_partial",
    "C43_strip_add_percents_refuted"
   ],
   "note": "Holds for symbols without @; REFUTED in general (@PERCENT@)."
  },
  {
   "property": "C44",
   "status": "proved",
   "theorems": [
    "C44_strip_percents"
   ],
   "note": "All byte strings and both modes; the result is characterised by the inductive lexc_unescaped."
  },
  {
   "property": "C45",
   "status": "partial",
   "theorems": [
    "C45_strstrip_partial",
    "C45_strstrip_blank_refuted"
   ],
   "note": "Holds for NUL-free strings with a non-white byte and for the empty string; every other string makes the code read before its buffer (C45_strstrip_blank_refuted)."
  },
  {
   "property": "C46",
   "status": "proved",
   "theorems": [
    "C46_alignment",
    "C46_alignment_faithful"
   ],
   "note": ""
  },
  {
   "property": "C47",
   "status": "proved",
   "theorems": [
    "C47_utf8_roundtrip",
    "C47_large_rejected"
   ],
   "note": ""
  },
  {
   "property": "C48",
   "status": "partial",
   "theorems": [
    "C48_swap_partial",
    "C48_both_final_refuted",
    "C48_both_final_lost_refuted"
   ],
   "note": "Holds unless both states are final, where it is refuted (C48_both_final_lost_refuted)."
  },
  {
   "property": "C49",
   "status": "proved",
   "theorems": [
    "C49_prune"
   ],
   "note": "Exact alphabet after pruning."
  },
  {
   "property": "C50",
   "status": "partial",
   "theorems": [
    "C50_reported_size_partial",
    "C50_openfst_refuted"
   ],
   "note": "Exact for current headers and four of the six pre-release headers; the two OpenFst pre-release headers are reported 3 bytes short (C50_openfst_refuted)."
  },
  {
   "property": "C51",
   "status": "proved",
   "theorems": [
    "C51_space_separated"
   ],
   "note": ""
  },
  {
   "property": "C52",
   "status": "partial",
   "theorems": [
    "C52_flags_aligned",
    "C52_output_text_preserved_refuted"
   ],
   "note": "Pairing and order are proved (C52_flags_aligned); that only epsilons or flags are added is false of the code (C52_output_text_preserved_refuted)."
  },
  {
   "property": "C53",
   "status": "proved",
   "theorems": [
    "C53_name_codes",
    "C53_name_codes_distinct"
   ],
   "note": ""
  },
  {
   "property": "C54",
   "status": "partial",
   "theorems": [
    "C54_xre_percents_partial",
    "C54_xre_percents_refuted",
    "C54_strip_curly_partial",
    "C54_strip_curly_plain",
    "C54_strip_curly_empty_refuted",
    "C54_angle_brackets"
   ],
   "note": "Percent round trip for symbols without %; refuted in general. strip_curly is refuted for the empty pair of braces. Angle brackets in full."
  },
  {
   "property": "C55",
   "status": "partial",
   "theorems": [
    "C55_quoted_plain_partial",
    "C55_quoted_no_overflow",
    "C55_quoted_escapes",
    "C55_quoted_out_of_bounds_refuted"
   ],
   "note": "Plain text and output length proved; reading behind the string is REFUTED (octal and \\u escapes)."
  },
  {
   "property": "C56",
   "status": "partial",
   "theorems": [
    "C56_token_lines_partial",
    "C56_token_columns_refuted"
   ],
   "note": "Lines proved; columns REFUTED (they depend on how the line is cut into tokens)."
  },
  {
   "property": "C57",
   "status": "proved",
   "theorems": [
    "C57_nonconst_part",
    "C57_nonconst_part_only"
   ],
   "note": ""
  },
  {
   "property": "C58",
   "status": "partial",
   "theorems": [
    "C58_replace_zero_first",
    "C58_replace_zero_none",
    "C58_replace_zero_all_refuted"
   ],
   "note": "Exactly the first occurrence is replaced; REFUTED for strings with several."
  },
  {
   "property": "C59",
   "status": "proved",
   "theorems": [
    "C59_flag_purge"
   ],
   "note": ""
  },
  {
   "property": "C60",
   "status": "proved",
   "theorems": [
    "C60_insert_transducer"
   ],
   "note": ""
  },
  {
   "property": "C61",
   "status": "proved",
   "theorems": [
    "C61_path_sizes"
   ],
   "note": "Exact on acyclic graphs."
  },
  {
   "property": "C62",
   "status": "partial",
   "theorems": [
    "C62_max_weight_partial",
    "C62_negative_weights_refuted"
   ],
   "note": "Holds for non-negative weights; with negative weights results within the limit are lost (C62_negative_weights_refuted)."
  },
  {
   "property": "C63",
   "status": "proved",
   "theorems": [
    "C63_max_number"
   ],
   "note": ""
  },
  {
   "property": "C64",
   "status": "partial",
   "theorems": [
    "C64_set_flag_partial",
    "C64_clear_flag_refuted"
   ],
   "note": "Setting to true works; setting to false sets the flag (C64_clear_flag_refuted)."
  },
  {
   "property": "C65",
   "status": "partial",
   "theorems": [
    "C65_lookups_agree_partial",
    "C65_output_symbol_refuted"
   ],
   "note": "Proved when all tokens are input symbols and the arcs carry no flags, unknown or identity and there are no epsilon cycles. False in general: a symbol that occurs only on output sides is unknown to the converted transducer (C65_output_symbol_refuted)."
  },
  {
   "property": "C66",
   "status": "partial",
   "theorems": [
    "C66_corrections_partial",
    "C66_answers",
    "C66_epsilon_shown_refuted",
    "C66_unknown_output_refuted"
   ],
   "note": "Exact and optimal, but epsilon outputs and dropped symbols are shown as @_EPSILON_SYMBOL_@ (C66_epsilon_shown_refuted). The error model must read no flags and write only symbols the lexicon reads, other than unknown (C66_unknown_output_refuted reads outside the tables)."
  },
  {
   "property": "C67",
   "status": "partial",
   "theorems": [
    "C67_att_files_roundtrip_partial",
    "C67_separator",
    "C67_language",
    "C67_numbers",
    "C67_bad_line",
    "C67_long_symbol_refuted",
    "C67_istream_refuted"
   ],
   "note": "For reversible symbols (C12), lines of at most 253 bytes and fields of at most 99: longer symbols overrun the reader's buffers (C67_long_symbol_refuted). The istream reader reads nothing (C67_istream_refuted). Weights are decimal millionths; float rounding is not modelled."
  },
  {
   "property": "C68",
   "status": "partial",
   "theorems": [
    "C68_number_format_partial",
    "C68_number_finals_refuted"
   ],
   "note": "Only when every final state has exactly one transition: otherwise final states are lost or repeated (C68_number_finals_refuted)."
  },
  {
   "property": "C69",
   "status": "partial",
   "theorems": [
    "C69_extract_paths",
    "C69_extract_paths_limited",
    "C69_refused",
    "C69_limit_refuted",
    "C69_counter_refuted"
   ],
   "note": "Proved for cycle limits below 65535 (at 65535 the 16-bit counters make the search endless: C69_counter_refuted). The number limit can be exceeded by one when the empty path is accepted (C69_limit_refuted); otherwise it holds. A negative cycle limit with a number limit on a cyclic transducer is not covered."
  },
  {
   "property": "C70",
   "status": "partial",
   "theorems": [
    "C70_extract_paths_fd_partial",
    "C70_extract_paths_fd_limited_partial"
   ],
   "note": "For flag values that are not empty (see C02) and at most 32766 symbols; limits as in C69."
  },
  {
   "property": "C71",
   "status": "partial",
   "theorems": [
    "C71_roundtrip_partial",
    "C71_outcome_partial",
    "C71_outside_refuted"
   ],
   "note": "Proved if every symbol of the alphabet but epsilon and flags is an input symbol of some transition; otherwise the result is right or the index table is read outside its bounds (C71_outcome_partial; it happens for the empty transducer and for a:b, C71_outside_refuted). No @I.x@ inputs, faithful weights, fewer than 2^31 entries."
  },
  {
   "property": "C72",
   "status": "proved",
   "theorems": [
    "C72_roundtrip",
    "C72_to_tropical",
    "C72_alphabet_refuted"
   ],
   "note": "Outside the stated condition it fails: a symbol removed from the alphabet but used on a transition becomes epsilon (C72_alphabet_refuted)."
  },
  {
   "property": "C73",
   "status": "proved",
   "theorems": [
    "C73_to_basic",
    "C73_states",
    "C73_alphabet",
    "C73_empty",
    "C73_no_table_refuted",
    "C73_output_table_refuted",
    "C73_gap_refuted",
    "C73_foreign_epsilon_refuted"
   ],
   "note": "Outside the stated conditions: output labels are named by the input table even if there is an output table (C73_output_table_refuted), a label missing from the table can become epsilon (C73_gap_refuted), another name for label 0 becomes an ordinary symbol missing from the alphabet (C73_foreign_epsilon_refuted), and a state-less transducer without a table dereferences a null pointer (C73_no_table_refuted)."
  },
  {
   "property": "C74",
   "status": "proved",
   "theorems": [
    "C74_if",
    "C74_only_if",
    "C74_if_and_only_if",
    "C74_foreign_mapping"
   ],
   "note": "Back-end operations by meaning. For alphabets and mappings without the pair epsilon:epsilon."
  },
  {
   "property": "C75",
   "status": "partial",
   "theorems": [
    "C75_restriction",
    "C75_coercion",
    "C75_both",
    "C75_surface_partial",
    "C75_deep_partial",
    "C75_no_contexts",
    "C75_mapping_kept",
    "C75_mapping_kept_refuted"
   ],
   "note": "Surface and deep variants only for mappings and alphabets without epsilons. That the arguments are left alone is false of the surface and deep variants, which project the caller's mapping in place (C75_mapping_kept_refuted)."
  },
  {
   "property": "C76",
   "status": "partial",
   "theorems": [
    "C76_replace_up",
    "C76_replace_down",
    "C76_total",
    "C76_total_down",
    "C76_unchanged",
    "C76_obligatory",
    "C76_optional",
    "C76_left",
    "C76_insertion_refuted",
    "C76_optional_each_refuted"
   ],
   "note": "For alphabets of identity pairs. False for mappings of the empty string, where nothing is accepted (C76_insertion_refuted); the optional variant is all or nothing, not per occurrence (C76_optional_each_refuted)."
  },
  {
   "property": "C77",
   "status": "partial",
   "theorems": [
    "C77_replace_up",
    "C77_total",
    "C77_unchanged",
    "C77_obligatory",
    "C77_optional",
    "C77_insertion_refuted",
    "C77_output_refuted",
    "C77_right_deletion_refuted"
   ],
   "note": "replace_up only, for identity alphabets that contain the outputs of the mapping (otherwise replaceable strings have no result: C77_output_refuted). Mappings of the empty string are never applied (C77_insertion_refuted). replace_right gives no result where something is deleted (C77_right_deletion_refuted); the other variants are modelled but not characterized."
  },
  {
   "property": "C78",
   "status": "partial",
   "theorems": [
    "C78_lexc_partial",
    "C78_default_constructor_refuted",
    "C78_regexp_weights_refuted"
   ],
   "note": "For the constructors that take an implementation type; for symbols that do not collide with the compiler's internal ones, regular expressions kept apart by lexicon and continuation (otherwise weights merge: C78_regexp_weights_refuted), and an initial lexicon with entries. With the default constructor nothing is ever accepted (C78_default_constructor_refuted)."
  },
  {
   "property": "C79",
   "status": "partial",
   "theorems": [
    "C79_lexc_flags_partial",
    "C79_noflags_refuted"
   ],
   "note": "As C78, for entries without lexicon-name flags of their own and without NoFlags lexicons, whose entries are lost (C79_noflags_refuted)."
  },
  {
   "property": "C80",
   "status": "partial",
   "theorems": [
    "C80_initial_lexicon_partial",
    "C80_second_grammar_refuted"
   ],
   "note": "Proved for the first grammar of a process. The static variable firstLexicon makes it false for later ones: C80_second_grammar_refuted."
  },
  {
   "property": "C81",
   "status": "partial",
   "theorems": [
    "C81_eliminate_flags_partial",
    "C81_total",
    "C81_flag_purge",
    "C81_lone_requirement_refuted",
    "C81_negative_refuted",
    "C81_negative_disallow_refuted",
    "C81_unconnected_refuted"
   ],
   "note": "For flags paired with themselves, without N flags, with something bearing on each R flag, and without xerox_composition (the default) only if every flag is connected to another one. The property is false for a lone R flag (kept: C81_lone_requirement_refuted), for N flags (obeying paths lost: C81_negative_refuted, C81_negative_disallow_refuted) and for unconnected flags (paths lost: C81_unconnected_refuted)."
  },
  {
   "property": "C82",
   "status": "partial",
   "theorems": [
    "C82_eliminate_flag_partial",
    "C82_same_meaning_partial",
    "C82_feature_missing",
    "C82_other_features_refuted"
   ],
   "note": "As C81. Without xerox_composition flags of other features make paths disappear: C82_other_features_refuted."
  },
  {
   "property": "C83",
   "status": "partial",
   "theorems": [
    "C83_shuffle_partial",
    "C83_rejects_partial",
    "C83_identity_refuted",
    "C83_prefixed_refuted",
    "C83_unknown_refuted"
   ],
   "note": "For transducers without unknown and identity symbols and without symbols beginning with @1 or @2. The property is false for identity (symbols excluded from it are lost from the alphabet: C83_identity_refuted), for prefixed symbols (C83_prefixed_refuted) and for unknown:unknown, which is not rejected (C83_unknown_refuted)."
  },
  {
   "property": "C84",
   "status": "partial",
   "theorems": [
    "C84_compose_partial",
    "C84_total_partial",
    "C84_unknown_refuted"
   ],
   "note": "Under the conditions of C25. The property is false if both transducers have unknown at the outer ends: pairs with the same unknown symbol on both ends are lost (C84_unknown_refuted)."
  },
  {
   "property": "C85",
   "status": "proved",
   "theorems": [
    "C85_copy",
    "C85_invert"
   ],
   "note": "For transducers in order (trans_ok), which every operation proved here yields, except as said for C92 and C96."
  },
  {
   "property": "C86",
   "status": "proved",
   "theorems": [
    "C86_disjunct",
    "C86_optionalize"
   ],
   "note": "For transducers in order (trans_ok), which every operation proved here yields, except as said for C92 and C96."
  },
  {
   "property": "C87",
   "status": "proved",
   "theorems": [
    "C87_concatenate"
   ],
   "note": "For transducers in order (trans_ok), which every operation proved here yields, except as said for C92 and C96."
  },
  {
   "property": "C88",
   "status": "proved",
   "theorems": [
    "C88_star",
    "C88_plus",
    "C88_n",
    "C88_le_n"
   ],
   "note": "For transducers in order (trans_ok), which every operation proved here yields, except as said for C92 and C96."
  },
  {
   "property": "C89",
   "status": "proved",
   "theorems": [
    "C89_reverse"
   ],
   "note": "For transducers in order (trans_ok), which every operation proved here yields, except as said for C92 and C96."
  },
  {
   "property": "C90",
   "status": "proved",
   "theorems": [
    "C90_input",
    "C90_output"
   ],
   "note": "For transducers in order (trans_ok), which every operation proved here yields, except as said for C92 and C96."
  },
  {
   "property": "C91",
   "status": "partial",
   "theorems": [
    "C91_substitute_partial",
    "C91_epsilon_refuted"
   ],
   "note": "For a symbol other than the empty one. With the empty one the result depends on how the transducer is built (C91_epsilon_refuted)."
  },
  {
   "property": "C92",
   "status": "partial",
   "theorems": [
    "C92_insert_freely_partial",
    "C92_flags_refuted",
    "C92_minimal_refuted"
   ],
   "note": "The language is as stated in full. That the result is in order is proved if no transition has the label and if something is accepted or the transducer is not flagged as minimal, and false otherwise: flags are copied although loops are added, so that a later intersection loses strings (C92_flags_refuted), and a transducer that accepts nothing is no longer found to be empty (C92_minimal_refuted)."
  },
  {
   "property": "C93",
   "status": "proved",
   "theorems": [
    "C93_determinize"
   ],
   "note": "For transducers in order (trans_ok), which every operation proved here yields, except as said for C92 and C96."
  },
  {
   "property": "C94",
   "status": "proved",
   "theorems": [
    "C94_intersect"
   ],
   "note": "For transducers in order (trans_ok), which every operation proved here yields, except as said for C92 and C96."
  },
  {
   "property": "C95",
   "status": "proved",
   "theorems": [
    "C95_compose"
   ],
   "note": "For transducers in order (trans_ok), which every operation proved here yields, except as said for C92 and C96."
  },
  {
   "property": "C96",
   "status": "partial",
   "theorems": [
    "C96_add_path_partial",
    "C96_paths",
    "C96_language_refuted",
    "C96_flags_refuted"
   ],
   "note": "For transducers that are trees, which those made by adding paths to the empty one are (C96_paths has no hypotheses). On shared nodes other strings come in (C96_language_refuted); the flags are kept although they may become false (C96_flags_refuted)."
  },
  {
   "property": "C97",
   "status": "proved",
   "theorems": [
    "C97_minimize",
    "C97_algorithms_agree"
   ],
   "note": "For transducers in order (trans_ok), which every operation proved here yields, except as said for C92 and C96."
  },
  {
   "property": "C98",
   "status": "proved",
   "theorems": [
    "C98_is_empty",
    "C98_empty_string"
   ],
   "note": "For transducers in order (trans_ok), which every operation proved here yields, except as said for C92 and C96."
  },
  {
   "property": "C99",
   "status": "proved",
   "theorems": [
    "C99_subtract"
   ],
   "note": "For transducers in order (trans_ok), which every operation proved here yields, except as said for C92 and C96."
  },
  {
   "property": "C100",
   "status": "proved",
   "theorems": [
    "C100_negate",
    "C100_refused"
   ],
   "note": "For transducers in order (trans_ok), which every operation proved here yields, except as said for C92 and C96."
  },
  {
   "property": "C101",
   "status": "proved",
   "theorems": [
    "C101_are_equivalent"
   ],
   "note": "For transducers in order (trans_ok), which every operation proved here yields, except as said for C92 and C96."
  },
  {
   "property": "C102",
   "status": "proved",
   "theorems": [
    "C102_is_cyclic",
    "C102_is_automaton"
   ],
   "note": "For transducers in order (trans_ok), which every operation proved here yields, except as said for C92 and C96."
  },
  {
   "property": "C103",
   "status": "proved",
   "theorems": [
    "C103_input_language",
    "C103_output_language"
   ],
   "note": "For transducers in order (trans_ok), which every operation proved here yields, except as said for C92 and C96."
  },
  {
   "property": "C104",
   "status": "partial",
   "theorems": [
    "C104_prolog_roundtrip_partial",
    "C104_language",
    "C104_name_with_comma",
    "C104_tools_partial",
    "C104_several_partial",
    "C104_tools_several_refuted",
    "C104_stream_refuted",
    "C104_blank_symbol_refuted",
    "C104_long_name_refuted"
   ],
   "note": "Symbols and names have to be expressible in the notation and to fit into the reader's buffers (prolog_writable). Refuted: several transducers written by hfst-fst2txt are always refused by hfst-txt2fst (different separators); the istream reader refuses every text; an unused alphabet symbol with a blank makes the text unreadable; names of 98 bytes or more overflow a buffer."
  },
  {
   "property": "C105",
   "status": "proved",
   "theorems": [
    "C105_no_stale_memory",
    "C105_comments",
    "C105_terminates"
   ],
   "note": "FILE* reader; the buffer read before being written is taken to hold a terminated string."
  },
  {
   "property": "C106",
   "status": "partial",
   "theorems": [
    "C106_text_partial",
    "C106_all_read_partial",
    "C106_longest_symbol",
    "C106_reading_ends",
    "C106_backslash_refuted",
    "C106_symbol_at_end_refuted",
    "C106_out_of_bounds_refuted"
   ],
   "note": "Text fidelity for text with a backslash before reserved characters only, without NUL, with complete UTF-8 characters. Refuted otherwise: other backslashes are lost; the beginning of a symbol at the end of the text is lost; a final backslash, byte 255 and NUL are out of bounds."
  },
  {
   "property": "C107",
   "status": "partial",
   "theorems": [
    "C107_next",
    "C107_add",
    "C107_back_partial",
    "C107_get_partial",
    "C107_diff"
   ],
   "note": "Moving back and looking up are proved within the window the buffer holds, and moving back only to a position after the first token."
  },
  {
   "property": "C108",
   "status": "partial",
   "theorems": [
    "C108_analysis_partial",
    "C108_short_text_fits",
    "C108_no_stall",
    "C108_division_unique",
    "C108_reserved_partial",
    "C108_word_at_end_refuted",
    "C108_prefix_at_end_refuted",
    "C108_unknown_at_end_refuted",
    "C108_stall_refuted",
    "C108_buffer_end_refuted"
   ],
   "note": "Proved for texts that end outside words, where no place stalls and no word overruns the buffer (every text of less than 1023 tokens fits). Refuted: a known word at the very end is not shown or shown with what follows; an unknown word at the very end makes the program run forever; a character is lost where the lexicon stalls; a word ending at token 1024 reads out of bounds."
  },
  {
   "property": "C109",
   "status": "partial",
   "theorems": [
    "C109_apertium_partial"
   ],
   "note": "Under the conditions of C106 and C108."
  },
  {
   "property": "C110",
   "status": "partial",
   "theorems": [
    "C110_runs_partial",
    "C110_finals_partial",
    "C110_answers_partial",
    "C110_lexicon_partial",
    "C110_cycle_refuted",
    "C110_weight_refuted",
    "C110_output_symbol_refuted",
    "C110_empty_weight_refuted"
   ],
   "note": "For every result that is returned; a result is returned if no circle of arcs needs no input and the symbols are input symbols or unknown. C110_lexicon_partial puts it in place of the lexicon parameter of C108. Refuted: an epsilon circle never ends; a symbol that occurs only in output reads beyond the index table; of two runs with the same output the heavier may be kept; for empty input the final weight is missing."
  },
  {
   "property": "C111",
   "status": "proved",
   "theorems": [
    "C111_choice",
    "C111_no_limit"
   ],
   "note": ""
  },
  {
   "property": "C112",
   "status": "proved",
   "theorems": [
    "C112_disjunct",
    "C112_intersect",
    "C112_subtract"
   ],
   "note": ""
  },
  {
   "property": "C113",
   "status": "proved",
   "theorems": [
    "C113_negate",
    "C113_refused"
   ],
   "note": ""
  },
  {
   "property": "C114",
   "status": "partial",
   "theorems": [
    "C114_priority_union_partial",
    "C114_flags_refuted"
   ],
   "note": "Refuted for strings with flag diacritics that are not in Q's alphabet (the identity in the negation of Q does not stand for them); pattern matching symbols are excluded for the same reason. No symbols of the form @_..._@ besides the reserved ones; of several weights for one pair the lightest need be kept."
  },
  {
   "property": "C115",
   "status": "partial",
   "theorems": [
    "C115_lenient_partial"
   ],
   "note": "As C114; one of the two transducers has no unknown at its outer end (C84_unknown_refuted)."
  },
  {
   "property": "C116",
   "status": "partial",
   "theorems": [
    "C116_match_partial",
    "C116_history_partial",
    "C116_history_refuted",
    "C116_recursion_refuted",
    "C116_order_refuted"
   ],
   "note": "Refuted: the outcome for empty matches depends on the texts before (best_weight is neither initialised nor reset); flags of a recursive call leak into the caller; default transitions depend on the order of the transitions. Proved without these: calls not recursive and default transitions not mixed with transitions that read nothing, or no flags and no default transitions; the output of an empty match may be left out."
  },
  {
   "property": "C117",
   "status": "partial",
   "theorems": [
    "C117_locate_partial"
   ],
   "note": "As C116; the symbols of the text are printable."
  },
  {
   "property": "C118",
   "status": "partial",
   "theorems": [
    "C118_locations_partial",
    "C118_boundary_refuted",
    "C118_list_refuted"
   ],
   "note": "Refuted with a boundary inside a match (later locations are displaced) and where a member of a list is rewritten (the input shown is empty). Proved for printable texts and transitions that copy what they read as members of lists."
  },
  {
   "property": "C119",
   "status": "proved",
   "theorems": [
    "C119_marked",
    "C119_deleted",
    "C119_extracted",
    "C119_plain"
   ],
   "note": ""
  },
  {
   "property": "C120",
   "status": "partial",
   "theorems": [
    "C120_optional_replacement_partial",
    "C120_contexts_refuted"
   ],
   "note": "Refuted: if each of several parallel rules has two or more contexts, all the contexts are ignored. Proved for one rule, for rules without contexts and for parallel rules one of which has a single context, insertions included; membership in the languages of a rule is decided, as it is for transducers."
  },
  {
   "property": "C121",
   "status": "partial",
   "theorems": [
    "C121_obligatory_replacement_partial",
    "C121_obligatory_sound_partial",
    "C121_output_contexts_refuted"
   ],
   "note": "Refuted with contexts on the output: a result is left out if another choice makes more changes possible. Proved for || contexts; with other contexts it is proved that nothing else results. Otherwise as C120."
  },
  {
   "property": "C122",
   "status": "partial",
   "theorems": [
    "C122_leftmost_longest_partial",
    "C122_deletion_refuted"
   ],
   "note": "Refuted for rules that delete: what is deleted may come before the boundary, so that a longer match is not seen. Proved for rules that neither insert nor delete, with || contexts; otherwise as C120."
  },
  {
   "property": "C123",
   "status": "partial",
   "theorems": [
    "C123_leftmost_shortest_partial"
   ],
   "note": "Proved for rules that neither insert nor delete, with || contexts; otherwise as C120."
  },
  {
   "property": "C124",
   "status": "partial",
   "theorems": [
    "C124_rightmost_longest_partial",
    "C124_longest_refuted"
   ],
   "note": "Refuted: a | b a ->@ x relates b a to b x too. Proved for rules that neither insert nor delete that the right results are among those given; otherwise as C120."
  },
  {
   "property": "C125",
   "status": "partial",
   "theorems": [
    "C125_rightmost_shortest_partial"
   ],
   "note": "Proved for rules that neither insert nor delete, with || contexts; otherwise as C120."
  },
  {
   "property": "C126",
   "status": "partial",
   "theorems": [
    "C126_directed_result_partial",
    "C126_two_results_refuted"
   ],
   "note": "Refuted for the longest match from right to left. Proved for the other three; every text has a result in all four. Rules neither insert nor delete and have || contexts; otherwise as C120."
  },
  {
   "property": "C127",
   "status": "partial",
   "theorems": [
    "C127_to_the_left_partial"
   ],
   "note": "Under the conditions of C120 and, for obligatory rules, C121."
  },
  {
   "property": "C128",
   "status": "partial",
   "theorems": [
    "C128_restriction_partial",
    "C128_any_symbol_refuted"
   ],
   "note": "Refuted where a symbol of the center stands for any symbol: it stands for the boundary as well. Proved for centers of symbols of the user, not empty."
  },
  {
   "property": "C129",
   "status": "proved",
   "theorems": [
    "C129_before_after"
   ],
   "note": ""
  },
  {
   "property": "C130",
   "status": "partial",
   "theorems": [
    "C130_lexicon_filtered_partial",
    "C130_no_rules_refuted",
    "C130_open_lexicon_refuted"
   ],
   "note": "Refuted for lexicons with identity transitions: symbols that a rule forbids come back, because the alphabet of the result is pruned while identity has another name. Refuted for an empty list of rules, whose first element is read. Proved for lexicons without unknown and identity; the conditions on the rules are those of C40."
  },
  {
   "property": "C131",
   "status": "partial",
   "theorems": [
    "C131_inverse_filtered_partial",
    "C131_one_rule_refuted"
   ],
   "note": "Refuted for one rule: the result is not turned back. Proved for two or more rules, under the conditions of C130; identity is on both sides of a transition of a rule, rules insert no boundaries, and a rule that has the boundary in its alphabet has it on a transition."
  },
  {
   "property": "C132",
   "status": "partial",
   "theorems": [
    "C132_cross_product_partial",
    "C132_refused_partial",
    "C132_flags_refuted"
   ],
   "note": "Refuted for words with flag diacritics: they are lost, as unknown does not stand for them (C132_flags_refuted). Proved for all other words, for transducers whose alphabets have no symbols of the form @_..._@ besides the reserved ones; of several weights the lightest is kept."
  },
  {
   "property": "C133",
   "status": "partial",
   "theorems": [
    "C133_renamed",
    "C133_harmonized",
    "C133_apart",
    "C133_relation_partial",
    "C133_alphabet_refuted"
   ],
   "note": "Paths and the separation of the flags are proved in full. The relation, with identity and unknown standing for symbols outside the alphabet, is kept only if each ordinary symbol of the alphabet is on a transition; otherwise it is refuted (C133_alphabet_refuted): the new transducer has the symbols of its transitions only."
  },
  {
   "property": "C134",
   "status": "proved",
   "theorems": [
    "C134_missing_flags",
    "C134_harmonized"
   ],
   "note": ""
  },
  {
   "property": "C135",
   "status": "partial",
   "theorems": [
    "C135_illegal_partial",
    "C135_no_value_refuted"
   ],
   "note": "Refuted for flags without a value: they are never recognized by their suffix and all results with them are lost (C135_no_value_refuted). Proved if each flag of the alphabet is on a transition and has just one of the two suffixes before a dot, for results of ordinary symbols and flags, with no symbols that are flags between dollar signs."
  },
  {
   "property": "C136",
   "status": "partial",
   "theorems": [
    "C136_two_sided",
    "C136_alphabet_refuted"
   ],
   "note": "Paths, weights and text are proved in full; the relation of a transducer with two-sided flags is not kept if a symbol is only in the alphabet (C136_alphabet_refuted)."
  },
  {
   "property": "C137",
   "status": "partial",
   "theorems": [
    "C137_harmonized_partial"
   ],
   "note": "For flags with values without dots, alphabets whose ordinary symbols are on transitions, and no symbols that are flags between dollar signs; see the refutations of C133 and C135."
  },
  {
   "property": "C138",
   "status": "partial",
   "theorems": [
    "C138_reweight",
    "C138_addition_partial",
    "C138_negative_refuted"
   ],
   "note": "Proved in full for the bounds in force; the default lower bound is 0 and not the least weight, so negative weights are left alone (C138_negative_refuted)."
  },
  {
   "property": "C139",
   "status": "partial",
   "theorems": [
    "C139_file_partial",
    "C139_mixed_refuted"
   ],
   "note": "If the lines all add or all multiply. Refuted otherwise: the addition of a line stays in force for later lines that multiply (C139_mixed_refuted)."
  },
  {
   "property": "C140",
   "status": "partial",
   "theorems": [
    "C140_killing",
    "C140_file",
    "C140_word_refuted"
   ],
   "note": "Paths in full. Words with the symbol may stay where identity or unknown stands for it afterwards (C140_word_refuted)."
  },
  {
   "property": "C141",
   "status": "partial",
   "theorems": [
    "C141_preprocess_partial",
    "C141_initial_refuted"
   ],
   "note": "If the initial state is not final; otherwise its finality is lost (C141_initial_refuted)."
  },
  {
   "property": "C142",
   "status": "partial",
   "theorems": [
    "C142_no_partial",
    "C142_yes_partial",
    "C142_unreadable",
    "C142_ends_partial",
    "C142_endless_refuted",
    "C142_flags_refuted",
    "C142_unknown_refuted"
   ],
   "note": "A no is right for tokens in the alphabet; a yes is right if also there are no flags; without loops the answer comes. Refuted: loops behind unknown characters are missed; with flags the answer may be yes without a loop; with loops the search may go ever deeper (a read token forgets the states on the way)."
  },
  {
   "property": "C143",
   "status": "partial",
   "theorems": [
    "C143_pair_string_partial"
   ],
   "note": "For multicharacter symbols none of which begins with another one. Refuted otherwise: a backslash then fails to protect a character; and a backslash before the epsilon text protects it inside pairs only."
  },
  {
   "property": "C144",
   "status": "partial",
   "theorems": [
    "C144_string_partial",
    "C144_string_pair_partial"
   ],
   "note": "For spellings without needless backslashes, under the conditions of C143. Refuted otherwise: the program ends with an exception."
  },
  {
   "property": "C145",
   "status": "partial",
   "theorems": [
    "C145_pair_string_partial",
    "C145_string_partial",
    "C145_string_pair_partial"
   ],
   "note": "Without backslashes inside longer symbols. Refuted otherwise: they are lost; and the name of the tab stands for three spaces."
  },
  {
   "property": "C146",
   "status": "partial",
   "theorems": [
    "C146_lines_partial"
   ],
   "note": "For lines spelled as in C143 to C145."
  },
  {
   "property": "C147",
   "status": "proved",
   "theorems": [
    "C147_refused",
    "C147_round_trip"
   ],
   "note": "For transducers whose alphabet has the symbols of the transitions and the special symbols."
  },
  {
   "property": "C148",
   "status": "partial",
   "theorems": [
    "C148_guessed_partial",
    "C148_endings_partial"
   ],
   "note": "The paths are exactly as stated, but the copied symbols may be the unknown symbol, which stands for two different symbols: C148_copied_refuted."
  },
  {
   "property": "C149",
   "status": "partial",
   "theorems": [
    "C149_guessed_partial"
   ],
   "note": "The paths are exactly as stated, with the identity symbol for the copied symbols; it does not stand for symbols of the alphabet: C149_letters_refuted."
  },
  {
   "property": "C150",
   "status": "proved",
   "theorems": [
    "C150_walk"
   ],
   "note": ""
  },
  {
   "property": "C151",
   "status": "partial",
   "theorems": [
    "C151_pair_test_partial",
    "C151_negative_partial"
   ],
   "note": "For deterministic rules with the same symbols: just the first transition with a label is followed (C151_deterministic_refuted), and the symbols of the first rule decide what identity stands for in all of them (C151_symbols_refuted)."
  },
  {
   "property": "C152",
   "status": "proved",
   "theorems": [
    "C152_head"
   ],
   "note": ""
  },
  {
   "property": "C153",
   "status": "proved",
   "theorems": [
    "C153_tail"
   ],
   "note": "Without -n nothing is left out, although the usage text says that the first is: C153_default_refuted."
  },
  {
   "property": "C154",
   "status": "proved",
   "theorems": [
    "C154_pairs",
    "C154_compare"
   ],
   "note": "The operation is a parameter that does not change its second operand, as is the case without -F."
  },
  {
   "property": "C155",
   "status": "partial",
   "theorems": [
    "C155_compose_partial",
    "C155_first"
   ],
   "note": "False if the first archive has one transducer and the second several: the first operand is replaced by each result (C155_first, C155_first_refuted)."
  },
  {
   "property": "C156",
   "status": "partial",
   "theorems": [
    "C156_generation_partial"
   ],
   "note": "A character unknown to the transducer before a plus sign is looked up out of bounds (C156_plus_refuted); escaped less-than signs in unknown words (C156_escaped_refuted), escaped characters after a mark (C156_marked_refuted) and marks within words (C156_mark_refuted) are treated otherwise."
  },
  {
   "property": "C157",
   "status": "proved",
   "theorems": [
    "C157_counts",
    "C157_kinds",
    "C157_symbols",
    "C157_extremes",
    "C157_pairs"
   ],
   "note": ""
  },
  {
   "property": "C158",
   "status": "partial",
   "theorems": [
    "C158_cyclic_partial",
    "C158_cyclic_refuted"
   ],
   "note": "Only loops of one transition are seen (C158_cyclic_partial); a loop through two states is reported as not cyclic (C158_cyclic_refuted)."
  },
  {
   "property": "C159",
   "status": "partial",
   "theorems": [
    "C159_expand_partial",
    "C159_flags_refuted"
   ],
   "note": "For transducers without internal symbols, and for symbols that are ordinary or given (C159_expand_partial); a string with a flag diacritic is lost (C159_flags_refuted)."
  },
  {
   "property": "C160",
   "status": "proved",
   "theorems": [
    "C160_file",
    "C160_refused"
   ],
   "note": ""
  },
  {
   "property": "C161",
   "status": "partial",
   "theorems": [
    "C161_archive_partial",
    "C161_archive_refuted"
   ],
   "note": "True of -f and -t, and of the first transducer with a file (C161_archive_partial); with a file, the second transducer of an archive is not expanded, since the file has been read to its end (C161_archive_refuted)."
  },
  {
   "property": "C162",
   "status": "partial",
   "theorems": [
    "C162_repeat_partial",
    "C162_order",
    "C162_infinity_refuted",
    "C162_negative_refuted"
   ],
   "note": "True for numbers up to INT_MAX (C162_repeat_partial, C162_order), but --from=N --to=inf is refused for any N but 0 (C162_infinity_refuted), and --to=-1 is accepted and gives the empty transducer (C162_negative_refuted)."
  },
  {
   "property": "C163",
   "status": "partial",
   "theorems": [
    "C163_listed_partial",
    "C163_all",
    "C163_exit",
    "C163_superset_refuted"
   ],
   "note": "The lists and the exit code are right (C163_listed_partial, C163_all, C163_exit), but the sentence that the first is a superset of the second is printed just when it is a subset (C163_superset_refuted)."
  },
  {
   "property": "C164",
   "status": "partial",
   "theorems": [
    "C164_dump_partial",
    "C164_twice_refuted"
   ],
   "note": "The symbols of the alphabet and those of the transitions are printed one after the other (C164_dump_partial), so a symbol in both is printed twice (C164_twice_refuted)."
  },
  {
   "property": "C165",
   "status": "partial",
   "theorems": [
    "C165_pair_partial",
    "C165_exists",
    "C165_hang_refuted"
   ],
   "note": "True (C165_pair_partial, C165_exists) except that a label that begins with an escaped colon makes the tool loop forever (C165_hang_refuted)."
  },
  {
   "property": "C166",
   "status": "partial",
   "theorems": [
    "C166_insert_partial",
    "C166_second_refuted",
    "C166_single_refuted"
   ],
   "note": "True of the first transducer and of pairs (C166_insert_partial); the other transducers of an archive are left as they are (C166_second_refuted), and a single symbol makes the tool follow a null pointer (C166_single_refuted)."
  },
  {
   "property": "C167",
   "status": "partial",
   "theorems": [
    "C167_versions_partial",
    "C167_max_refuted",
    "C167_large_refuted",
    "C167_empty_refuted"
   ],
   "note": "True of --atleast-version and --exact-version (C167_versions_partial) when minor and patch number are below 10000 (C167_large_refuted). --max-version tests the wrong way round (C167_max_refuted), and the empty text is taken as version 0 (C167_empty_refuted)."
  },
  {
   "property": "C168",
   "status": "partial",
   "theorems": [
    "C168_features_partial",
    "C168_inverted_refuted"
   ],
   "note": "True of SFST, ICU and unknown features (C168_features_partial); for foma, XFSM and OpenFst the tool succeeds just when the library is missing (C168_inverted_refuted)."
  },
  {
   "property": "C169",
   "status": "partial",
   "theorems": [
    "C169_one_partial",
    "C169_two_partial",
    "C169_cut_refuted"
   ],
   "note": "True (C169_one_partial, C169_two_partial) except that the operation fails when the cut falls inside a character (C169_cut_refuted)."
  },
  {
   "property": "C170",
   "status": "partial",
   "theorems": [
    "C170_name_partial",
    "C170_cut_refuted"
   ],
   "note": "True (C170_name_partial) when the cut does not fall inside a character; then the tool fails (C170_cut_refuted)."
  },
  {
   "property": "C171",
   "status": "partial",
   "theorems": [
    "C171_edit_partial",
    "C171_no_equals",
    "C171_encoding",
    "C171_missing_refuted"
   ],
   "note": "True (C171_edit_partial, C171_no_equals, C171_encoding) under the same condition; printing a property that a transducer does not have is undefined (C171_missing_refuted)."
  },
  {
   "property": "C172",
   "status": "proved",
   "theorems": [
    "C172_split",
    "C172_room"
   ],
   "note": ""
  },
  {
   "property": "C173",
   "status": "partial",
   "theorems": [
    "C173_multiply_partial",
    "C173_ends",
    "C173_endless_refuted",
    "C173_negative_refuted",
    "C173_trailing"
   ],
   "note": "True below 2^32 copies (C173_multiply_partial, C173_ends, C173_trailing). From there on the counter wraps around and the tool never ends (C173_endless_refuted), also for negative numbers (C173_negative_refuted)."
  },
  {
   "property": "C174",
   "status": "proved",
   "theorems": [
    "C174_one",
    "C174_two",
    "C174_string",
    "C174_never_fails"
   ],
   "note": ""
  },
  {
   "property": "C175",
   "status": "partial",
   "theorems": [
    "C175_table_partial",
    "C175_symbols_refuted",
    "C175_one_state_refuted",
    "C175_lost_refuted"
   ],
   "note": "True of at least two and at most 10^9 states when no symbol is longer than the numbers are wide (C175_table_partial). Longer symbols are cut (C175_symbols_refuted), with one state no symbol is printed (C175_one_state_refuted), and of several transitions with one label only the last is printed (C175_lost_refuted)."
  },
  {
   "property": "C176",
   "status": "proved",
   "theorems": [
    "C176_whole_characters",
    "C176_label",
    "C176_empty_refuted"
   ],
   "note": "C176_whole_characters, and C176_label for the label of a single transition. The empty text makes the trimming function read before the text (C176_empty_refuted)."
  },
  {
   "property": "C177",
   "status": "partial",
   "theorems": [
    "C177_edges_partial",
    "C177_long_refuted",
    "C177_quotes_refuted"
   ],
   "note": "True when the texts are not empty, valid UTF-8 and without quotes, and those of one edge have at most 63 bytes together (C177_edges_partial). Longer labels lose transitions (C177_long_refuted), and the quotes of earlier transitions get a second backslash, so that the label ends early (C177_quotes_refuted)."
  }
 ]
}