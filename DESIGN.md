# Formal model of hfst/hfst in Rocq (Coq 8.16.1)

Everything is under `rocq/theories` (logical name `Verif`).  For each area `X`:

* `X_Model.v`  – executable Gallina model of the C++ functions; every definition
  cites file and lines under `/repo` and states its simplifications.
* `X_Spec.v`   – small specification, independent of the model's helpers.
* `X_Proofs.v` – lemmas.
* `X_Props.v`  – only the property theorems (closed by `exact`), each followed by
  `Print Assumptions`, with a concrete example meeting its hypotheses.

A theorem called `..._refuted` exhibits an input on which the faithful model
violates the property: the property as stated is false of the code (a finding).
`..._partial` marks theorems that prove only part of the property.

## Trusted base

* Coq's kernel (and `vm_compute` for closed examples).
* `Print Assumptions` for every property theorem: nothing (all are closed under the
  global context); see the table at the end of this file.
* The faithfulness of the model to the C++ text, which was read, not run.

Global simplifications (repeated at the definitions concerned):

* weights are exact integers `Z` (float rounding, NaN, infinities not modelled;
  every finite set of floats is a set of integers after scaling by a power of two,
  so exact comparisons and sums without rounding are covered);
* `unsigned`/`size_t` counters are unbounded except where the property is about
  wrap-around or a table limit;
* std::string is `list ascii`, std::map / std::set are sorted association lists;
* backend libraries (OpenFst, foma, SFST), ICU, stdio formatting of floats and
  the flex/bison parsers are outside the model.

## Plan per property

| id | model | proof |
|----|-------|-------|
| C01 | `is_diacritic` and accessors on byte strings | equivalence with a grammar `exists op feature value, s = ...` |
| C02 | `FdTable`/`FdState` with short-encoded values | simulation to a string-valued calculus, encoding invariant over histories |
| C03 | `FlagDiacriticTable` with its two maps | simulation to the same calculus |
| C04 | both | corollary of C02 and C03; empty-value flags checked separately |
| C05 | `FdTable::is_valid_string` | refutation expected (error flag is never set) |
| C06 | interning tables, `get_number`, `get_symbol` | invariant over call lists |
| C07, C08, C09 | trie, tokenizer | trie lookup = longest registered prefix, induction on input |
| C10 | `OlLetterTrie`, `Encoder` with the ASCII table | invariant over registrations, same longest-match spec |
| C11 | `replace_all` | equals inductive leftmost replacement relation |
| C12, C13 | escape functions built on `replace_all` | round trip; counterexamples where it fails |
| C14, C15 | basic transducer record and its mutators | invariant over operation lists; frame lemmas |
| C16 | `sort_arcs` = sort by `operator<` | permutation + sortedness; documented order refuted |
| C17 | `disjunct` | trie invariant, induction over added entries |
| C18 - C23 | graph operations | path semantics before/after, both directions |
| C24 | `intersect` | soundness; completeness needs symbol-sorted arcs, refuted in general |
| C25 | harmonization | denotation over all symbols |
| C26 - C28 | depth-first searches | reachability of cycles, both directions, termination by fuel bound |
| C29 | `topsort`, `longest_path_size` | invariant of the layered search |
| C30, C31 | recursive lookup, epsilon handler | induction on fuel / paths |
| C32 - C34 | byte codecs of the optimized-lookup format | round trip with arbitrary rest of stream |
| C35 | placeholder structures, index packing, table writer | invariant of the packing loop |
| C36, C37 | table-driven lookup | path semantics of tables; out-of-table read is a distinct outcome |
| C38 - C40 | compose-intersect classes | ordered-set invariant; product path semantics |
| C41 | speller search | reachability |
| C42, C50 | stream headers | round trip, histories of reads |
| C43 - C46 | lexc string utilities and alignment | round trip, buffer accounting, DP optimality |
| C47 | SFST UTF-8 | arithmetic |
| C48, C49 | remaining graph functions | path semantics / set equality |
| C51 - C59 | further string and graph helpers | exact characterisations; refutations where the text is wrong |
| C60 - C63 | path analyses and lookup limits | induction on paths; weights of prefixes |
| C64 | header flags | case analysis over all flags |
| C65 | both lookups | corollary of C30 and C36 |

Not expressible in a model: nothing in the list; run-time cut-offs by wall-clock
time and memory exhaustion are left out of C30 and C36.

<!-- generated -->

## What is modelled

| files | code in /repo | left out |
|---|---|---|
| `Flags_*` | HfstFlagDiacritics.h/.cc (FdOperation, FdTable, FdState, FlagDiacriticTable), HfstLookupFlagDiacritics.cc | `FlagDiacriticTable` printing functions |
| `Tok_*` | HfstTokenizer.cc (tries, tokenize variants), OlLetterTrie and Encoder of optimized-lookup/transducer.cc | ICU grapheme boundaries (an argument of the model); HfstStrings2FstTokenizer |
| `Str_*` | symbol numbering of HfstTropicalTransducerTransitionData.cc; string-utils.cc; AT&T and prolog notation of HfstBasicTransducer.cc; lexc-utils.cc, xfst-utils.cc and xre string helpers; SFST UTF-8 conversion | parsers around these helpers |
| `BT_*` | HfstBasicTransducer.cc: mutators, substitution, insertion, disjunct, alphabet pruning, sorting, merging of flags | names |
| `Isect_*` | HfstBasicTransducer::intersect | merge and compose functions that share its matching loop |
| `An_*` | HfstBasicTransducer.cc: cycle and ambiguity tests, topsort, longest path | - |
| `LK_*` | HfstBasicTransducer::lookup with its limits, HfstEpsilonHandler.cc | wall-clock limits |
| `OLF_*` | optimized-lookup/transducer.h/.cc: header, alphabet and tables as bytes | - |
| `HST_*` | HfstInputStream.cc, HfstOutputStream.cc, HfstOlTransducer.cc streams: HFST headers and their order | bodies of other formats |
| `OLC_*` | ConvertOlTransducer.cc, convert.h, convert.cc: conversion to the optimized-lookup tables | harmonizer, options |
| `OLL_*` | optimized-lookup/transducer.cc: tokenization, get_analyses and lookup_fd_pairs; conversion back | time limits, pmatch containers |
| `Harm_*` | HarmonizeUnknownAndIdentitySymbols.cc; is_special and is_list of pmatch | HfstTransducer::harmonize_ around it |
| `CI_*` | compose_intersect/*.h/.cc: transition sets, rules, rule pairs, composition of a lexicon with rules | HfstTransducer::compose_intersect around it |
| `Sp_*` | optimized-lookup/ospell.cc: Speller::check, Speller::correct, the alphabet translator; next, has_transitions, take_* of transducer.cc | the priority queue that orders corrections |
| `ATT_*` | HfstBasicTransducer.cc: write_in_att_format, write_in_att_format_number, add_att_line, read_in_att_format (FILE* and istream); the loops of hfst-fst2txt and hfst-txt2fst | rounding of floats; exponents, inf and nan in weights |
| `Xp_*` | TropicalWeightTransducer.cc: extract_paths (search and wrapper), get_flag_diacritics; HfstTransducer.cc: extract_paths, extract_paths_fd, ExtractStringsCb_ | OpenFst itself (states, arcs, symbol table as data); is_cyclic; the callback interface with other callbacks; float rounding |
| `OLB_*` | ConvertOlTransducer.cc: hfst_ol_to_hfst_basic_transducer, hfst_ol_to_hfst_basic_add_state; transducer.cc: get_transitions_from_state (modelled in OLL_Model) | the native hfst_ol stream reader in between (C34), unweighted table classes |
| `CT_*` | ConvertTropicalWeightTransducer.cc: handle_symbol_tables, copy_alphabet, tropical_ofst_to_hfst_basic_transducer, hfst_basic_transducer_to_tropical_ofst; TropicalWeightTransducer.cc: get_alphabet, get_symbol_number, get_biggest_symbol_number, get_symbol_vector | OpenFst's own file reading and writing; floats; transducers with states but no start state |
| `Ru_*` | HfstRules.cc: replace, left_replace_up, replace_up/replace_down without context, two_level_if, two_level_only_if, two_level_if_and_only_if, restriction and its nine public variants | the transducer operations of the back ends (concatenate, subtract, compose, ...), which are given by their meaning on pair strings; weights; unknown and identity as anything but ordinary symbols; type checks |
| `Rc_*` | HfstRules.cc: replace_transducer, replace_context, replace_in_context (all types modelled; theorems for replace_up, one for replace_right) | as for Ru_*; composition is given by the relation between strings; the check that contexts are automata |
| `Lx_*` | parsers/LexcCompiler.cc: constructors, reset, addAlphabet, addNoFlag, addStringEntry, addStringPairEntry, addXreEntry, setCurrentLexiconName, setInitialLexiconName, unicodeCheck_, compileLexical (both modes) | the grammar parser (lexc-lexer.ll, lexc-parser.yy) and xre are inputs (calls, compiled expressions); back-end operations given by meaning; unknown and identity symbols as ordinary symbols; align_strings_ false; messages and warning options |
| `Fe_*` | HfstTransducer.cc: eliminate_flags, eliminate_flag, get_flag_filter, new_filter, flag_build, is_valid_flag_combination, flag_purge; HfstBasicTransducer.cc: get_flags, purge_symbol, flag_purge; which symbols compose() matches with unknown and identity | the regular expressions and the composition are given by meaning; FOMA and XFSM back-ends not modelled; flag_is_epsilon_in_composition false |
| `Sh_*` | HfstTransducer.cc: code_symbols_for_shuffle, shuffle | the intersection and optimization are given by meaning (an intersection is shown to exist); the type check is left out |
| `Co_*` | HfstTransducer.cc: compose, is_special_symbol, insert_missing_symbols_to_alphabet_from, substitute_single_identity_with_the_other_symbol | default settings, harmonize = true, types SFST and TROPICAL_OPENFST; the back end's composition is given by meaning (a composition is shown to exist by a product construction) |
| `SF_*` | SFST back end: fst.h, fst.cc, alphabet.cc, operators.cc, determinise.cc; SfstTransducer.cc: the operations that call them | nodes are list positions, visit marks an explicit list, symbols numbers without a 16-bit limit, memory allocation cannot fail |
| `SM_*` | SFST back end: hopcroft.cc (minimisation), operators.cc (minimisation by double reversal, tests, complement, difference, comparison); SfstTransducer.cc: the operations that call them | as SF_*; the order in which address-ordered sets are walked is that of node numbers; the two arguments of a comparison are different objects |
| `PL_*` | HfstBasicTransducer.cc: write_in_prolog_format, read_in_prolog_format and the line parsers; hfst-fst2txt and hfst-txt2fst for this format | weights as in ATT_*; a NUL byte in a symbol is not cut off (the theorems exclude it); line counts and messages left out |
| `HP_*` | hfst-proc: Buffer (buffer.h), LetterTrie and Symbolizer (alphabet.cc), TokenIOStream (tokenizer.cc), AnalysisApplicator::apply (applicators.cc), the output formatters (formatter.cc) | the lookup state is a parameter (state, step, active, final, strings of the final paths), so are the letters of ICU; debugging output left out |
| `LS_*` | hfst-proc: LookupState (lookup-state.cc), LookupPath and its subclasses (lookup-path.cc), ProcTransducer::create_initial_path (transducer.cc), OutputFormatter::preprocess_finals and filter_compound_analyses (formatter.cc) | the four path classes are one record; the order of addresses is a parameter; letter case (ICU) is a parameter; weights are integers; the number of compound boundaries of a path is a parameter |
| `PU_*` | disjunct, intersect, subtract, negate, priority_union and lenient_composition of HfstTransducer (HfstTransducer.cc, HfstApply.cc), is_automaton and extract_input_language of the OpenFst back end (TropicalWeightTransducer.cc) | union, intersection, difference, closure and minimization of the back end, which compare labels literally, are given by their meaning; operations that meet it are constructed in PU_Proofs5 and PU_Proofs6; types and conversions are left out |
| `PM_*` | matching of patterns in running text (hfst-pmatch, hfst-tokenize): process, the search through the networks with calls, flags, lists and default transitions, the choice of the match, stringify and locatefy (pmatch.cc, pmatch.h), DoubleTape (transducer.h) | the tables of a network are lists of transitions; contexts, captures, counters, guards, the time limit and verbose messages are left out; weights are integers |
| `Xr_*` | replace rules of xfst and regular expressions (HfstXeroxRules.cc): one rule and parallel rules, optional and obligatory, directed with longest and shortest match, to the left; restriction, before and after | the operations of HfstTransducer are given by their meaning on sets of pair strings; weights, mark-up rules and the renaming of flag diacritics are left out; directed rules whose left sides match the empty string are modelled but nothing is proved about them |
| `CW_*` | compose_intersect of HfstTransducer: boundaries, harmonization, stand-ins for unknown and identity, turning of lexicon and rules | optimize is left out; conversion of foma transducers is left out; Concat and Invert of OpenFst are modelled |
| `Cr_*` | cross_product of HfstTransducer, with concatenate and compare as it calls them | type checks; concatenation, closure, minimization and comparison of the back end are given by their meaning on labels |
| `FH_*` | flag diacritics of two transducers: insert_freely_missing_flags_from, rename_flag_diacritics, twosided_flag_diacritics, get_flag_path_restriction, remove_illegal_flag_paths, harmonize_flag_diacritics | type checks; conversions between the back end and basic transducers |
| `RW_*` | hfst-reweight (do_reweight, files of rules), hfst-kill-paths, hfst-preprocess-for-optimized-lookup-format | reading options; reading and writing transducers; weights are integers, the function of -F is arbitrary |
| `FL_*` | is_lookup_infinitely_ambiguous and find_loop of the optimized-lookup format | the C++ stack is finite: a search that goes ever deeper is Diverge |
| `S2_*` | HfstStrings2FstTokenizer and the lines of hfst-strings2fst | ICU as in Tok; hfst_strtoweight is a parameter; only -j without --norm and --log |
| `GT_*` | encode_flag_diacritics and decode_flag_diacritics, hfst-affix-guessify, hfst-traverse | conversions between types keep the transducers as they are; the order in which hfst-traverse shows its paths is left out |
| `PT_*` | hfst-pair-test | without the option -X; messages are left out |
| `AR_*` | archives: hfst-head, hfst-tail, and the loop of the tools for two archives | archives are lists of transducers; the operation is a parameter |
| `GA_*` | hfst-proc: generation (GenerationApplicator) | the lookup is a parameter: the strings put out for a word |
| `SU_*` | hfst-summarize | the values printed for a transducer, not the words around them |
| `EE_*` | hfst-expand-equivalences | not modelled: the XML file of option -a |
| `RP_*` | hfst-repeat | for the SFST back end; strtod is not modelled |
| `CA_*` | hfst-check-alpha and hfst-dump-alphabets | of the reports of hfst-check-alpha, the words around the symbols are left out |
| `IF_*` | hfst-insert-freely, and the labels in options of hfst-substitute | not modelled: option -H |
| `IN_*` | hfst-info | not modelled: the messages, options -h and -V; long is taken to have 64 bits |
| `MD_*` | names and properties: hfst-tool-metadata.cc, hfst-name, hfst-edit-metadata | ICU's UTF-8 check is modelled by the table of the Unicode standard; formulaic definitions, printing of all properties and of names are not modelled |
| `SX_*` | hfst-split and hfst-multiply | not modelled: files that cannot be written; an input file that is also an output file |
| `FO_*` | formulaic definitions: hfst-tool-metadata.cc | commandline definitions, which no tool sets, are not modelled |
| `PK_*` | the PC-KIMMO format of hfst-fst2txt | not modelled: more than 10^9 states; the conversion to HfstBasicTransducer |
| `DT_*` | the edges of the dot format of hfst-fst2txt | not modelled: header and nodes of the graph; how weights are rounded by %.2f |

Not modelled at all: the OpenFst and foma back ends (where an operation of theirs is called, its meaning on labels is part of the model, as stated in the table), n-best, the flex/bison grammars (xre, lexc, twolc, pmatch, xfst), the command-line tools other than the core of hfst-proc, the Python and Java bindings, float formatting, ICU.

## Status and assumptions

`Print Assumptions` reports "Closed under the global context" for every theorem listed below: no axiom is used, from the standard library or otherwise. A `_refuted` theorem is a finding about the code.

| id | status | theorems | remarks |
|---|---|---|---|
| C01 | proved | `C01_is_diacritic_grammar`, `C01_accessors_without_value`, `C01_accessors_with_value`, `C01_documented_regex_refuted` | Exact grammar and accessors; the regular expression in the code comment is narrower than what the code accepts (C01_documented_regex_refuted). |
| C02 | proved | `C02_fdstate_semantics`, `C02_empty_value_refuted` | For at most 32766 non-empty values and 65535 features (beyond, the code's short encoding wraps) and no empty values; the empty-value case is refuted. |
| C03 | proved | `C03_is_valid_string`, `C03_total` | Holds for every vector and every previous table state. |
| C04 | proved | `C04_machines_agree`, `C04_empty_value_refuted` | Holds when no flag carries an empty value (then refuted) and within the numeric limits of C02. |
| C05 | partial | `C05_is_valid_string_always_true`, `C05_is_valid_string_refuted`, `C05_find_diacritic_never_finds` | REFUTED: the code always answers true (C05_is_valid_string_refuted); what holds instead is stated by the other theorems. |
| C06 | proved | `C06_numbering`, `C06_numbering_total`, `C06_harmonization_vector`, `C06_reverse_harmonization_vector` |  |
| C07 | proved | `C07_tokenization_lossless`, `C07_tokenization_lossless_no_skip`, `C07_cut_utf8_symbol_out_of_bounds_refuted`, `C07_byte255_symbol_out_of_bounds_refuted` | Whenever tokenization returns; symbols cutting a UTF-8 character or containing byte 255 make it leave its buffers (the two _refuted theorems). |
| C08 | proved | `C08_leftmost_longest` | UTF-8 symbols and input; ICU is an argument of the model. |
| C09 | proved | `C09_pair_tokenization`, `C09_pair_tokenization_total` |  |
| C10 | proved | `C10_encoder_longest_match`, `C10_empty_symbol_refuted` | Non-empty NUL-free symbols with numbers below 65535; registering an empty symbol is undefined behaviour (C10_empty_symbol_refuted). |
| C11 | proved | `C11_replace_all`, `C11_replace_all_absent` |  |
| C12 | partial | `C12_att_escape_no_blank`, `C12_att_roundtrip_partial`, `C12_att_roundtrip_without_escapes_refuted` | The escaped form never contains a blank (all symbols); the round trip is proved for att_reversible symbols. The English exception is not enough: C12_att_roundtrip_without_escapes_refuted exhibits a symbol without any escape sequence that comes back different. |
| C13 | partial | `C13_prolog_symbol_roundtrip_partial`, `C13_prolog_arc_roundtrip_partial`, `C13_percent_zero_refuted`, `C13_trailing_backslash_refuted` | Holds except for %0, %? and symbols ending in a backslash on arcs; both exceptions are refuted by concrete symbols. |
| C14 | partial | `C14_structure`, `C14_final_weight_map`, `C14_well_formed_partial`, `C14_step_partial`, `C14_substitute_by_empty_set_refuted`, `C14_remove_transition_refuted`, `C14_substitute_special_refuted`, `C14_remove_symbol_refuted`, `C14_insert_freely_marker_refuted` | Structure and final-weight map hold after every history of the modelled calls; the alphabet part holds for safe histories (C14_well_formed_partial). The excluded calls really break it: the five _refuted theorems. |
| C15 | proved | `C15_add_transition`, `C15_remove_transition`, `C15_remove_transition_alphabet`, `C15_final_weights`, `C15_get_final_weight` | Exact effects for every transducer, state and argument. |
| C16 | partial | `C16_sort_arcs_order`, `C16_sort_unique`, `C16_documented_order_refuted` | REFUTED as documented: transitions are ordered by target first (C16_sort_arcs_order, C16_documented_order_refuted). |
| C17 | proved | `C17_trie`, `C17_empty_symbol_rejected` | Any list of entries, added to the empty transducer; entries with empty symbols are rejected. |
| C18 | proved | `C18_complete`, `C18_complete_rejects` | Language unchanged, every non-special alphabet symbol readable in every state; throws exactly on unequal pairs. |
| C19 | proved | `C19_substitute_symbol`, `C19_substitute_symbol_total`, `C19_symbol_outside_alphabet_refuted` | For transducers whose alphabet contains their symbols (guaranteed by C14 for safe histories). |
| C20 | proved | `C20_symbols_simultaneous`, `C20_pairs_simultaneous`, `C20_total` |  |
| C21 | partial | `C21_pair_to_set_partial`, `C21_empty_set_partial`, `C21_empty_set_refuted`, `C21_function`, `C21_function_empty_set_refuted` | Non-empty set: proved. Empty set: proved when no two adjacent transitions of a state match, refuted otherwise. Functions: proved; a function returning an empty set is undefined behaviour. |
| C22 | partial | `C22_pair_to_transducer_partial`, `C22_two_matches_refuted`, `C22_symbol_map`, `C22_symbol_map_rejects` | substitute(pair, transducer): proved for at most one match per state, undefined behaviour otherwise. substitute(map): proved without restriction. |
| C23 | proved | `C23_insert_freely`, `C23_insert_freely_total`, `C23_insert_transducer_freely`, `C23_marker_refuted` | Both overloads; the transducer overload assumes the reserved marker is on no transition (C23_marker_refuted shows why). |
| C24 | partial | `C24_intersect_sound`, `C24_intersect_partial`, `C24_missing_path_refuted`, `C24_initial_weight_refuted`, `C24_duplicate_labels_refuted` | Soundness and termination proved for all transducers (up to the initial final weight being the minimum). The full statement is proved when sorting leaves the labels of each state strictly ordered and the initial final weights agree; refuted otherwise (three _refuted theorems). |
| C25 | partial | `C25_meaning_kept_partial`, `C25_labels_agree_partial`, `C25_once_is_enough_partial`, `C25_removed_special_refuted` | Proved for transducers whose alphabets hold the special symbols, whose identity symbols are paired and which have no empty symbol. An alphabet that lost the unknown symbol through remove_transition breaks it (C25_removed_special_refuted). |
| C26 | proved | `C26_negative_epsilon_cycles` | Exact for every well-structured graph; weights are integers in the model (the code adds floats). |
| C27 | proved | `C27_infinitely_ambiguous` | Exact for every well-structured graph, including cycles that are not reachable from the initial state, as the function tries every state. |
| C28 | proved | `C28_lookup_infinitely_ambiguous` | Exact for every well-structured graph and input; flag diacritics always count as free (is_valid_string never rejects, see C05). |
| C29 | proved | `C29_longest_path_size`, `C29_cyclic_diverges` | Exact on acyclic graphs; with a reachable cycle the call does not return (C29_cyclic_diverges). |
| C30 | proved | `C30_lookup_exact`, `C30_lookup_sound`, `C30_complete_without_cycles` | Exact for every well-structured graph and input, with termination; a literal epsilon or flag in the input is matched literally, as the code does. Integer weights. |
| C31 | proved | `C31_cycle_count_exists`, `C31_no_cycle_iff`, `C31_acyclic_never_cut`, `C31_stretch_bound` | Number of cycles defined by chronological loop erasure (unique count, C31_cycle_count_exists); the exact limit is part of C30_lookup_exact. |
| C32 | proved | `C32_header_roundtrip`, `C32_header_refused` | The header codec, including every refusal. |
| C33 | proved | `C33_alphabet_roundtrip`, `C33_alphabet_read_exact`, `C33_unterminated_accepted` | Also: a truncated last symbol is accepted (C33_unterminated_accepted). |
| C34 | partial | `C34_transducer_roundtrip`, `C34_weights_dropped`, `C34_read_exact`, `C34_copy`, `C34_after_unknown_lookup_refuted`, `C34_unweighted_tables_refuted` | Exact round trip for every consistent transducer; two reachable in-memory states break it: after looking up an unknown symbol (C34_after_unknown_lookup_refuted) and unweighted tables under a weighted header (C34_unweighted_tables_refuted). |
| C35 | partial | `C35_tables_partial`, `C35_converts`, `C35_diverges`, `C35_throws`, `C35_insertion_refuted` | Proved for input sides without @I.x@ symbols, weights whose 32-bit encoding is faithful and tables below 2^31 entries. False with @I.x@ inputs (C35_insertion_refuted). Conversion succeeds up to 65535 symbols, never returns with exactly 65536 (C35_diverges) and throws with more. |
| C36 | partial | `C36_sound`, `C36_complete_partial`, `C36_complete_without_flags`, `C36_limit`, `C36_complete_refuted` | Soundness (C36_sound) and the limit (C36_limit) are proved for every converted transducer and any history of lookups; completeness for runs that, between two tokens, take no two flag transitions to one state from the same flag values (C36_complete_partial), hence for all runs when there are no flags (C36_complete_without_flags). Full completeness is false (C36_complete_refuted). Assumed: no @I.x@ inputs, no default symbol, flags with non-empty values, fewer than 32767 symbols, symbol numbers below 2^16, texts without NUL or the epsilon name. |
| C37 | partial | `C37_inside_partial`, `C37_unknown_character_refuted`, `C37_cut_off_character_refuted` | Proved when the text has a tokenization and each token is an input symbol or both unknown and identity are input symbols. False otherwise: C37_unknown_character_refuted, C37_cut_off_character_refuted. |
| C38 | proved | `C38_ordered_set`, `C38_transitions` | For every strict total order; instantiated with the comparator of transitions. Forming a reference to the end of the vector in insert (undefined behaviour in the standard, harmless in practice) is not modelled. |
| C39 | proved | `C39_lazy_intersection`, `C39_any_nesting`, `C39_queries_answered`, `C39_nondeterministic_refuted` | Any number of rules, any nesting, any query history. Deterministic means: no two transitions of a state with the same label, at most one identity transition in a state. Without it: C39_nondeterministic_refuted. |
| C40 | partial | `C40_joined_paths_partial`, `C40_identity_refuted`, `C40_flags_refuted` | One rule, deterministic or not, or several deterministic rules that know no flag diacritics; the identity symbol of the lexicon matches nothing. Both restrictions are needed (C40_flags_refuted, C40_identity_refuted). HfstTransducer::compose_intersect around it (harmonization, word boundaries, inversion) is not modelled. |
| C41 | partial | `C41_check_partial`, `C41_words_found`, `C41_answers`, `C41_epsilon_cycle_refuted`, `C41_epsilon_text_refuted` | For texts without NUL and without the name of the epsilon symbol (C41_epsilon_text_refuted). Accepted words are always found; a negative answer comes only without cycles of epsilons and flags (C41_epsilon_cycle_refuted: the checker can loop for ever). |
| C42 | partial | `C42_header_roundtrip`, `C42_header_written`, `C42_stream_roundtrip`, `C42_own_properties_partial`, `C42_properties_leak_refuted` | Transducers and order are exact; properties are exact up to carry-over from earlier transducers of the stream (C42_properties_leak_refuted). |
| C43 | partial | `C43_strip_add_percents_partial`, `C43_strip_add_percents_refuted` | Holds for symbols without @; REFUTED in general (@PERCENT@). |
| C44 | proved | `C44_strip_percents` | All byte strings and both modes; the result is characterised by the inductive lexc_unescaped. |
| C45 | partial | `C45_strstrip_partial`, `C45_strstrip_blank_refuted` | Holds for NUL-free strings with a non-white byte and for the empty string; every other string makes the code read before its buffer (C45_strstrip_blank_refuted). |
| C46 | proved | `C46_alignment`, `C46_alignment_faithful` |  |
| C47 | proved | `C47_utf8_roundtrip`, `C47_large_rejected` |  |
| C48 | partial | `C48_swap_partial`, `C48_both_final_refuted`, `C48_both_final_lost_refuted` | Holds unless both states are final, where it is refuted (C48_both_final_lost_refuted). |
| C49 | proved | `C49_prune` | Exact alphabet after pruning. |
| C50 | partial | `C50_reported_size_partial`, `C50_openfst_refuted` | Exact for current headers and four of the six pre-release headers; the two OpenFst pre-release headers are reported 3 bytes short (C50_openfst_refuted). |
| C51 | proved | `C51_space_separated` |  |
| C52 | partial | `C52_flags_aligned`, `C52_output_text_preserved_refuted` | Pairing and order are proved (C52_flags_aligned); that only epsilons or flags are added is false of the code (C52_output_text_preserved_refuted). |
| C53 | proved | `C53_name_codes`, `C53_name_codes_distinct` |  |
| C54 | partial | `C54_xre_percents_partial`, `C54_xre_percents_refuted`, `C54_strip_curly_partial`, `C54_strip_curly_plain`, `C54_strip_curly_empty_refuted`, `C54_angle_brackets` | Percent round trip for symbols without %; refuted in general. strip_curly is refuted for the empty pair of braces. Angle brackets in full. |
| C55 | partial | `C55_quoted_plain_partial`, `C55_quoted_no_overflow`, `C55_quoted_escapes`, `C55_quoted_out_of_bounds_refuted` | Plain text and output length proved; reading behind the string is REFUTED (octal and \u escapes). |
| C56 | partial | `C56_token_lines_partial`, `C56_token_columns_refuted` | Lines proved; columns REFUTED (they depend on how the line is cut into tokens). |
| C57 | proved | `C57_nonconst_part`, `C57_nonconst_part_only` |  |
| C58 | partial | `C58_replace_zero_first`, `C58_replace_zero_none`, `C58_replace_zero_all_refuted` | Exactly the first occurrence is replaced; REFUTED for strings with several. |
| C59 | proved | `C59_flag_purge` |  |
| C60 | proved | `C60_insert_transducer` |  |
| C61 | proved | `C61_path_sizes` | Exact on acyclic graphs. |
| C62 | partial | `C62_max_weight_partial`, `C62_negative_weights_refuted` | Holds for non-negative weights; with negative weights results within the limit are lost (C62_negative_weights_refuted). |
| C63 | proved | `C63_max_number` |  |
| C64 | partial | `C64_set_flag_partial`, `C64_clear_flag_refuted` | Setting to true works; setting to false sets the flag (C64_clear_flag_refuted). |
| C65 | partial | `C65_lookups_agree_partial`, `C65_output_symbol_refuted` | Proved when all tokens are input symbols and the arcs carry no flags, unknown or identity and there are no epsilon cycles. False in general: a symbol that occurs only on output sides is unknown to the converted transducer (C65_output_symbol_refuted). |
| C66 | partial | `C66_corrections_partial`, `C66_answers`, `C66_epsilon_shown_refuted`, `C66_unknown_output_refuted` | Exact and optimal, but epsilon outputs and dropped symbols are shown as @_EPSILON_SYMBOL_@ (C66_epsilon_shown_refuted). The error model must read no flags and write only symbols the lexicon reads, other than unknown (C66_unknown_output_refuted reads outside the tables). |
| C67 | partial | `C67_att_files_roundtrip_partial`, `C67_separator`, `C67_language`, `C67_numbers`, `C67_bad_line`, `C67_long_symbol_refuted`, `C67_istream_refuted` | For reversible symbols (C12), lines of at most 253 bytes and fields of at most 99: longer symbols overrun the reader's buffers (C67_long_symbol_refuted). The istream reader reads nothing (C67_istream_refuted). Weights are decimal millionths; float rounding is not modelled. |
| C68 | partial | `C68_number_format_partial`, `C68_number_finals_refuted` | Only when every final state has exactly one transition: otherwise final states are lost or repeated (C68_number_finals_refuted). |
| C69 | partial | `C69_extract_paths`, `C69_extract_paths_limited`, `C69_refused`, `C69_limit_refuted`, `C69_counter_refuted` | Proved for cycle limits below 65535 (at 65535 the 16-bit counters make the search endless: C69_counter_refuted). The number limit can be exceeded by one when the empty path is accepted (C69_limit_refuted); otherwise it holds. A negative cycle limit with a number limit on a cyclic transducer is not covered. |
| C70 | partial | `C70_extract_paths_fd_partial`, `C70_extract_paths_fd_limited_partial` | For flag values that are not empty (see C02) and at most 32766 symbols; limits as in C69. |
| C71 | partial | `C71_roundtrip_partial`, `C71_outcome_partial`, `C71_outside_refuted` | Proved if every symbol of the alphabet but epsilon and flags is an input symbol of some transition; otherwise the result is right or the index table is read outside its bounds (C71_outcome_partial; it happens for the empty transducer and for a:b, C71_outside_refuted). No @I.x@ inputs, faithful weights, fewer than 2^31 entries. |
| C72 | proved | `C72_roundtrip`, `C72_to_tropical`, `C72_alphabet_refuted` | Outside the stated condition it fails: a symbol removed from the alphabet but used on a transition becomes epsilon (C72_alphabet_refuted). |
| C73 | proved | `C73_to_basic`, `C73_states`, `C73_alphabet`, `C73_empty`, `C73_no_table_refuted`, `C73_output_table_refuted`, `C73_gap_refuted`, `C73_foreign_epsilon_refuted` | Outside the stated conditions: output labels are named by the input table even if there is an output table (C73_output_table_refuted), a label missing from the table can become epsilon (C73_gap_refuted), another name for label 0 becomes an ordinary symbol missing from the alphabet (C73_foreign_epsilon_refuted), and a state-less transducer without a table dereferences a null pointer (C73_no_table_refuted). |
| C74 | proved | `C74_if`, `C74_only_if`, `C74_if_and_only_if`, `C74_foreign_mapping` | Back-end operations by meaning. For alphabets and mappings without the pair epsilon:epsilon. |
| C75 | partial | `C75_restriction`, `C75_coercion`, `C75_both`, `C75_surface_partial`, `C75_deep_partial`, `C75_no_contexts`, `C75_mapping_kept`, `C75_mapping_kept_refuted` | Surface and deep variants only for mappings and alphabets without epsilons. That the arguments are left alone is false of the surface and deep variants, which project the caller's mapping in place (C75_mapping_kept_refuted). |
| C76 | partial | `C76_replace_up`, `C76_replace_down`, `C76_total`, `C76_total_down`, `C76_unchanged`, `C76_obligatory`, `C76_optional`, `C76_left`, `C76_insertion_refuted`, `C76_optional_each_refuted` | For alphabets of identity pairs. False for mappings of the empty string, where nothing is accepted (C76_insertion_refuted); the optional variant is all or nothing, not per occurrence (C76_optional_each_refuted). |
| C77 | partial | `C77_replace_up`, `C77_total`, `C77_unchanged`, `C77_obligatory`, `C77_optional`, `C77_insertion_refuted`, `C77_output_refuted`, `C77_right_deletion_refuted` | replace_up only, for identity alphabets that contain the outputs of the mapping (otherwise replaceable strings have no result: C77_output_refuted). Mappings of the empty string are never applied (C77_insertion_refuted). replace_right gives no result where something is deleted (C77_right_deletion_refuted); the other variants are modelled but not characterized. |
| C78 | partial | `C78_lexc_partial`, `C78_default_constructor_refuted`, `C78_regexp_weights_refuted` | For the constructors that take an implementation type; for symbols that do not collide with the compiler's internal ones, regular expressions kept apart by lexicon and continuation (otherwise weights merge: C78_regexp_weights_refuted), and an initial lexicon with entries. With the default constructor nothing is ever accepted (C78_default_constructor_refuted). |
| C79 | partial | `C79_lexc_flags_partial`, `C79_noflags_refuted` | As C78, for entries without lexicon-name flags of their own and without NoFlags lexicons, whose entries are lost (C79_noflags_refuted). |
| C80 | partial | `C80_initial_lexicon_partial`, `C80_second_grammar_refuted` | Proved for the first grammar of a process. The static variable firstLexicon makes it false for later ones: C80_second_grammar_refuted. |
| C81 | partial | `C81_eliminate_flags_partial`, `C81_total`, `C81_flag_purge`, `C81_lone_requirement_refuted`, `C81_negative_refuted`, `C81_negative_disallow_refuted`, `C81_unconnected_refuted` | For flags paired with themselves, without N flags, with something bearing on each R flag, and without xerox_composition (the default) only if every flag is connected to another one. The property is false for a lone R flag (kept: C81_lone_requirement_refuted), for N flags (obeying paths lost: C81_negative_refuted, C81_negative_disallow_refuted) and for unconnected flags (paths lost: C81_unconnected_refuted). |
| C82 | partial | `C82_eliminate_flag_partial`, `C82_same_meaning_partial`, `C82_feature_missing`, `C82_other_features_refuted` | As C81. Without xerox_composition flags of other features make paths disappear: C82_other_features_refuted. |
| C83 | partial | `C83_shuffle_partial`, `C83_rejects_partial`, `C83_identity_refuted`, `C83_prefixed_refuted`, `C83_unknown_refuted` | For transducers without unknown and identity symbols and without symbols beginning with @1 or @2. The property is false for identity (symbols excluded from it are lost from the alphabet: C83_identity_refuted), for prefixed symbols (C83_prefixed_refuted) and for unknown:unknown, which is not rejected (C83_unknown_refuted). |
| C84 | partial | `C84_compose_partial`, `C84_total_partial`, `C84_unknown_refuted` | Under the conditions of C25. The property is false if both transducers have unknown at the outer ends: pairs with the same unknown symbol on both ends are lost (C84_unknown_refuted). |
| C85 | proved | `C85_copy`, `C85_invert` | For transducers in order (trans_ok), which every operation proved here yields, except as said for C92 and C96. |
| C86 | proved | `C86_disjunct`, `C86_optionalize` | For transducers in order (trans_ok), which every operation proved here yields, except as said for C92 and C96. |
| C87 | proved | `C87_concatenate` | For transducers in order (trans_ok), which every operation proved here yields, except as said for C92 and C96. |
| C88 | proved | `C88_star`, `C88_plus`, `C88_n`, `C88_le_n` | For transducers in order (trans_ok), which every operation proved here yields, except as said for C92 and C96. |
| C89 | proved | `C89_reverse` | For transducers in order (trans_ok), which every operation proved here yields, except as said for C92 and C96. |
| C90 | proved | `C90_input`, `C90_output` | For transducers in order (trans_ok), which every operation proved here yields, except as said for C92 and C96. |
| C91 | partial | `C91_substitute_partial`, `C91_epsilon_refuted` | For a symbol other than the empty one. With the empty one the result depends on how the transducer is built (C91_epsilon_refuted). |
| C92 | partial | `C92_insert_freely_partial`, `C92_flags_refuted`, `C92_minimal_refuted` | The language is as stated in full. That the result is in order is proved if no transition has the label and if something is accepted or the transducer is not flagged as minimal, and false otherwise: flags are copied although loops are added, so that a later intersection loses strings (C92_flags_refuted), and a transducer that accepts nothing is no longer found to be empty (C92_minimal_refuted). |
| C93 | proved | `C93_determinize` | For transducers in order (trans_ok), which every operation proved here yields, except as said for C92 and C96. |
| C94 | proved | `C94_intersect` | For transducers in order (trans_ok), which every operation proved here yields, except as said for C92 and C96. |
| C95 | proved | `C95_compose` | For transducers in order (trans_ok), which every operation proved here yields, except as said for C92 and C96. |
| C96 | partial | `C96_add_path_partial`, `C96_paths`, `C96_language_refuted`, `C96_flags_refuted` | For transducers that are trees, which those made by adding paths to the empty one are (C96_paths has no hypotheses). On shared nodes other strings come in (C96_language_refuted); the flags are kept although they may become false (C96_flags_refuted). |
| C97 | proved | `C97_minimize`, `C97_algorithms_agree` | For transducers in order (trans_ok), which every operation proved here yields, except as said for C92 and C96. |
| C98 | proved | `C98_is_empty`, `C98_empty_string` | For transducers in order (trans_ok), which every operation proved here yields, except as said for C92 and C96. |
| C99 | proved | `C99_subtract` | For transducers in order (trans_ok), which every operation proved here yields, except as said for C92 and C96. |
| C100 | proved | `C100_negate`, `C100_refused` | For transducers in order (trans_ok), which every operation proved here yields, except as said for C92 and C96. |
| C101 | proved | `C101_are_equivalent` | For transducers in order (trans_ok), which every operation proved here yields, except as said for C92 and C96. |
| C102 | proved | `C102_is_cyclic`, `C102_is_automaton` | For transducers in order (trans_ok), which every operation proved here yields, except as said for C92 and C96. |
| C103 | proved | `C103_input_language`, `C103_output_language` | For transducers in order (trans_ok), which every operation proved here yields, except as said for C92 and C96. |
| C104 | partial | `C104_prolog_roundtrip_partial`, `C104_language`, `C104_name_with_comma`, `C104_tools_partial`, `C104_several_partial`, `C104_tools_several_refuted`, `C104_stream_refuted`, `C104_blank_symbol_refuted`, `C104_long_name_refuted` | Symbols and names have to be expressible in the notation and to fit into the reader's buffers (prolog_writable). Refuted: several transducers written by hfst-fst2txt are always refused by hfst-txt2fst (different separators); the istream reader refuses every text; an unused alphabet symbol with a blank makes the text unreadable; names of 98 bytes or more overflow a buffer. |
| C105 | proved | `C105_no_stale_memory`, `C105_comments`, `C105_terminates` | FILE* reader; the buffer read before being written is taken to hold a terminated string. |
| C106 | partial | `C106_text_partial`, `C106_all_read_partial`, `C106_longest_symbol`, `C106_reading_ends`, `C106_backslash_refuted`, `C106_symbol_at_end_refuted`, `C106_out_of_bounds_refuted` | Text fidelity for text with a backslash before reserved characters only, without NUL, with complete UTF-8 characters. Refuted otherwise: other backslashes are lost; the beginning of a symbol at the end of the text is lost; a final backslash, byte 255 and NUL are out of bounds. |
| C107 | partial | `C107_next`, `C107_add`, `C107_back_partial`, `C107_get_partial`, `C107_diff` | Moving back and looking up are proved within the window the buffer holds, and moving back only to a position after the first token. |
| C108 | partial | `C108_analysis_partial`, `C108_short_text_fits`, `C108_no_stall`, `C108_division_unique`, `C108_reserved_partial`, `C108_word_at_end_refuted`, `C108_prefix_at_end_refuted`, `C108_unknown_at_end_refuted`, `C108_stall_refuted`, `C108_buffer_end_refuted` | Proved for texts that end outside words, where no place stalls and no word overruns the buffer (every text of less than 1023 tokens fits). Refuted: a known word at the very end is not shown or shown with what follows; an unknown word at the very end makes the program run forever; a character is lost where the lexicon stalls; a word ending at token 1024 reads out of bounds. |
| C109 | partial | `C109_apertium_partial` | Under the conditions of C106 and C108. |
| C110 | partial | `C110_runs_partial`, `C110_finals_partial`, `C110_answers_partial`, `C110_lexicon_partial`, `C110_cycle_refuted`, `C110_weight_refuted`, `C110_output_symbol_refuted`, `C110_empty_weight_refuted` | For every result that is returned; a result is returned if no circle of arcs needs no input and the symbols are input symbols or unknown. C110_lexicon_partial puts it in place of the lexicon parameter of C108. Refuted: an epsilon circle never ends; a symbol that occurs only in output reads beyond the index table; of two runs with the same output the heavier may be kept; for empty input the final weight is missing. |
| C111 | proved | `C111_choice`, `C111_no_limit` |  |
| C112 | proved | `C112_disjunct`, `C112_intersect`, `C112_subtract` |  |
| C113 | proved | `C113_negate`, `C113_refused` |  |
| C114 | partial | `C114_priority_union_partial`, `C114_flags_refuted` | Refuted for strings with flag diacritics that are not in Q's alphabet (the identity in the negation of Q does not stand for them); pattern matching symbols are excluded for the same reason. No symbols of the form @_..._@ besides the reserved ones; of several weights for one pair the lightest need be kept. |
| C115 | partial | `C115_lenient_partial` | As C114; one of the two transducers has no unknown at its outer end (C84_unknown_refuted). |
| C116 | partial | `C116_match_partial`, `C116_history_partial`, `C116_history_refuted`, `C116_recursion_refuted`, `C116_order_refuted` | Refuted: the outcome for empty matches depends on the texts before (best_weight is neither initialised nor reset); flags of a recursive call leak into the caller; default transitions depend on the order of the transitions. Proved without these: calls not recursive and default transitions not mixed with transitions that read nothing, or no flags and no default transitions; the output of an empty match may be left out. |
| C117 | partial | `C117_locate_partial` | As C116; the symbols of the text are printable. |
| C118 | partial | `C118_locations_partial`, `C118_boundary_refuted`, `C118_list_refuted` | Refuted with a boundary inside a match (later locations are displaced) and where a member of a list is rewritten (the input shown is empty). Proved for printable texts and transitions that copy what they read as members of lists. |
| C119 | proved | `C119_marked`, `C119_deleted`, `C119_extracted`, `C119_plain` |  |
| C120 | partial | `C120_optional_replacement_partial`, `C120_contexts_refuted` | Refuted: if each of several parallel rules has two or more contexts, all the contexts are ignored. Proved for one rule, for rules without contexts and for parallel rules one of which has a single context, insertions included; membership in the languages of a rule is decided, as it is for transducers. |
| C121 | partial | `C121_obligatory_replacement_partial`, `C121_obligatory_sound_partial`, `C121_output_contexts_refuted` | Refuted with contexts on the output: a result is left out if another choice makes more changes possible. Proved for \|\| contexts; with other contexts it is proved that nothing else results. Otherwise as C120. |
| C122 | partial | `C122_leftmost_longest_partial`, `C122_deletion_refuted` | Refuted for rules that delete: what is deleted may come before the boundary, so that a longer match is not seen. Proved for rules that neither insert nor delete, with \|\| contexts; otherwise as C120. |
| C123 | partial | `C123_leftmost_shortest_partial` | Proved for rules that neither insert nor delete, with \|\| contexts; otherwise as C120. |
| C124 | partial | `C124_rightmost_longest_partial`, `C124_longest_refuted` | Refuted: a \| b a ->@ x relates b a to b x too. Proved for rules that neither insert nor delete that the right results are among those given; otherwise as C120. |
| C125 | partial | `C125_rightmost_shortest_partial` | Proved for rules that neither insert nor delete, with \|\| contexts; otherwise as C120. |
| C126 | partial | `C126_directed_result_partial`, `C126_two_results_refuted` | Refuted for the longest match from right to left. Proved for the other three; every text has a result in all four. Rules neither insert nor delete and have \|\| contexts; otherwise as C120. |
| C127 | partial | `C127_to_the_left_partial` | Under the conditions of C120 and, for obligatory rules, C121. |
| C128 | partial | `C128_restriction_partial`, `C128_any_symbol_refuted` | Refuted where a symbol of the center stands for any symbol: it stands for the boundary as well. Proved for centers of symbols of the user, not empty. |
| C129 | proved | `C129_before_after` |  |
| C130 | partial | `C130_lexicon_filtered_partial`, `C130_no_rules_refuted`, `C130_open_lexicon_refuted` | Refuted for lexicons with identity transitions: symbols that a rule forbids come back, because the alphabet of the result is pruned while identity has another name. Refuted for an empty list of rules, whose first element is read. Proved for lexicons without unknown and identity; the conditions on the rules are those of C40. |
| C131 | partial | `C131_inverse_filtered_partial`, `C131_one_rule_refuted` | Refuted for one rule: the result is not turned back. Proved for two or more rules, under the conditions of C130; identity is on both sides of a transition of a rule, rules insert no boundaries, and a rule that has the boundary in its alphabet has it on a transition. |
| C132 | partial | `C132_cross_product_partial`, `C132_refused_partial`, `C132_flags_refuted` | Refuted for words with flag diacritics: they are lost, as unknown does not stand for them (C132_flags_refuted). Proved for all other words, for transducers whose alphabets have no symbols of the form @_..._@ besides the reserved ones; of several weights the lightest is kept. |
| C133 | partial | `C133_renamed`, `C133_harmonized`, `C133_apart`, `C133_relation_partial`, `C133_alphabet_refuted` | Paths and the separation of the flags are proved in full. The relation, with identity and unknown standing for symbols outside the alphabet, is kept only if each ordinary symbol of the alphabet is on a transition; otherwise it is refuted (C133_alphabet_refuted): the new transducer has the symbols of its transitions only. |
| C134 | proved | `C134_missing_flags`, `C134_harmonized` |  |
| C135 | partial | `C135_illegal_partial`, `C135_no_value_refuted` | Refuted for flags without a value: they are never recognized by their suffix and all results with them are lost (C135_no_value_refuted). Proved if each flag of the alphabet is on a transition and has just one of the two suffixes before a dot, for results of ordinary symbols and flags, with no symbols that are flags between dollar signs. |
| C136 | partial | `C136_two_sided`, `C136_alphabet_refuted` | Paths, weights and text are proved in full; the relation of a transducer with two-sided flags is not kept if a symbol is only in the alphabet (C136_alphabet_refuted). |
| C137 | partial | `C137_harmonized_partial` | For flags with values without dots, alphabets whose ordinary symbols are on transitions, and no symbols that are flags between dollar signs; see the refutations of C133 and C135. |
| C138 | partial | `C138_reweight`, `C138_addition_partial`, `C138_negative_refuted` | Proved in full for the bounds in force; the default lower bound is 0 and not the least weight, so negative weights are left alone (C138_negative_refuted). |
| C139 | partial | `C139_file_partial`, `C139_mixed_refuted` | If the lines all add or all multiply. Refuted otherwise: the addition of a line stays in force for later lines that multiply (C139_mixed_refuted). |
| C140 | partial | `C140_killing`, `C140_file`, `C140_word_refuted` | Paths in full. Words with the symbol may stay where identity or unknown stands for it afterwards (C140_word_refuted). |
| C141 | partial | `C141_preprocess_partial`, `C141_initial_refuted` | If the initial state is not final; otherwise its finality is lost (C141_initial_refuted). |
| C142 | partial | `C142_no_partial`, `C142_yes_partial`, `C142_unreadable`, `C142_ends_partial`, `C142_endless_refuted`, `C142_flags_refuted`, `C142_unknown_refuted` | A no is right for tokens in the alphabet; a yes is right if also there are no flags; without loops the answer comes. Refuted: loops behind unknown characters are missed; with flags the answer may be yes without a loop; with loops the search may go ever deeper (a read token forgets the states on the way). |
| C143 | partial | `C143_pair_string_partial` | For multicharacter symbols none of which begins with another one. Refuted otherwise: a backslash then fails to protect a character; and a backslash before the epsilon text protects it inside pairs only. |
| C144 | partial | `C144_string_partial`, `C144_string_pair_partial` | For spellings without needless backslashes, under the conditions of C143. Refuted otherwise: the program ends with an exception. |
| C145 | partial | `C145_pair_string_partial`, `C145_string_partial`, `C145_string_pair_partial` | Without backslashes inside longer symbols. Refuted otherwise: they are lost; and the name of the tab stands for three spaces. |
| C146 | partial | `C146_lines_partial` | For lines spelled as in C143 to C145. |
| C147 | proved | `C147_refused`, `C147_round_trip` | For transducers whose alphabet has the symbols of the transitions and the special symbols. |
| C148 | partial | `C148_guessed_partial`, `C148_endings_partial` | The paths are exactly as stated, but the copied symbols may be the unknown symbol, which stands for two different symbols: C148_copied_refuted. |
| C149 | partial | `C149_guessed_partial` | The paths are exactly as stated, with the identity symbol for the copied symbols; it does not stand for symbols of the alphabet: C149_letters_refuted. |
| C150 | proved | `C150_walk` |  |
| C151 | partial | `C151_pair_test_partial`, `C151_negative_partial` | For deterministic rules with the same symbols: just the first transition with a label is followed (C151_deterministic_refuted), and the symbols of the first rule decide what identity stands for in all of them (C151_symbols_refuted). |
| C152 | proved | `C152_head` |  |
| C153 | proved | `C153_tail` | Without -n nothing is left out, although the usage text says that the first is: C153_default_refuted. |
| C154 | proved | `C154_pairs`, `C154_compare` | The operation is a parameter that does not change its second operand, as is the case without -F. |
| C155 | partial | `C155_compose_partial`, `C155_first` | False if the first archive has one transducer and the second several: the first operand is replaced by each result (C155_first, C155_first_refuted). |
| C156 | partial | `C156_generation_partial` | A character unknown to the transducer before a plus sign is looked up out of bounds (C156_plus_refuted); escaped less-than signs in unknown words (C156_escaped_refuted), escaped characters after a mark (C156_marked_refuted) and marks within words (C156_mark_refuted) are treated otherwise. |
| C157 | proved | `C157_counts`, `C157_kinds`, `C157_symbols`, `C157_extremes`, `C157_pairs` |  |
| C158 | partial | `C158_cyclic_partial`, `C158_cyclic_refuted` | Only loops of one transition are seen (C158_cyclic_partial); a loop through two states is reported as not cyclic (C158_cyclic_refuted). |
| C159 | partial | `C159_expand_partial`, `C159_flags_refuted` | For transducers without internal symbols, and for symbols that are ordinary or given (C159_expand_partial); a string with a flag diacritic is lost (C159_flags_refuted). |
| C160 | proved | `C160_file`, `C160_refused` |  |
| C161 | partial | `C161_archive_partial`, `C161_archive_refuted` | True of -f and -t, and of the first transducer with a file (C161_archive_partial); with a file, the second transducer of an archive is not expanded, since the file has been read to its end (C161_archive_refuted). |
| C162 | partial | `C162_repeat_partial`, `C162_order`, `C162_infinity_refuted`, `C162_negative_refuted` | True for numbers up to INT_MAX (C162_repeat_partial, C162_order), but --from=N --to=inf is refused for any N but 0 (C162_infinity_refuted), and --to=-1 is accepted and gives the empty transducer (C162_negative_refuted). |
| C163 | partial | `C163_listed_partial`, `C163_all`, `C163_exit`, `C163_superset_refuted` | The lists and the exit code are right (C163_listed_partial, C163_all, C163_exit), but the sentence that the first is a superset of the second is printed just when it is a subset (C163_superset_refuted). |
| C164 | partial | `C164_dump_partial`, `C164_twice_refuted` | The symbols of the alphabet and those of the transitions are printed one after the other (C164_dump_partial), so a symbol in both is printed twice (C164_twice_refuted). |
| C165 | partial | `C165_pair_partial`, `C165_exists`, `C165_hang_refuted` | True (C165_pair_partial, C165_exists) except that a label that begins with an escaped colon makes the tool loop forever (C165_hang_refuted). |
| C166 | partial | `C166_insert_partial`, `C166_second_refuted`, `C166_single_refuted` | True of the first transducer and of pairs (C166_insert_partial); the other transducers of an archive are left as they are (C166_second_refuted), and a single symbol makes the tool follow a null pointer (C166_single_refuted). |
| C167 | partial | `C167_versions_partial`, `C167_max_refuted`, `C167_large_refuted`, `C167_empty_refuted` | True of --atleast-version and --exact-version (C167_versions_partial) when minor and patch number are below 10000 (C167_large_refuted). --max-version tests the wrong way round (C167_max_refuted), and the empty text is taken as version 0 (C167_empty_refuted). |
| C168 | partial | `C168_features_partial`, `C168_inverted_refuted` | True of SFST, ICU and unknown features (C168_features_partial); for foma, XFSM and OpenFst the tool succeeds just when the library is missing (C168_inverted_refuted). |
| C169 | partial | `C169_one_partial`, `C169_two_partial`, `C169_cut_refuted` | True (C169_one_partial, C169_two_partial) except that the operation fails when the cut falls inside a character (C169_cut_refuted). |
| C170 | partial | `C170_name_partial`, `C170_cut_refuted` | True (C170_name_partial) when the cut does not fall inside a character; then the tool fails (C170_cut_refuted). |
| C171 | partial | `C171_edit_partial`, `C171_no_equals`, `C171_encoding`, `C171_missing_refuted` | True (C171_edit_partial, C171_no_equals, C171_encoding) under the same condition; printing a property that a transducer does not have is undefined (C171_missing_refuted). |
| C172 | proved | `C172_split`, `C172_room` |  |
| C173 | partial | `C173_multiply_partial`, `C173_ends`, `C173_endless_refuted`, `C173_negative_refuted`, `C173_trailing` | True below 2^32 copies (C173_multiply_partial, C173_ends, C173_trailing). From there on the counter wraps around and the tool never ends (C173_endless_refuted), also for negative numbers (C173_negative_refuted). |
| C174 | proved | `C174_one`, `C174_two`, `C174_string`, `C174_never_fails` |  |
| C175 | partial | `C175_table_partial`, `C175_symbols_refuted`, `C175_one_state_refuted`, `C175_lost_refuted` | True of at least two and at most 10^9 states when no symbol is longer than the numbers are wide (C175_table_partial). Longer symbols are cut (C175_symbols_refuted), with one state no symbol is printed (C175_one_state_refuted), and of several transitions with one label only the last is printed (C175_lost_refuted). |
| C176 | proved | `C176_whole_characters`, `C176_label`, `C176_empty_refuted` | C176_whole_characters, and C176_label for the label of a single transition. The empty text makes the trimming function read before the text (C176_empty_refuted). |
| C177 | partial | `C177_edges_partial`, `C177_long_refuted`, `C177_quotes_refuted` | True when the texts are not empty, valid UTF-8 and without quotes, and those of one edge have at most 63 bytes together (C177_edges_partial). Longer labels lose transitions (C177_long_refuted), and the quotes of earlier transitions get a second backslash, so that the label ends early (C177_quotes_refuted). |
