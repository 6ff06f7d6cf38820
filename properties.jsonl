{"id": "C01", "title": "Flag diacritic recognition is exactly the documented grammar", "statement": "FdOperation::is_diacritic(s) is true exactly when s has the form @O.F@ with O in {R,D,C} or @O.F.V@ with O in {P,N,R,D,C,U}, and for such strings get_operator, get_feature and get_value return O, F and V (V empty when absent).", "quantifier": "every byte string s", "why_tests_cant": "strings of every length and content; the reader of the three accessors uses positions of dots and the last byte, so any finite sample misses degenerate forms", "anchors": ["libhfst/src/HfstFlagDiacritics.cc: FdOperation::is_diacritic, get_operator, get_feature, get_value, has_value"]}
{"id": "C02", "title": "Numeric flag state machine follows flag-diacritic semantics", "statement": "After defining any set of flag diacritics in a table and applying any sequence of them to a fresh FdState, each apply_operation succeeds exactly when the flag-diacritic calculus (positive set, negative set, require, disallow, clear, unify over feature -> unset | positive v | negative v) allows the operation in the state reached so far.", "quantifier": "every list of flag symbols with non-empty values used in definitions and every sequence of operations", "why_tests_cant": "histories are unbounded; values are encoded as signed shorts with negation for negative setting, so correctness depends on an encoding invariant over the whole history", "anchors": ["libhfst/src/HfstFlagDiacritics.h: FdTable::define_diacritic, FdState::apply_operation"]}
{"id": "C03", "title": "String-level flag validity check", "statement": "FlagDiacriticTable::is_valid_string(v) returns true exactly when the subsequence of flag diacritics in v, in order, is accepted by the flag-diacritic calculus from the empty state, whatever was checked before with the same table.", "quantifier": "every vector of symbols and every earlier use of the same table", "why_tests_cant": "unbounded symbol vectors and histories of reuse of a mutable table", "anchors": ["libhfst/src/HfstLookupFlagDiacritics.cc: FlagDiacriticTable::insert_symbol, is_valid_string, unify, require, disallow"]}
{"id": "C04", "title": "Both flag implementations agree", "statement": "The flag machine used by optimized lookup (FdState) and the one used by lookup on basic transducers (FlagDiacriticTable) accept exactly the same sequences of flag diacritics.", "quantifier": "every sequence of flag symbols", "why_tests_cant": "equivalence of two programs over unbounded histories", "anchors": ["libhfst/src/HfstFlagDiacritics.h: FdState", "libhfst/src/HfstLookupFlagDiacritics.cc: FlagDiacriticTable"]}
{"id": "C05", "title": "FdTable::is_valid_string decides flag validity", "statement": "FdTable::is_valid_string(symbols) returns false exactly for the sequences whose flag diacritics are not accepted by the flag calculus.", "quantifier": "every symbol sequence", "why_tests_cant": "a universal claim over sequences", "anchors": ["libhfst/src/HfstFlagDiacritics.h: FdTable::is_valid_string"]}
{"id": "C06", "title": "Symbol numbering is a bijection over any history", "statement": "After any history of get_number requests, get_symbol(get_number(s)) = s for every symbol, two different symbols never share a number, a symbol's number never changes later, numbers are dense, and epsilon, unknown and identity are 0, 1, 2; get_symbol throws exactly for numbers never handed out.", "quantifier": "every sequence of calls", "why_tests_cant": "global mutable tables; the claim is an invariant over all histories", "anchors": ["libhfst/src/implementations/HfstTropicalTransducerTransitionData.cc: get_number, get_symbol, symbol2number_map, number2symbol_map"]}
{"id": "C07", "title": "Tokenization loses nothing", "statement": "For a tokenizer with any set of multi-character symbols and no skip symbols, if tokenizing a string succeeds the concatenation of the tokens is the input string and no token is empty; with skip symbols, the tokens are those of the unskipped tokenization minus exactly the skipped ones.", "quantifier": "every tokenizer configuration and every input string", "why_tests_cant": "unbounded input and configuration", "anchors": ["libhfst/src/HfstTokenizer.cc: MultiCharSymbolTrie, HfstTokenizer::tokenize_one_level, get_next_symbol_size"]}
{"id": "C08", "title": "Tokenization is leftmost-longest", "statement": "Every token produced is the longest registered multi-character symbol that is a prefix of the remaining input, or, when none matches, the single UTF-8 character at that position.", "quantifier": "every set of registered symbols, in any registration order, and every input", "why_tests_cant": "the trie is built by a history of insertions; longest match must hold for every combination", "anchors": ["libhfst/src/HfstTokenizer.cc: MultiCharSymbolTrie::add, find, HfstTokenizer::get_next_symbol_size"]}
{"id": "C09", "title": "Pair tokenization keeps both sides", "statement": "Tokenizing a pair of strings gives a pair vector as long as the longer tokenization whose first projection is the input tokenization padded with epsilons at the end only, and likewise for the second.", "quantifier": "every two strings", "why_tests_cant": "unbounded lengths and all relative lengths", "anchors": ["libhfst/src/HfstTokenizer.cc: HfstTokenizer::tokenize(const std::string&, const std::string&)"]}
{"id": "C10", "title": "Optimized-lookup input encoder is longest-match over any symbol history", "statement": "After any sequence of symbol registrations the encoder maps the input to the number of the longest registered symbol that prefixes it (the latest registration when a symbol is registered twice), consuming exactly its bytes, or reports no symbol; the ASCII shortcut table never changes an answer.", "quantifier": "every registration sequence and every input", "why_tests_cant": "a cache (ASCII table) shadowing a trie is only right by an invariant over all registration orders", "anchors": ["libhfst/src/implementations/optimized-lookup/transducer.cc: OlLetterTrie::add_string, find_key, Encoder::read_input_symbol, find_key"]}
{"id": "C11", "title": "replace_all is leftmost non-overlapping replacement", "statement": "replace_all(h, n, r) with non-empty n returns h with the leftmost non-overlapping occurrences of n replaced by r, never rescans replaced text, and terminates; in particular it is the identity when n does not occur.", "quantifier": "all strings h, n, r with n non-empty", "why_tests_cant": "a search loop with a moving cursor over arbitrary strings", "anchors": ["libhfst/src/string-utils.cc: replace_all"]}
{"id": "C12", "title": "AT&T symbol escaping round-trips", "statement": "A symbol written in AT&T format and read back is the same symbol, unless it contains one of the escape sequences themselves.", "quantifier": "every symbol", "why_tests_cant": "arbitrary byte strings, interaction of successive replacements", "anchors": ["libhfst/src/implementations/HfstBasicTransducer.cc: HfstBasicTransducer::write_in_att_format, read_in_att_format, add_att_line"]}
{"id": "C13", "title": "Prolog symbol quoting round-trips", "statement": "A symbol written in prolog format and read back is the same symbol; only epsilon, unknown and identity receive special notation.", "quantifier": "every symbol", "why_tests_cant": "arbitrary byte strings with quotes and percent signs", "anchors": ["libhfst/src/implementations/HfstBasicTransducer.cc: prologize_symbol, deprologize_symbol"]}
{"id": "C14", "title": "Basic transducer stays well formed under any history", "statement": "After any sequence of public mutations, every transition's target is an existing state, every symbol on a transition is in the alphabet, every final state exists and epsilon, unknown and identity are in the alphabet.", "quantifier": "every sequence of API calls with any arguments", "why_tests_cant": "an invariant over all call histories", "anchors": ["libhfst/src/implementations/HfstBasicTransducer.cc: add_state, add_transition, remove_transition, set_final_weight, remove_final_weight, sort_arcs, disjunct, substitute, insert_freely, complete"]}
{"id": "C15", "title": "Transition and finality updates have exactly the documented effect", "statement": "add_transition adds exactly that arc; remove_transition removes exactly the arcs with that source, target, input and output; set_final_weight/remove_final_weight change exactly one state; get_final_weight throws exactly when the state is missing or non-final.", "quantifier": "every transducer and every argument", "why_tests_cant": "frame conditions over all states and arcs", "anchors": ["libhfst/src/implementations/HfstBasicTransducer.cc: add_transition, remove_transition, set_final_weight, remove_final_weight, get_final_weight, is_final_state"]}
{"id": "C16", "title": "sort_arcs sorts by symbols and keeps the arcs", "statement": "sort_arcs leaves every state with the same multiset of arcs, ordered by input symbol then output symbol as documented.", "quantifier": "every transducer", "why_tests_cant": "all arc lists", "anchors": ["libhfst/src/implementations/HfstBasicTransducer.cc: HfstBasicTransducer::sort_arcs", "libhfst/src/implementations/HfstBasicTransition.cc: operator<"]}
{"id": "C17", "title": "Trie disjunction is weighted union", "statement": "After adding any sequence of (path, weight) entries with disjunct to an empty transducer, a path is accepted exactly if it was added, once, and its weight is the smallest weight it was added with.", "quantifier": "every sequence of paths and weights", "why_tests_cant": "an accumulating data structure, all histories", "anchors": ["libhfst/src/implementations/HfstBasicTransducer.cc: HfstBasicTransducer::disjunct"]}
{"id": "C18", "title": "complete() makes an automaton total without changing its language", "statement": "After complete(), every state has for every ordinary alphabet symbol a transition, and the set of accepted weighted paths is unchanged; a transducer that is not an automaton is rejected.", "quantifier": "every transducer", "why_tests_cant": "all graphs and alphabets", "anchors": ["libhfst/src/implementations/HfstBasicTransducer.cc: HfstBasicTransducer::complete"]}
{"id": "C19", "title": "Symbol substitution maps the language symbol by symbol", "statement": "substitute(old, new, input_side, output_side) maps every accepted path by replacing old by new on the requested sides and keeps weights; nothing else is accepted.", "quantifier": "every transducer, symbols and side flags", "why_tests_cant": "all graphs and all paths", "anchors": ["libhfst/src/implementations/HfstBasicTransducer.cc: substitute(const std::string&, const std::string&, bool, bool)"]}
{"id": "C20", "title": "Multiple substitutions are simultaneous", "statement": "substitute with a map of symbols (or symbol pairs) applies all replacements to the original symbols simultaneously: chains and swaps do not cascade.", "quantifier": "every substitution map and transducer", "why_tests_cant": "all maps including cycles", "anchors": ["libhfst/src/implementations/HfstBasicTransducer.cc: substitute(const HfstSymbolSubstitutions&), substitute(const HfstSymbolPairSubstitutions&), substitute_"]}
{"id": "C21", "title": "Pair-to-pair-set substitution", "statement": "substitute(pair, set) replaces each occurrence of the pair on a path by any member of the set (by nothing if the set is empty, i.e. the paths using it disappear) and keeps all other paths and weights.", "quantifier": "every pair, set and transducer", "why_tests_cant": "all graphs, including several matching arcs in one state", "anchors": ["libhfst/src/implementations/HfstBasicTransducer.cc: substitute(const StringPair&, const StringPairSet&), remove_transitions"]}
{"id": "C22", "title": "Pair-to-transducer substitution", "statement": "substitute(pair, transducer) accepts exactly the paths obtained by replacing each occurrence of the pair by a path of the inserted transducer (epsilon-padded), with weights added.", "quantifier": "every pair and both transducers", "why_tests_cant": "nested graph surgery over arbitrary graphs", "anchors": ["libhfst/src/implementations/HfstBasicTransducer.cc: substitute(const StringPair&, const HfstBasicTransducer&), add_substitution"]}
{"id": "C23", "title": "insert_freely", "statement": "insert_freely(pair, w) accepts exactly the original paths with any number of copies of the pair inserted anywhere, each adding weight w.", "quantifier": "every transducer and pair", "why_tests_cant": "unbounded insertions", "anchors": ["libhfst/src/implementations/HfstBasicTransducer.cc: insert_freely"]}
{"id": "C24", "title": "Graph intersection", "statement": "HfstBasicTransducer::intersect(g1, g2) accepts exactly the paths accepted by both, with the sum of the weights.", "quantifier": "every two transducers", "why_tests_cant": "product construction with sorted merge; all pairs of graphs", "anchors": ["libhfst/src/implementations/HfstBasicTransducer.cc: HfstBasicTransducer::intersect, find_matches, handle_match"]}
{"id": "C25", "title": "Harmonization preserves meaning", "statement": "Expanding unknown and identity symbols against another transducer's alphabet leaves the relation denoted by each transducer unchanged, where unknown and identity range over symbols outside the transducer's own alphabet.", "quantifier": "every two transducers and every pair of strings", "why_tests_cant": "denotation over an infinite symbol universe", "anchors": ["libhfst/src/HarmonizeUnknownAndIdentitySymbols.cc: HarmonizeUnknownAndIdentitySymbols"]}
{"id": "C26", "title": "Negative epsilon cycle detection is exact", "statement": "has_negative_epsilon_cycles() is true exactly when some cycle of epsilon:epsilon transitions has negative total weight.", "quantifier": "every transducer", "why_tests_cant": "all cycles of all graphs", "anchors": ["libhfst/src/implementations/HfstBasicTransducer.cc: has_negative_epsilon_cycles"]}
{"id": "C27", "title": "Infinite ambiguity detection is exact", "statement": "is_infinitely_ambiguous() is true exactly when the transducer has a cycle of transitions whose input side is epsilon or a flag diacritic.", "quantifier": "every transducer", "why_tests_cant": "graph search with visited marks; all graphs", "anchors": ["libhfst/src/implementations/HfstBasicTransducer.cc: is_infinitely_ambiguous"]}
{"id": "C28", "title": "Lookup ambiguity detection is exact for a given input", "statement": "is_lookup_infinitely_ambiguous(s) (ignoring flags) is true exactly when some prefix of s can be consumed from the initial state into a state on an input-epsilon cycle.", "quantifier": "every transducer and every input", "why_tests_cant": "graph search over all graphs and inputs", "anchors": ["libhfst/src/implementations/HfstBasicTransducer.cc: is_lookup_infinitely_ambiguous"]}
{"id": "C29", "title": "Longest path size", "statement": "longest_path_size() of an acyclic transducer is the length of a longest accepted path, and -1 when there is none.", "quantifier": "every acyclic transducer", "why_tests_cant": "all graphs", "anchors": ["libhfst/src/implementations/HfstBasicTransducer.cc: longest_path_size, topsort", "libhfst/src/implementations/HfstBasicTransducer.h: TopologicalSort"]}
{"id": "C30", "title": "Basic lookup is sound and complete", "statement": "Every result of lookup(s) is an accepted path whose input side matches s, with its weight; and if no input-epsilon cycle is met, every such path is returned.", "quantifier": "every transducer, input and limits", "why_tests_cant": "all paths of all graphs", "anchors": ["libhfst/src/implementations/HfstBasicTransducer.cc: HfstBasicTransducer::lookup, is_possible_transition, add_to_results"]}
{"id": "C31", "title": "Epsilon handler bounds the number of epsilon cycles", "statement": "With a limit of n cycles a lookup follows at most n epsilon cycles between two consumed symbols, and acyclic epsilon paths are never cut.", "quantifier": "every sequence of visited states", "why_tests_cant": "all histories of a mutable path record", "anchors": ["libhfst/src/HfstEpsilonHandler.cc: push_back, can_continue"]}
{"id": "C32", "title": "Optimized-lookup header round-trips", "statement": "Reading a written optimized-lookup header returns the same header; truncated or ill-typed bytes are rejected and reading consumes exactly the header.", "quantifier": "every header and every continuation of the stream", "why_tests_cant": "all field values", "anchors": ["libhfst/src/implementations/optimized-lookup/transducer.h: TransducerHeader::write, TransducerHeader(std::istream&), read_bool_property"]}
{"id": "C33", "title": "Optimized-lookup alphabet round-trips", "statement": "Reading a written alphabet returns the same symbols in order (symbols without NUL bytes), the same flag table and the same special symbol numbers.", "quantifier": "every symbol table", "why_tests_cant": "all symbol lists", "anchors": ["libhfst/src/implementations/optimized-lookup/transducer.h: TransducerAlphabet::write", "libhfst/src/implementations/optimized-lookup/transducer.cc: TransducerAlphabet(std::istream&,...)"]}
{"id": "C34", "title": "Optimized-lookup transducer round-trips", "statement": "Writing an optimized-lookup transducer and loading it back gives the same header, alphabet and tables.", "quantifier": "every transducer", "why_tests_cant": "all table contents and sizes", "anchors": ["libhfst/src/implementations/optimized-lookup/transducer.cc: Transducer::write, load_tables", "libhfst/src/implementations/optimized-lookup/transducer.h: TransitionIndex::write, Transition::write"]}
{"id": "C35", "title": "Conversion to optimized lookup preserves every arc", "statement": "In the tables built from a basic transducer, the transitions found from the table index of a state under each input symbol are exactly the arcs of that state with that symbol, with the same output, weight and target; finality and final weights are the same; table entries of different states never clash.", "quantifier": "every basic transducer", "why_tests_cant": "a packing algorithm over all graphs and alphabets", "anchors": ["libhfst/src/implementations/ConvertOlTransducer.cc: get_states_and_symbols, hfst_basic_transducer_to_hfst_ol", "libhfst/src/implementations/optimized-lookup/convert.h: StatePlaceholder, IndexPlaceholders", "libhfst/src/implementations/optimized-lookup/convert.cc: write_transitions_from_state_placeholders, add_transitions_with"]}
{"id": "C36", "title": "Optimized lookup is sound and complete", "statement": "lookup_fd on a converted transducer returns exactly the accepted, flag-valid paths whose input side is the tokenized input, with their weights, up to the recursion limit.", "quantifier": "every transducer and every input", "why_tests_cant": "search over all paths", "anchors": ["libhfst/src/implementations/optimized-lookup/transducer.cc: Transducer::get_analyses, try_epsilon_transitions, find_transitions, note_analysis"]}
{"id": "C37", "title": "Optimized lookup never reads outside its tables", "statement": "Lookup of any input string in any converted transducer only reads entries inside the index and transition tables.", "quantifier": "every transducer and every input", "why_tests_cant": "memory safety for all inputs", "anchors": ["libhfst/src/implementations/optimized-lookup/transducer.cc: Transducer::find_index, get_analyses", "libhfst/src/implementations/ConvertOlTransducer.cc: padding of windex_table"]}
{"id": "C38", "title": "Transition sets used by compose-intersect are ordered sets", "statement": "After any sequence of insertions a SpaceSavingSet holds each inserted element exactly once, in comparator order, and has_element answers membership.", "quantifier": "every insertion sequence", "why_tests_cant": "all histories", "anchors": ["libhfst/src/implementations/compose_intersect/ComposeIntersectUtilities.h: SpaceSavingSet"]}
{"id": "C39", "title": "Lazy rule pair computes the intersection of two rules", "statement": "A ComposeIntersectRulePair behaves, for any order of transition queries, as the intersection of its two rules with summed weights, when the rules are deterministic.", "quantifier": "every pair of rules and query history", "why_tests_cant": "lazily built, memoised state space; all histories", "anchors": ["libhfst/src/implementations/compose_intersect/ComposeIntersectRulePair.cc: get_transitions, compute_transition_set, get_state"]}
{"id": "C40", "title": "Compose-intersect equals composition with the rules", "statement": "compose_with_rules returns a transducer whose paths are exactly the synchronised compositions of lexicon paths (output side) with rule paths (input side), weights added.", "quantifier": "every lexicon and rule", "why_tests_cant": "agenda construction over all graphs", "anchors": ["libhfst/src/implementations/compose_intersect/ComposeIntersectLexicon.cc: compose_with_rules, compute_state, compose"]}
{"id": "C41", "title": "Speller accepts exactly the lexicon's words", "statement": "Speller::check(word) returns true exactly when the tokenized word labels an accepting, flag-valid path of the lexicon.", "quantifier": "every lexicon and word", "why_tests_cant": "breadth-first search over all paths", "anchors": ["libhfst/src/implementations/optimized-lookup/ospell.cc: Speller::check, lexicon_epsilons, lexicon_consume"]}
{"id": "C42", "title": "HFST stream header round-trips", "statement": "A header written by HfstOutputStream (type and properties) is read back by HfstInputStream as the same type and properties, consuming exactly the bytes written; and each transducer in a stream gets only its own properties.", "quantifier": "every property map and every sequence of transducers in a stream", "why_tests_cant": "all maps and all stream histories", "anchors": ["libhfst/src/HfstOutputStream.cc: operator<<, append_hfst_header_data", "libhfst/src/HfstInputStream.cc: read_hfst_header, get_header_data, process_header_data, read_transducer"]}
{"id": "C43", "title": "lexc percent escaping round-trips", "statement": "stripPercents(addPercents(s)) = s.", "quantifier": "every string", "why_tests_cant": "arbitrary strings; interaction of successive replacements through a marker", "anchors": ["libhfst/src/parsers/lexc-utils.cc: stripPercents, addPercents"]}
{"id": "C44", "title": "lexc strip_percents never overruns its buffer", "statement": "strip_percents writes at most as many bytes as it allocated and its result is the documented unescaping.", "quantifier": "every input string and mode", "why_tests_cant": "worst-case output size over all inputs", "anchors": ["libhfst/src/parsers/lexc-utils.cc: strip_percents"]}
{"id": "C45", "title": "strstrip trims whitespace and stays inside its buffer", "statement": "strstrip(s) returns s without leading and trailing whitespace and only accesses its own buffer.", "quantifier": "every string", "why_tests_cant": "memory accesses for all inputs", "anchors": ["libhfst/src/parsers/lexc-utils.cc: strstrip", "libhfst/src/parsers/xfst-utils.cc: strstrip"]}
{"id": "C46", "title": "lexc alignment is faithful and of minimal cost", "statement": "find_med_alingment(s1, s2) returns two equally long vectors which after deleting the padding epsilons are s1 and s2, never pairs epsilon with epsilon, and has minimal edit cost among all such alignments.", "quantifier": "every two symbol vectors", "why_tests_cant": "optimality over all alignments", "anchors": ["libhfst/src/parsers/lexc-utils.cc: find_med_alingment"]}
{"id": "C47", "title": "UTF-8 integer conversion round-trips", "statement": "utf8toint(int2utf8(n)) = n for every code below 2097152 and int2utf8 rejects larger ones.", "quantifier": "every code point", "why_tests_cant": "the whole integer range", "anchors": ["libhfst/src/parsers/SfstUtf8.cc: int2utf8, utf8toint"]}
{"id": "C48", "title": "Swapping state numbers is an isomorphism", "statement": "Exchanging the numbers of two states leaves the weighted language from the renamed initial state unchanged.", "quantifier": "every transducer and every two states", "why_tests_cant": "all graphs", "anchors": ["libhfst/src/implementations/HfstBasicTransducer.cc: HfstBasicTransducer::swap_state_numbers"]}
{"id": "C49", "title": "Alphabet pruning removes exactly unused symbols", "statement": "prune_alphabet() removes from the alphabet exactly the symbols on no transition (keeping the special symbols) and changes no arc.", "quantifier": "every transducer", "why_tests_cant": "all graphs and alphabets", "anchors": ["libhfst/src/implementations/HfstBasicTransducer.cc: prune_alphabet, symbols_used, get_symbols_used"]}
{"id": "C50", "title": "Pre-release header sizes are counted correctly", "statement": "For every pre-release (HFST3) header the reported number of header bytes is the number of bytes actually consumed.", "quantifier": "every stream starting with such a header", "why_tests_cant": "all type fields", "anchors": ["libhfst/src/HfstInputStream.cc: get_fst_type_old, read_library_header_old"]}
{"id": "C51", "title": "Space-separated tokenization", "statement": "tokenize_space_separated() returns exactly the maximal runs of non-space bytes of the input, in order, each paired with itself.", "quantifier": "every valid UTF-8 input string", "why_tests_cant": "all strings, including leading, trailing and repeated spaces", "anchors": ["libhfst/src/HfstTokenizer.cc: HfstTokenizer::tokenize_space_separated"]}
{"id": "C52", "title": "Flag-aligned pair tokenization", "statement": "tokenize_and_align_flag_diacritics() never pairs a flag diacritic with anything but itself, keeps the tokens of each side in order and adds only epsilons or flags to the other side.", "quantifier": "every tokenizer configuration and every pair of strings", "why_tests_cant": "all interleavings of flags and ordinary symbols on both sides", "anchors": ["libhfst/src/HfstTokenizer.cc: HfstTokenizer::tokenize_and_align_flag_diacritics"]}
{"id": "C53", "title": "lexc sublexicon name codes are injective and decodable", "statement": "joinerDecode(joinerEncode(s)) = s and regExpresionDecode(regExpresionEncode(s)) = s for every name, and the codes of the different kinds (joiner, regular expression, flag joiner left/right, xre definition) never collide.", "quantifier": "every sublexicon name", "why_tests_cant": "names are arbitrary byte strings", "anchors": ["libhfst/src/parsers/lexc-utils.cc: joinerEncode, joinerDecode, regExpresionEncode, regExpresionDecode, flagJoinerEncode, xreDefinitionEncode"]}
{"id": "C54", "title": "xre symbol escapes are reversible", "statement": "In regular expressions strip_percents(add_percents(s)) = s, strip_curly removes exactly the enclosing braces, and escaping enclosing angle brackets is undone by the bracket substitution and touches no other symbol.", "quantifier": "every symbol", "why_tests_cant": "arbitrary byte strings, including ones containing the escape characters", "anchors": ["libhfst/src/parsers/xre_utils.cc: strip_percents, add_percents, strip_curly, escape_enclosing_angle_brackets; libhfst/src/parsers/XfstCompiler"]}
{"id": "C55", "title": "Quoted literals are decoded inside their buffer", "statement": "parse_quoted returns a string without escapes unchanged, never produces more bytes than it read, and never reads behind the string.", "quantifier": "every quoted literal", "why_tests_cant": "all placements of escapes relative to the end of the literal", "anchors": ["libhfst/src/parsers/xre_utils.cc: parse_quoted"]}
{"id": "C56", "title": "Parser token positions", "statement": "After any sequence of tokens the recorded first and last line are the lines of the token's first and last byte, and the recorded columns are its columns.", "quantifier": "every sequence of tokens", "why_tests_cant": "all texts and all ways of cutting them into tokens", "anchors": ["libhfst/src/parsers/lexc-utils.cc: token_update_positions"]}
{"id": "C57", "title": "Constant part stripping", "statement": "strdup_nonconst_part(token, prefix, suffix) returns exactly the part between prefix and suffix (optionally trimmed) and accepts no other token.", "quantifier": "every token, prefix and suffix", "why_tests_cant": "all lengths including overlapping prefix and suffix", "anchors": ["libhfst/src/parsers/lexc-utils.cc: strdup_nonconst_part"]}
{"id": "C58", "title": "Zero marker replacement", "statement": "replace_zero(s) is s with @ZERO@ replaced by 0.", "quantifier": "every string", "why_tests_cant": "all numbers and positions of occurrences", "anchors": ["libhfst/src/parsers/lexc-utils.cc: replace_zero"]}
{"id": "C59", "title": "Purging flag diacritics rewrites exactly the purged pairs to epsilon", "statement": "flag_purge(feature) keeps every path and its weight, replacing each symbol pair that carries a flag diacritic of the feature (any flag if the feature is empty) on either side by epsilon:epsilon, and removes exactly those flags from the alphabet.", "quantifier": "every transducer and feature name", "why_tests_cant": "ranges over all transducers, cycles included, and all paths", "anchors": ["libhfst/src/implementations/HfstBasicTransducer.cc: flag_purge, purge_symbol"]}
{"id": "C60", "title": "insert_transducer splices a copy between two states", "statement": "After insert_transducer(s1, s2, h) the paths between the original states are the original ones plus those that, any number of times, jump from s1 to s2 reading epsilon, an accepted path of h (with its weight and final weight) and epsilon; final states are unchanged.", "quantifier": "every transducer, pair of states and inserted transducer", "why_tests_cant": "the inserted copy may be entered any number of times along a path; all paths matter", "anchors": ["libhfst/src/implementations/HfstBasicTransducer.cc: insert_transducer"]}
{"id": "C61", "title": "Path sizes list exactly the accepted lengths", "statement": "path_sizes() of an acyclic transducer lists exactly the lengths of its accepted paths, each once and in descending order.", "quantifier": "all acyclic transducers", "why_tests_cant": "the set of path lengths depends on the whole graph; tests sample a few graphs", "anchors": ["libhfst/src/implementations/HfstBasicTransducer.cc: path_sizes, topsort"]}
{"id": "C62", "title": "Lookup weight limit", "statement": "lookup(s) with a maximum weight returns exactly the results of the unlimited lookup whose weight does not exceed the maximum.", "quantifier": "all transducers, inputs and limits", "why_tests_cant": "pruning depends on the weights of every prefix of every path", "anchors": ["libhfst/src/implementations/HfstBasicTransducer.cc: HfstBasicTransducer::lookup, add_to_results"]}
{"id": "C63", "title": "Lookup number limit", "statement": "lookup(s) with a maximum number m returns at most m results, all of them results of the unlimited lookup, and all of those if fewer than m are returned.", "quantifier": "all transducers, inputs and limits", "why_tests_cant": "depends on the order in which an unbounded search tree is explored", "anchors": ["libhfst/src/implementations/HfstBasicTransducer.cc: HfstBasicTransducer::lookup"]}
{"id": "C64", "title": "Header flags can be set and cleared", "statement": "After setting a flag of an optimized-lookup header to a truth value, probing that flag gives that value, and every other flag and all counts are unchanged.", "quantifier": "all headers, flags and truth values", "why_tests_cant": "there are 2^9 combinations of flags and unbounded counts; tests try a few", "anchors": ["libhfst/src/implementations/optimized-lookup/transducer.h: TransducerHeader::set_flag, probe_flag"]}
{"id": "C65", "title": "Lookup gives the same results before and after conversion", "statement": "Looking up a text in a transducer and in its conversion to the optimized-lookup format gives the same weights and the same symbol pairs.", "quantifier": "all transducers, all texts, any history of earlier lookups", "why_tests_cant": "two independent search algorithms over unboundedly many paths; agreement on sample inputs does not exclude symbols that are classified differently", "anchors": ["libhfst/src/implementations/HfstBasicTransducer.cc: HfstBasicTransducer::lookup", "libhfst/src/implementations/optimized-lookup/transducer.cc: Transducer::lookup_fd_pairs"]}
{"id": "C66", "title": "Spelling corrections are exact and optimal", "statement": "Speller::correct(text) returns exactly the strings shown by joint runs of the error model over the text and of the lexicon over what the error model writes, each once and with the least total weight of such a run; it terminates and stays inside the tables when neither transducer has a cycle that reads nothing.", "quantifier": "every lexicon, error model and text", "why_tests_cant": "breadth-first search over all pairs of paths, with an optimum over all of them", "anchors": ["libhfst/src/implementations/optimized-lookup/ospell.cc: Speller::correct, lexicon_epsilons, mutator_epsilons, consume_input, stringify, build_alphabet_translator"]}
{"id": "C67", "title": "AT&T files round-trip", "statement": "Transducers written in AT&T format one after the other, separated by lines of two hyphens, are read back in order with the same transitions, final states and (if written) weights; reading one transducer stops right behind its separator; a line with the wrong number of fields is rejected with an exception.", "quantifier": "every list of transducers and every text", "why_tests_cant": "every combination of symbols, state numbers, weights and line lengths must survive printing, line splitting and scanning", "anchors": ["libhfst/src/implementations/HfstBasicTransducer.cc: write_in_att_format, add_att_line, read_in_att_format", "tools/src/hfst-fst2txt.cc: process_stream", "tools/src/hfst-txt2fst.cc: process_stream"]}
{"id": "C68", "title": "Numeric AT&T format lists every final state once", "statement": "write_in_att_format_number writes the same lines as write_in_att_format, with symbol numbers instead of symbols.", "quantifier": "every transducer", "why_tests_cant": "depends on the number of transitions of each final state", "anchors": ["libhfst/src/implementations/HfstBasicTransducer.cc: write_in_att_format_number"]}
{"id": "C69", "title": "extract_paths returns exactly the accepted paths within its limits", "statement": "extract_paths with a non-negative limit c on cycles, or on an acyclic transducer, terminates. Without a limit on the number of results it adds to the result set exactly the accepted paths (weight and symbol pairs) that return to no state more than c times. With a limit m the results are distinct such paths, at most m of them, and all of them if there are fewer than m. A cyclic transducer without any limit is refused.", "quantifier": "every transducer, cycle limit, number limit and previous result set", "why_tests_cant": "completeness of a depth-first search with per-path counters and early stopping over all graphs", "anchors": ["libhfst/src/implementations/TropicalWeightTransducer.cc: extract_paths", "libhfst/src/HfstTransducer.cc: extract_paths, ExtractStringsCb_"]}
{"id": "C70", "title": "extract_paths_fd returns exactly the paths allowed by flag diacritics", "statement": "extract_paths_fd returns what extract_paths returns, restricted to paths whose input-side flag diacritics are all allowed in order, and replaces flag diacritics by empty strings when asked to filter them.", "quantifier": "every transducer, limits and filter setting", "why_tests_cant": "flag state must be restored on every backtrack of the search, for every path", "anchors": ["libhfst/src/implementations/TropicalWeightTransducer.cc: extract_paths, get_flag_diacritics", "libhfst/src/HfstTransducer.cc: extract_paths_fd"]}
{"id": "C71", "title": "Conversion to optimized lookup and back keeps the transducer", "statement": "Converting a basic transducer to the optimized-lookup format and back terminates and gives a well-formed transducer with the same paths, the same weights (all 0 if the format was unweighted) and the same alphabet.", "quantifier": "every well-formed basic transducer and weight encoding", "why_tests_cant": "the packed tables must be decodable for every overlap of states in the index table and every mix of flags, epsilons and symbols", "anchors": ["libhfst/src/implementations/ConvertOlTransducer.cc: hfst_ol_to_hfst_basic_transducer", "libhfst/src/implementations/optimized-lookup/transducer.cc: get_transitions_from_state"]}
{"id": "C72", "title": "Conversion to a tropical transducer and back is the identity", "statement": "A basic transducer whose alphabet has the symbols of its transitions, converted to a tropical OpenFst transducer, has the same weighted paths and a symbol table with exactly the symbols of its alphabet; converted back, in the same or another process with any other symbol numbering, it has the same transitions in the same order, final weights and alphabet.", "quantifier": "every well-formed basic transducer and every two histories of symbol numberings", "why_tests_cant": "labels are process-wide numbers that depend on everything numbered before; the two conversions may run under unrelated numberings", "anchors": ["libhfst/src/implementations/ConvertTropicalWeightTransducer.cc: hfst_basic_transducer_to_tropical_ofst, tropical_ofst_to_hfst_basic_transducer", "libhfst/src/implementations/HfstTropicalTransducerTransitionData.cc: get_number, get_harmonization_vector"]}
{"id": "C73", "title": "Conversion from tropical transducers keeps weighted paths for any start state and labels", "statement": "An OpenFst tropical transducer with one symbol table that names all its labels becomes a basic transducer with the same number of states, the start state and state 0 having changed places, the same transitions per state in order, the same weighted paths and an alphabet of the table's symbols and the special symbols.", "quantifier": "every tropical transducer with any start state, any one-to-one symbol table, any earlier symbol numbering, with or without HFST header", "why_tests_cant": "start states, label sets and numbering histories are unbounded", "anchors": ["libhfst/src/implementations/ConvertTropicalWeightTransducer.cc: tropical_ofst_to_hfst_basic_transducer, handle_symbol_tables, copy_alphabet", "libhfst/src/implementations/TropicalWeightTransducer.cc: get_symbol_vector"]}
{"id": "C74", "title": "Two-level rules say what the formalism says", "statement": "two_level_if accepts the pair strings over the alphabet in which, between the contexts, an input symbol of the mappings is mapped as they say; two_level_only_if those in which the mappings occur only between the contexts; two_level_if_and_only_if those that satisfy both.", "quantifier": "every pair alphabet, set of mappings and pair of regular contexts, and every pair string", "why_tests_cant": "contexts and strings are unbounded; a wrong rule differs on a few strings only", "anchors": ["libhfst/src/HfstRules.cc: two_level_if, two_level_only_if, two_level_if_and_only_if"]}
{"id": "C75", "title": "Restriction and coercion rules with several contexts", "statement": "restriction accepts the strings over the alphabet in which the mapping occurs only in one of the contexts, coercion those in which the contexts enclose only strings of the mapping (for the surface and deep variants: among the strings with the mapping's input or output side), restriction_and_coercion both; without contexts they throw, and the arguments are left as they were.", "quantifier": "every non-empty context list, mapping and alphabet without the marker symbol, and every pair string", "why_tests_cant": "the construction inserts markers, subtracts and erases them; its correctness rests on the unique position of the markers for every string", "anchors": ["libhfst/src/HfstRules.cc: restriction, coercion, restriction_and_coercion, surface_restriction, deep_restriction"]}
{"id": "C76", "title": "Unconditional replacement is obligatory, total and changes nothing else", "statement": "replace_up relates a string to those obtained by cutting it into parts without replaceable strings, which are kept, and strings of the mapping; every string over the alphabet has a result, a string without replaceable parts only itself, a string with one is changed by the mapping at least once; replace_down does the same on the output side, left_replace_up is the inverse, the optional variant adds the unchanged strings.", "quantifier": "every mapping, alphabet and string", "why_tests_cant": "overlapping occurrences give arbitrarily many factorizations", "anchors": ["libhfst/src/HfstRules.cc: replace, replace_up, replace_down, left_replace_up"]}
{"id": "C77", "title": "Replacement in context", "statement": "replace_up with contexts relates a string to exactly the strings obtained by replacing non-overlapping occurrences of the mapping whose left and right contexts match in the input, such that no replaceable occurrence lies in an unreplaced part; every string over the alphabet has a result, a string without replaceable occurrences only itself; the optional variant adds the unchanged strings.", "quantifier": "every pair of context languages, mapping and identity alphabet, and every pair of strings", "why_tests_cant": "the rule is compiled by inserting, constraining and erasing markers through six compositions; a wrong marker placement shows only for particular overlaps of contexts and occurrences", "anchors": ["libhfst/src/HfstRules.cc: replace_in_context, replace_context, replace_transducer, replace_up"]}
{"id": "C78", "title": "A compiled lexc grammar contains exactly its words", "statement": "compileLexical returns a transducer that relates an upper and a lower string with a weight only if the grammar derives them by chaining entries from the initial lexicon through continuation lexicons to #, and every derived pair is accepted with at most the weight of its derivation.", "quantifier": "every sequence of declarations and entries (strings, pairs, regular expressions), every multicharacter symbol, every segmentation of characters", "why_tests_cant": "the continuations are checked by a composition over an infinite star of entries with encoded names; a collision or a wrong boundary shows only for particular combinations of names, symbols and continuations", "anchors": ["libhfst/src/parsers/LexcCompiler.cc: addStringEntry, addStringPairEntry, addXreEntry, compileLexical"]}
{"id": "C79", "title": "A lexc grammar compiled with flags has the same words", "statement": "With withFlags the compiled transducer differs from the words of the grammar only by flag diacritics @P.LEXNAME.name@; every word of the grammar is accepted with at most its weight and nothing else is.", "quantifier": "as C78", "why_tests_cant": "as C78, and flags are rewritten in every context", "anchors": ["libhfst/src/parsers/LexcCompiler.cc: addStringEntry, compileLexical (with_flags_)"]}
{"id": "C80", "title": "The initial lexicon of a lexc grammar", "statement": "The words of a grammar start from the lexicon Root if it is declared, otherwise from the first declared lexicon, whatever was compiled before.", "quantifier": "every sequence of declarations and entries and every history of the process", "why_tests_cant": "depends on the order of declarations and on static state left by earlier compilers", "anchors": ["libhfst/src/parsers/LexcCompiler.cc: setCurrentLexiconName, setInitialLexiconName"]}
{"id": "C81", "title": "Eliminating all flag diacritics keeps exactly the paths that obey them", "statement": "After eliminate_flags() a transducer contains a pair of strings with a weight exactly if the transducer before contained it, with that weight, along a path on which lookup would obey the flags, and no flags are left in transitions or alphabet.", "quantifier": "every transducer, every set of flags and features, with and without xerox_composition", "why_tests_cant": "each flag becomes a regular expression built from a table of operator combinations; whether the intersection agrees with the lookup semantics must hold for every sequence of flags", "anchors": ["libhfst/src/HfstTransducer.cc: eliminate_flags, get_flag_filter, flag_build, new_filter", "libhfst/src/implementations/HfstBasicTransducer.cc: flag_purge"]}
{"id": "C82", "title": "Eliminating the flags of one feature does not change what is accepted", "statement": "After eliminate_flag(f) a transducer contains exactly the paths along which the flags of feature f are obeyed, without these flags and with the other flags, so that the pairs accepted when flags are obeyed are the same as before; an exception is thrown exactly if no flag of the alphabet has the feature.", "quantifier": "every transducer, every feature, every set of other flags", "why_tests_cant": "as C81; flags of other features are interspersed in every possible way", "anchors": ["libhfst/src/HfstTransducer.cc: eliminate_flag, get_flag_filter, flag_purge"]}
{"id": "C83", "title": "Shuffling gives exactly the interleavings", "statement": "a.shuffle(b) recognizes a string with a weight exactly if the string is an interleaving of a string of a and a string of b whose weights sum to it (the least such weight is kept); it throws TransducersAreNotAutomataException exactly if a or b relates different symbols.", "quantifier": "every pair of transducers: any shape, cycles, epsilons, weights and alphabets", "why_tests_cant": "the number of interleavings grows exponentially and the encoding by prefixes must not clash with any symbol of any alphabet", "anchors": ["libhfst/src/HfstTransducer.cc: shuffle, code_symbols_for_shuffle", "libhfst/src/implementations/HfstBasicTransducer.cc: substitute, insert_freely, harmonize, remove_symbols_from_alphabet"]}
{"id": "C84", "title": "Composition composes the relations", "statement": "a.compose(b) relates x to z with weight w exactly if a relates x to some y and b relates y to z with weights summing to w (of several ways at least the lightest is kept), where unknown and identity symbols stand for the symbols outside the respective alphabet; its alphabet is the union; it does not throw.", "quantifier": "every pair of transducers and every pair of strings, including symbols neither transducer knows", "why_tests_cant": "the strings range over symbols in no alphabet, and identity and unknown are re-coded before and after the back end's composition: each combination of labels must come out right on every path", "anchors": ["libhfst/src/HfstTransducer.cc: compose, substitute_single_identity_with_the_other_symbol, insert_missing_symbols_to_alphabet_from", "libhfst/src/implementations/HfstBasicTransducer.cc: harmonize, substitute"]}
{"id": "C85", "title": "SFST: copy and invert", "statement": "A copy of a transducer accepts the same label strings and has the same labels; its inverse accepts exactly the label strings with the two sides of every label exchanged, so it relates y to x exactly if the original relates x to y. Flags saying that the result is deterministic or minimal are true.", "quantifier": "every transducer in order, every label string and pair of strings", "why_tests_cant": "graphs of any size and shape: cycles, epsilon transitions, unreachable nodes, shared targets; a test fixes finitely many", "anchors": ["back-ends/sfst/operators.cc: copy_nodes, copy, switch_levels", "libhfst/src/implementations/SfstTransducer.cc: copy, invert"]}
{"id": "C86", "title": "SFST: disjunct and optionalize", "statement": "The disjunction of two transducers accepts exactly what either accepts; optionalize adds exactly the empty string; the alphabet is the union.", "quantifier": "every two transducers, every label string", "why_tests_cant": "graphs of any size and shape: cycles, epsilon transitions, unreachable nodes, shared targets; a test fixes finitely many", "anchors": ["back-ends/sfst/operators.cc: operator|", "libhfst/src/implementations/SfstTransducer.cc: disjunct, optionalize"]}
{"id": "C87", "title": "SFST: concatenate", "statement": "The concatenation accepts exactly a string of the first transducer followed by a string of the second.", "quantifier": "every two transducers, every label string", "why_tests_cant": "graphs of any size and shape: cycles, epsilon transitions, unreachable nodes, shared targets; a test fixes finitely many", "anchors": ["back-ends/sfst/operators.cc: operator+, rec_cat_nodes", "libhfst/src/implementations/SfstTransducer.cc: concatenate"]}
{"id": "C88", "title": "SFST: repetition", "statement": "repeat_star accepts exactly strings made of any number of accepted strings, repeat_plus at least one, repeat_n(n) exactly n, repeat_le_n(n) at most n.", "quantifier": "every transducer, every n, every label string", "why_tests_cant": "graphs of any size and shape: cycles, epsilon transitions, unreachable nodes, shared targets; a test fixes finitely many", "anchors": ["back-ends/sfst/operators.cc: kleene_star, operator+", "libhfst/src/implementations/SfstTransducer.cc: repeat_star, repeat_plus, repeat_n, repeat_le_n"]}
{"id": "C89", "title": "SFST: reverse", "statement": "The reversal accepts exactly the reversed label strings and has the same labels.", "quantifier": "every transducer, every label string", "why_tests_cant": "graphs of any size and shape: cycles, epsilon transitions, unreachable nodes, shared targets; a test fixes finitely many", "anchors": ["back-ends/sfst/operators.cc: reverse_node, reverse", "libhfst/src/implementations/SfstTransducer.cc: reverse"]}
{"id": "C90", "title": "SFST: projections", "statement": "extract_input_language / extract_output_language accept exactly the label strings obtained by replacing each label by its input (output) symbol on both sides, empty ones dropped.", "quantifier": "every transducer, every label string", "why_tests_cant": "graphs of any size and shape: cycles, epsilon transitions, unreachable nodes, shared targets; a test fixes finitely many", "anchors": ["back-ends/sfst/operators.cc: map_nodes, level", "libhfst/src/implementations/SfstTransducer.cc: extract_input_language, extract_output_language"]}
{"id": "C91", "title": "SFST: substitute a symbol", "statement": "Substituting one symbol by another accepts exactly the label strings with the symbol replaced in all labels, and depends only on what the transducer accepts.", "quantifier": "every transducer, every two symbols, every label string", "why_tests_cant": "graphs of any size and shape: cycles, epsilon transitions, unreachable nodes, shared targets; a test fixes finitely many", "anchors": ["back-ends/sfst/operators.cc: replace_char2, replace_char", "libhfst/src/implementations/SfstTransducer.cc: substitute"]}
{"id": "C92", "title": "SFST: insert freely", "statement": "Free insertion of a label accepts exactly the strings with any number of copies of it put in anywhere, and the result is in order for later operations.", "quantifier": "every transducer, every label, every string", "why_tests_cant": "graphs of any size and shape: cycles, epsilon transitions, unreachable nodes, shared targets; a test fixes finitely many", "anchors": ["back-ends/sfst/operators.cc: freely_insert_at_node, freely_insert", "libhfst/src/implementations/SfstTransducer.cc: insert_freely"]}
{"id": "C93", "title": "SFST: determinize", "statement": "Determinisation accepts the same label strings, leaves at most one transition per label and no epsilon transitions.", "quantifier": "every transducer, every label string", "why_tests_cant": "graphs of any size and shape: cycles, epsilon transitions, unreachable nodes, shared targets; a test fixes finitely many", "anchors": ["back-ends/sfst/determinise.cc: determinise, add_node, epsilon_closure, compute_transitions", "libhfst/src/implementations/SfstTransducer.cc: determinize"]}
{"id": "C94", "title": "SFST: intersect", "statement": "The intersection accepts exactly the label strings both accept.", "quantifier": "every two transducers, every label string", "why_tests_cant": "graphs of any size and shape: cycles, epsilon transitions, unreachable nodes, shared targets; a test fixes finitely many", "anchors": ["back-ends/sfst/operators.cc: conjoin_nodes, operator&", "libhfst/src/implementations/SfstTransducer.cc: intersect"]}
{"id": "C95", "title": "SFST: compose", "statement": "The composition relates x to z exactly if some y is related to x by the first and to z by the second, and its labels are those composed from theirs.", "quantifier": "every two transducers, every pair of strings", "why_tests_cant": "graphs of any size and shape: cycles, epsilon transitions, unreachable nodes, shared targets; a test fixes finitely many; the second transducer is indexed when its nodes have many transitions and the ways through empty symbols multiply", "anchors": ["back-ends/sfst/operators.cc: compose_nodes, operator||, add_composed_node", "back-ends/sfst/fst.cc: index, indexing", "libhfst/src/implementations/SfstTransducer.cc: compose"]}
{"id": "C96", "title": "SFST: add a path", "statement": "Adding a string pair vector to a transducer adds exactly the string of that path; a lexicon made by adding paths one by one to the empty transducer accepts exactly them.", "quantifier": "every transducer, every path and list of paths", "why_tests_cant": "lists of paths of any length with shared prefixes and empty labels", "anchors": ["libhfst/src/implementations/SfstTransducer.cc: disjunct(Transducer*, StringPairVector)"]}
{"id": "C97", "title": "SFST: minimize", "statement": "Minimisation by either algorithm accepts the same label strings and keeps the alphabet; the result is deterministic, its flags are true, and no deterministic transducer accepting the same has fewer nodes, so both algorithms give the same number of nodes.", "quantifier": "every transducer in order, both algorithms, every label string, every other deterministic transducer", "why_tests_cant": "graphs of any size and shape: cycles, epsilon transitions, unreachable nodes, shared targets; a test fixes finitely many", "anchors": ["back-ends/sfst/hopcroft.cc: Minimiser, split, process_arcs, merge_state_lists, build_transducer, minimise", "back-ends/sfst/fst.cc: minimise, rev_det_minimise", "libhfst/src/implementations/SfstTransducer.cc: minimize"]}
{"id": "C98", "title": "SFST: emptiness tests", "statement": "is_empty answers yes exactly if no label string is accepted, and the test for the empty string yes exactly if the empty string is.", "quantifier": "every transducer in order", "why_tests_cant": "graphs of any size and shape: cycles, epsilon transitions, unreachable nodes, shared targets; a test fixes finitely many", "anchors": ["back-ends/sfst/operators.cc: is_empty, generates_empty_string"]}
{"id": "C99", "title": "SFST: subtract", "statement": "The difference accepts exactly the label strings the first transducer accepts and the second does not, also if the alphabets differ or are empty.", "quantifier": "every two transducers, every label string", "why_tests_cant": "graphs of any size and shape: cycles, epsilon transitions, unreachable nodes, shared targets; a test fixes finitely many", "anchors": ["back-ends/sfst/operators.cc: operator/, operator!", "libhfst/src/implementations/SfstTransducer.cc: subtract"]}
{"id": "C100", "title": "SFST: complement", "statement": "The complement accepts, among the label strings over the alphabet, exactly those not accepted, and no string with other labels if the alphabet has all labels used; without labels it is refused by an exception.", "quantifier": "every transducer, every label string", "why_tests_cant": "graphs of any size and shape: cycles, epsilon transitions, unreachable nodes, shared targets; a test fixes finitely many", "anchors": ["back-ends/sfst/operators.cc: negate_nodes, operator!"]}
{"id": "C101", "title": "SFST: equivalence", "statement": "Two transducers are found to be equivalent exactly if they accept the same label strings.", "quantifier": "every two transducers", "why_tests_cant": "graphs of any size and shape: cycles, epsilon transitions, unreachable nodes, shared targets; a test fixes finitely many", "anchors": ["back-ends/sfst/operators.cc: compare_nodes, operator==", "libhfst/src/implementations/SfstTransducer.cc: are_equivalent"]}
{"id": "C102", "title": "SFST: is_cyclic and is_automaton", "statement": "is_cyclic answers yes exactly if some way from the root comes to a node twice; is_automaton exactly if the two sides of every label on a way from the root are equal.", "quantifier": "every transducer", "why_tests_cant": "graphs of any size and shape: cycles, epsilon transitions, unreachable nodes, shared targets; a test fixes finitely many", "anchors": ["back-ends/sfst/operators.cc: is_cyclic_node, is_cyclic, is_automaton_node, is_automaton", "libhfst/src/implementations/SfstTransducer.cc: is_cyclic, is_automaton"]}
{"id": "C103", "title": "SFST: input and output languages", "statement": "extract_input_language / extract_output_language accept exactly the label strings with each label replaced by its input (output) symbol on both sides, unknown symbols turned into identities, empty labels dropped.", "quantifier": "every transducer, every label string", "why_tests_cant": "graphs of any size and shape: cycles, epsilon transitions, unreachable nodes, shared targets; a test fixes finitely many", "anchors": ["back-ends/sfst/operators.cc: level, replace_char", "libhfst/src/implementations/SfstTransducer.cc: extract_input_language, extract_output_language"]}
{"id": "C104", "title": "Prolog text format: round trip", "statement": "A transducer written in Prolog format and read back has the same name, transitions in order, final states and alphabet (weights if they are written), and with weights accepts the same; several transducers written by hfst-fst2txt are read back by hfst-txt2fst.", "quantifier": "every transducer, name, weight setting, text that follows", "why_tests_cant": "names, symbols, weights and graphs of any size; the text depends on all of them and a test writes finitely many", "anchors": ["libhfst/src/implementations/HfstBasicTransducer.cc: write_in_prolog_format, read_in_prolog_format, parse_prolog_arc_line, parse_prolog_final_line, parse_prolog_symbol_line, extract_weight", "tools/src/hfst-fst2txt.cc: process_stream", "tools/src/hfst-txt2fst.cc: process_stream"]}
{"id": "C105", "title": "Prolog text format: the reader", "statement": "Reading ends on every text, its result depends only on the text, and comment lines before the network change nothing.", "quantifier": "every text", "why_tests_cant": "all texts, and what uninitialised memory happens to hold", "anchors": ["libhfst/src/implementations/HfstBasicTransducer.cc: read_in_prolog_format, get_stripped_line, parse_prolog_arc_line, parse_prolog_network_line"]}
{"id": "C106", "title": "hfst-proc: tokens and text", "statement": "Reading a text as tokens ends; the text of the tokens read is the text, nothing is left unread; at each place the longest symbol of the alphabet is taken.", "quantifier": "every alphabet and text", "why_tests_cant": "texts, alphabets and lexicons of any size; the behaviour depends on what is in the buffer at each place", "anchors": ["tools/src/hfst-proc/tokenizer.cc: read_token, make_token, read_delimited, read_utf8_char, escape, token_to_string", "tools/src/hfst-proc/alphabet.cc: LetterTrie::extract_symbol, Symbolizer::add_symbol, Symbolizer::extract_symbol"]}
{"id": "C107", "title": "hfst-proc: the token buffer", "statement": "After moving back in the circular token buffer the tokens come again as they were in the text, tokens can be looked up by position, and distances between positions are right, also where the buffer wraps around.", "quantifier": "every text, buffer size, position within the window", "why_tests_cant": "texts, alphabets and lexicons of any size; the behaviour depends on what is in the buffer at each place", "anchors": ["tools/src/hfst-proc/buffer.h: add, next, get, back, diffPrevPos, isEmpty", "tools/src/hfst-proc/tokenizer.h: move_back, at, diff_prev, get_pos"]}
{"id": "C108", "title": "hfst-proc: analysis of running text", "statement": "Every token of the text appears in exactly one part of the output, in order: a word with the analyses of the longest stretch accepted at that place that ends at a word boundary, an unknown word, or a character between words.", "quantifier": "every lexicon, alphabet, formatter and text", "why_tests_cant": "texts, alphabets and lexicons of any size; the behaviour depends on what is in the buffer at each place", "anchors": ["tools/src/hfst-proc/applicators.cc: AnalysisApplicator::apply", "tools/src/hfst-proc/tokenizer.cc: get_token"]}
{"id": "C109", "title": "hfst-proc: Apertium output keeps the text", "statement": "In the Apertium format the output with the markup taken away is the input text.", "quantifier": "every lexicon, alphabet and text", "why_tests_cant": "texts, alphabets and lexicons of any size; the behaviour depends on what is in the buffer at each place", "anchors": ["tools/src/hfst-proc/formatter.cc: ApertiumOutputFormatter::print_word, print_unknown_word", "tools/src/hfst-proc/applicators.cc: AnalysisApplicator::apply"]}
{"id": "C110", "title": "hfst-proc: the lookup state follows the transducer", "statement": "While symbols are read one by one, the lookup state is active exactly if some run of the transducer over them (with the alternatives for letter case) is possible, final exactly if one ends in a final state, and the final paths are, for each thing an accepting run writes, one path with the weight of such a run. This holds in every flag state and epsilon closure, and looking up always ends.", "quantifier": "every transducer converted to optimized lookup, every sequence of symbols, every way the paths are laid out in memory", "why_tests_cant": "transducers, inputs and lengths are unbounded; which of several equal analyses is kept depends on memory addresses", "anchors": ["tools/src/hfst-proc/lookup-state.cc: init, step, apply_input, try_epsilons, try_index, try_transitions, is_final, get_finals_set", "tools/src/hfst-proc/lookup-path.cc: follow", "tools/src/hfst-proc/transducer.cc: create_initial_path"]}
{"id": "C111", "title": "hfst-proc: the choice among analyses", "statement": "Of the analyses of a word (with compound filtering: those with the fewest compound boundaries) the ones kept are those in the N best weight classes, lightest first, and of them at most the given number.", "quantifier": "every set of analyses, both limits, compound filtering on or off", "why_tests_cant": "sets of analyses of any size and with any weights", "anchors": ["tools/src/hfst-proc/formatter.cc: OutputFormatter::preprocess_finals, filter_compound_analyses", "tools/src/hfst-proc/lookup-path.cc: LookupPathW::operator<"]}
{"id": "C112", "title": "Union, intersection and difference of transducers with different alphabets", "statement": "The union, intersection and difference of two transducers have exactly the sequences of symbol pairs that the set operation on those of the operands gives, where unknown and identity stand for all symbols outside the operand's own alphabet (before the operation) or the result's alphabet (after it). The alphabet of the result is the union of the two.", "quantifier": "every two transducers whose alphabets contain their symbols and the reserved symbols, with identity on both sides of a transition or none", "why_tests_cant": "transducers, alphabets and strings are unbounded; the strings over symbols outside an alphabet are never all tried", "anchors": ["libhfst/src/HfstTransducer.cc: disjunct, intersect, subtract", "libhfst/src/HfstApply.cc: apply", "libhfst/src/implementations/HfstBasicTransducer.cc: harmonize"]}
{"id": "C113", "title": "Negation", "statement": "Negating an automaton gives an unweighted automaton for exactly the strings, over ordinary symbols and the automaton's own flag diacritics, that the automaton does not accept. Negating anything else throws.", "quantifier": "every automaton and every string, including symbols outside the alphabet", "why_tests_cant": "transducers, alphabets and strings are unbounded; the strings over symbols outside an alphabet are never all tried", "anchors": ["libhfst/src/HfstTransducer.cc: negate, insert_missing_diacritics_to_alphabet_from", "libhfst/src/implementations/TropicalWeightTransducer.cc: is_automaton"]}
{"id": "C114", "title": "Priority union", "statement": "The priority union of Q and P relates x to z if Q does, or if P does and Q has no result for x at all.", "quantifier": "every two transducers and every pair of strings", "why_tests_cant": "transducers, alphabets and strings are unbounded; the strings over symbols outside an alphabet are never all tried", "anchors": ["libhfst/src/HfstTransducer.cc: priority_union, input_project, negate, compose, disjunct"]}
{"id": "C115", "title": "Lenient composition", "statement": "The lenient composition of two transducers has the results of their composition, and for the strings for which that has none the results of the first transducer.", "quantifier": "every two transducers and every pair of strings", "why_tests_cant": "transducers, alphabets and strings are unbounded; the strings over symbols outside an alphabet are never all tried", "anchors": ["libhfst/src/HfstTransducer.cc: lenient_composition, compose, priority_union"]}
{"id": "C116", "title": "Pattern matching replaces the longest matches", "statement": "In match mode a text is gone through from the left. At each position the longest match of the networks, and the lightest of these, is replaced by what it writes; a symbol at which no match starts is copied. The result does not depend on the texts the container was used for before.", "quantifier": "every set of networks, alphabet, text, limits, and history of the container", "why_tests_cant": "texts, networks, calls between them and the texts that a container has been used for are unbounded; the longest match is over all paths", "anchors": ["libhfst/src/implementations/optimized-lookup/pmatch.cc: process, match, get_analyses, take_epsilons, take_flag, take_transitions, rtn_call, rtn_return, handle_final_state, note_analysis"]}
{"id": "C117", "title": "Pattern matching locates all the longest matches", "statement": "In locate mode the text is divided in the same way. For each part there is a group with the locations of all the longest matches, lightest first, or one location for text in which nothing matched.", "quantifier": "every set of networks, alphabet, text, limits, and history of the container", "why_tests_cant": "texts, networks, calls between them and the texts that a container has been used for are unbounded; the longest match is over all paths", "anchors": ["libhfst/src/implementations/optimized-lookup/pmatch.cc: locate, process, grab_location, locatefy"]}
{"id": "C118", "title": "Locations cover the text", "statement": "The locations cover the text without gaps or overlaps, and the start, length and input of each are those of the text at its place.", "quantifier": "every set of networks and every text", "why_tests_cant": "texts, networks, calls between them and the texts that a container has been used for are unbounded; the longest match is over all paths", "anchors": ["libhfst/src/implementations/optimized-lookup/pmatch.cc: process, locatefy"]}
{"id": "C119", "title": "Tags in the output of pattern matching", "statement": "The marked output encloses in each tag what its group has written so far; the other modes replace it by the tag, show the groups alone, or leave the tags out.", "quantifier": "every tree of text, tags and groups", "why_tests_cant": "texts, networks, calls between them and the texts that a container has been used for are unbounded; the longest match is over all paths", "anchors": ["libhfst/src/implementations/optimized-lookup/pmatch.cc: stringify, start_tag, end_tag"]}
{"id": "C120", "title": "Optional replacement", "statement": "An optional replace rule, or several parallel ones, relates a text to exactly the texts that result if some parts of it, as one of the rules says and in one of its contexts, are changed, the empty string at most once in one place. The four kinds of contexts refer to what is read or to what is written on their sides.", "quantifier": "all rules, contexts, texts and results", "why_tests_cant": "the texts, the sides and contexts of the rules and their number are unbounded, and the competing ways to change a text have to be compared", "anchors": ["libhfst/src/HfstXeroxRules.cc: replace, bracketedReplace, parallelBracketedReplace, expandContextsWithMapping, noRepetitionConstraint, applyBoundaryMark, removeMarkers"]}
{"id": "C121", "title": "Obligatory replacement", "statement": "An obligatory replace rule, or several parallel ones, relates a text to exactly the texts that result if parts of it are changed and nothing is kept that could be changed; in one place at most one insertion is made.", "quantifier": "all rules, contexts, texts and results", "why_tests_cant": "the texts, the sides and contexts of the rules and their number are unbounded, and the competing ways to change a text have to be compared", "anchors": ["libhfst/src/HfstXeroxRules.cc: replace, mostBracketsStarConstraint, removeB2Constraint"]}
{"id": "C122", "title": "Left-to-right longest match", "statement": "With @-> a text is gone through from the left; where something can be changed that starts there, the longest such part is changed.", "quantifier": "all rules, contexts, texts and results", "why_tests_cant": "the texts, the sides and contexts of the rules and their number are unbounded, and the competing ways to change a text have to be compared", "anchors": ["libhfst/src/HfstXeroxRules.cc: replace_leftmost_longest_match, leftMostConstraint, longestMatchLeftMostConstraint, oneBetterthanNoneConstraint"]}
{"id": "C123", "title": "Left-to-right shortest match", "statement": "With @> a text is gone through from the left; where something can be changed that starts there, the shortest such part is changed.", "quantifier": "all rules, contexts, texts and results", "why_tests_cant": "the texts, the sides and contexts of the rules and their number are unbounded, and the competing ways to change a text have to be compared", "anchors": ["libhfst/src/HfstXeroxRules.cc: replace_leftmost_shortest_match, shortestMatchLeftMostConstraint"]}
{"id": "C124", "title": "Right-to-left longest match", "statement": "With ->@ a text is gone through from the right; where something can be changed that ends there, the longest such part is changed.", "quantifier": "all rules, contexts, texts and results", "why_tests_cant": "the texts, the sides and contexts of the rules and their number are unbounded, and the competing ways to change a text have to be compared", "anchors": ["libhfst/src/HfstXeroxRules.cc: replace_rightmost_longest_match, rightMostConstraint, longestMatchRightMostConstraint"]}
{"id": "C125", "title": "Right-to-left shortest match", "statement": "With >@ a text is gone through from the right; where something can be changed that ends there, the shortest such part is changed.", "quantifier": "all rules, contexts, texts and results", "why_tests_cant": "the texts, the sides and contexts of the rules and their number are unbounded, and the competing ways to change a text have to be compared", "anchors": ["libhfst/src/HfstXeroxRules.cc: replace_rightmost_shortest_match, shortestMatchRightMostConstraint"]}
{"id": "C126", "title": "Directed replacement gives one result", "statement": "Directed replacement gives every text a result; if the right sides are single strings, only one.", "quantifier": "all rules, contexts and texts", "why_tests_cant": "the texts, the sides and contexts of the rules and their number are unbounded, and the competing ways to change a text have to be compared", "anchors": ["libhfst/src/HfstXeroxRules.cc: replace_leftmost_longest_match, replace_leftmost_shortest_match, replace_rightmost_longest_match, replace_rightmost_shortest_match"]}
{"id": "C127", "title": "Replacement to the left", "statement": "A rule to the left relates to a text written exactly those texts which the rule with its sides exchanged makes of it.", "quantifier": "all rules, contexts, texts and results", "why_tests_cant": "the texts, the sides and contexts of the rules and their number are unbounded, and the competing ways to change a text have to be compared", "anchors": ["libhfst/src/HfstXeroxRules.cc: replace_left"]}
{"id": "C128", "title": "Restriction", "statement": "A restriction accepts exactly the texts in which every occurrence of the center is in one of the contexts.", "quantifier": "all centers, lists of contexts and texts", "why_tests_cant": "the texts, the sides and contexts of the rules and their number are unbounded, and the competing ways to change a text have to be compared", "anchors": ["libhfst/src/HfstXeroxRules.cc: restriction, applyBoundaryMark"]}
{"id": "C129", "title": "Before and after", "statement": "before and after accept exactly the texts in which nothing of the one language comes before something of the other.", "quantifier": "all pairs of languages and texts", "why_tests_cant": "the texts, the sides and contexts of the rules and their number are unbounded, and the competing ways to change a text have to be compared", "anchors": ["libhfst/src/HfstXeroxRules.cc: before, after"]}
{"id": "C130", "title": "compose_intersect filters a lexicon by all rules", "statement": "Composing a lexicon with a list of rules gives exactly the words of the lexicon, with boundaries at both ends if the rules know them, joined with what all the rules accept; weights are added.", "quantifier": "all lexicons, lists of rules, words and weights", "why_tests_cant": "the lexicon and the rules are arbitrary cyclic graphs, so they have infinitely many paths, and the number of rules is unbounded", "anchors": ["libhfst/src/HfstTransducer.cc: compose_intersect, concatenate, harmonize_"]}
{"id": "C131", "title": "compose_intersect from the other end", "statement": "With the option to invert, the outputs of the rules are joined with the inputs of the lexicon in the same way, and the result reads what the rules read.", "quantifier": "all lexicons, lists of rules, words and weights", "why_tests_cant": "the lexicon and the rules are arbitrary cyclic graphs, so they have infinitely many paths, and the number of rules is unbounded", "anchors": ["libhfst/src/HfstTransducer.cc: compose_intersect, invert"]}
{"id": "C132", "title": "cross_product pairs every word of one automaton with every word of the other", "statement": "The cross product of two transducers that pair each symbol with itself relates x to z exactly if the first accepts x and the second accepts z, with the sum of the weights; if one of the two is no such transducer, the call throws.", "quantifier": "all pairs of transducers, words and weights", "why_tests_cant": "the automata are arbitrary cyclic graphs over different alphabets, with unknown and identity standing for infinitely many symbols", "anchors": ["libhfst/src/HfstTransducer.cc: cross_product, compare, concatenate, input_project"]}
{"id": "C133", "title": "Renaming keeps the flags of two transducers apart", "statement": "harmonize_flag_diacritics without insertion adds _1 and _2 to the features of the two transducers if both have flags, changing nothing else about their paths; afterwards any mixture of the two sequences of flags is accepted exactly if each was accepted alone.", "quantifier": "all transducers, paths, weights, and all ways to mix two sequences of symbols", "why_tests_cant": "the mixtures and the feature environments are unbounded", "anchors": ["libhfst/src/HfstTransducer.cc: rename_flag_diacritics, add_suffix_to_feature_name, harmonize_flag_diacritics"]}
{"id": "C134", "title": "Missing flags are inserted anywhere and nothing else changes", "statement": "insert_freely_missing_flags_from lets each flag of the other alphabet that the transducer does not know pass anywhere, any number of times, at no weight; the relation is otherwise unchanged.", "quantifier": "all transducers, paths and weights", "why_tests_cant": "flags may be inserted any number of times at any place of a cyclic transducer", "anchors": ["libhfst/src/HfstTransducer.cc: insert_freely_missing_flags_from, check_for_missing_flags_in, harmonize_flag_diacritics"]}
{"id": "C135", "title": "Removing illegal flag paths keeps just the legal results", "statement": "remove_illegal_flag_paths keeps a result exactly if no flag with _1. stands directly after a flag with _2. in it.", "quantifier": "all transducers, strings and weights", "why_tests_cant": "the transducers are arbitrary cyclic graphs whose results are unbounded", "anchors": ["libhfst/src/HfstTransducer.cc: remove_illegal_flag_paths, get_flag_path_restriction"]}
{"id": "C136", "title": "Two-sided flags: no transition has a flag on one side only", "statement": "twosided_flag_diacritics splits each pair with a flag on one side, or with two different flags, into two pairs with the flag on both sides; weights and text without flags and epsilons stay.", "quantifier": "all transducers, paths and weights", "why_tests_cant": "the paths of a cyclic transducer are unbounded", "anchors": ["libhfst/src/HfstTransducer.cc: twosided_flag_diacritics"]}
{"id": "C137", "title": "Harmonizing two transducers with flags, with insertion", "statement": "After harmonize_flag_diacritics with insertion each transducer keeps its paths with its flags renamed and passes over the renamed flags of the other anywhere; the first keeps just those results where none of its own flags stands directly after one of the other's.", "quantifier": "all pairs of transducers with flags, all paths, strings and weights", "why_tests_cant": "insertions, paths and symbols outside the alphabets are unbounded", "anchors": ["libhfst/src/HfstTransducer.cc: harmonize_flag_diacritics"]}
{"id": "C138", "title": "hfst-reweight changes just the weights asked for", "statement": "The result has the paths of the argument; the weight of a transition or final state is BVAL * FNAME(w) + AVAL if it meets the given symbols, bounds and kind, and unchanged otherwise. Without bounds all weights are meant.", "quantifier": "all transducers, options, paths and weights", "why_tests_cant": "options, transducers and paths are unbounded", "anchors": ["tools/src/hfst-reweight.cc: reweight, do_reweight"]}
{"id": "C139", "title": "A file of rules for hfst-reweight is the rules one after another", "statement": "With -T, the result is that of running the tool once for each line with that symbol and that addition or multiplier.", "quantifier": "all files, options and transducers", "why_tests_cant": "the file may have any number of lines", "anchors": ["tools/src/hfst-reweight.cc: process_stream"]}
{"id": "C140", "title": "hfst-kill-paths keeps just the paths without the symbols", "statement": "The paths of the result are those of the argument without any of the killed symbols on either side, with their weights.", "quantifier": "all transducers, files of symbols, paths and weights", "why_tests_cant": "the paths of a cyclic transducer are unbounded", "anchors": ["tools/src/hfst-kill-paths.cc: do_killing, process_stream"]}
{"id": "C141", "title": "Preprocessing for optimized lookup keeps the transducer", "statement": "hfst-preprocess-for-optimized-lookup-format gives a transducer with the same paths and weights.", "quantifier": "all transducers, paths and weights", "why_tests_cant": "the paths of a cyclic transducer are unbounded", "anchors": ["tools/src/hfst-preprocess-for-optimized-lookup-format.cc: process_stream"]}
{"id": "C142", "title": "is_lookup_infinitely_ambiguous tells when a lookup meets a loop", "statement": "On a transducer in optimized-lookup format, is_lookup_infinitely_ambiguous answers yes just if, after some of the tokens, a loop that reads nothing and restores the flag values can be reached. It always answers.", "quantifier": "all transducers, all previous lookups, all strings", "why_tests_cant": "transducers, strings and depths are unbounded", "anchors": ["libhfst/src/implementations/optimized-lookup/find_epsilon_loops.cc: find_loop, find_loop_epsilon_transitions, find_loop_epsilon_indices, find_loop_transitions, find_loop_index", "libhfst/src/implementations/optimized-lookup/transducer.cc: is_lookup_infinitely_ambiguous"]}
{"id": "C143", "title": "A pair string is read as the pairs it spells", "statement": "hfst-strings2fst -p reads x for the pair x:x and x:y for the pair x:y, where multicharacter symbols are read as one symbol, the epsilon text as epsilon, and a character after a backslash as itself.", "quantifier": "all lists of pairs, all spellings, all sets of multicharacter symbols", "why_tests_cant": "texts, symbols and lines are unbounded", "anchors": ["libhfst/src/HfstStrings2FstTokenizer.cc: tokenize_pair_string, make_pair_vector, unescape, add_multichar_symbol_head", "tools/src/hfst-strings2fst.cc: process_stream"]}
{"id": "C144", "title": "A string or a string pair is read as the symbols it spells", "statement": "hfst-strings2fst reads a string as the identity pairs of its symbols, and two strings with a colon between them as their symbols side by side, the shorter one filled up with epsilons.", "quantifier": "all strings, all spellings, all sets of multicharacter symbols", "why_tests_cant": "texts, symbols and lines are unbounded", "anchors": ["libhfst/src/HfstStrings2FstTokenizer.cc: tokenize_string_pair, make_pair_vector, unescape", "tools/src/hfst-strings2fst.cc: process_stream"]}
{"id": "C145", "title": "With spaces between symbols any string is a symbol", "statement": "With -S, the text between spaces is one symbol, colons and spaces in it being written after a backslash; pair strings, strings and string pairs are then read as in C143 and C144.", "quantifier": "all lists of symbols and pairs, all numbers of spaces", "why_tests_cant": "texts, symbols and lines are unbounded", "anchors": ["libhfst/src/HfstStrings2FstTokenizer.cc: split_at_spaces, tokenize_pair_string, tokenize_string_pair", "tools/src/hfst-strings2fst.cc: process_stream"]}
{"id": "C146", "title": "hfst-strings2fst -j accepts just the lines", "statement": "hfst-strings2fst -j makes a transducer that accepts the pairs of each line, with the smallest weight written after a tab on the lines with these pairs (0 if none is written), and accepts nothing else.", "quantifier": "all lists of lines, with and without -p and -S", "why_tests_cant": "texts, symbols and lines are unbounded", "anchors": ["tools/src/hfst-strings2fst.cc: process_stream", "libhfst/src/HfstStrings2FstTokenizer.cc: tokenize_pair_string, tokenize_string_pair"]}
{"id": "C147", "title": "Hidden flag diacritics come back", "statement": "encode_flag_diacritics replaces each flag diacritic on the paths by a symbol between percent signs and leaves no flags; decode_flag_diacritics then restores the paths, the weights and the alphabet. It refuses just the transducers that already have a symbol of that form.", "quantifier": "all transducers", "why_tests_cant": "transducers and their symbols are unbounded", "anchors": ["libhfst/src/HfstTransducer.cc: encode_flag_diacritics, decode_flag_diacritics, encode_flag, decode_flag"]}
{"id": "C148", "title": "The suffix guesser reads any start and a known ending", "statement": "hfst-affix-guessify -D suffix makes a transducer that accepts one or more copied symbols followed by an ending of the given transducer, and nothing else; the weight is that of the ending plus WEIGHT for each symbol before it.", "quantifier": "all transducers, weights and strings", "why_tests_cant": "transducers and strings are unbounded", "anchors": ["tools/src/hfst-affix-guessify.cc: process_stream"]}
{"id": "C149", "title": "The prefix guesser reads a known beginning and any rest", "statement": "hfst-affix-guessify -D prefix makes a transducer that accepts what the given one accepts and also any beginning of a path followed by one or more copied symbols, each with the weight WEIGHT.", "quantifier": "all transducers, weights and strings", "why_tests_cant": "transducers and strings are unbounded", "anchors": ["tools/src/hfst-affix-guessify.cc: process_stream"]}
{"id": "C150", "title": "hfst-traverse shows the paths that read the labels", "statement": "After any labels typed by the user, hfst-traverse shows just the paths from the start that read them; labels that no path can read are passed over.", "quantifier": "all transducers, all sequences of labels", "why_tests_cant": "sequences of labels are unbounded", "anchors": ["tools/src/hfst-traverse.cc: main_loop"]}
{"id": "C151", "title": "hfst-pair-test succeeds just when the grammar does what the tests say", "statement": "hfst-pair-test ends with exit code 0 if and only if every rule accepts the pairs of each line, read between word boundaries; with -N, if and only if each line is rejected by some rule. A rule's identity transitions stand for the symbols the rule does not have. Blank lines and lines that begin with an exclamation mark are passed over.", "quantifier": "all grammars and test files", "why_tests_cant": "grammars and test files are unbounded", "anchors": ["tools/src/hfst-pair-test.cc: process_stream, test, get_target, is_empty_or_comment", "libhfst/src/HfstStrings2FstTokenizer.cc: tokenize_pair_string"]}
{"id": "C152", "title": "hfst-head puts out the first transducers", "statement": "hfst-head -n K puts out the first K transducers of an archive, or all of them if it has fewer; hfst-head -n -K all but the last K.", "quantifier": "all archives, all K other than 0", "why_tests_cant": "archives are unbounded", "anchors": ["tools/src/hfst-head.cc: process_stream"]}
{"id": "C153", "title": "hfst-tail puts out the last transducers", "statement": "hfst-tail -n K puts out the last K transducers of an archive, or all of them if it has fewer; hfst-tail -n +K those from the Kth on.", "quantifier": "all archives, all K other than 0", "why_tests_cant": "archives are unbounded", "anchors": ["tools/src/hfst-tail.cc: process_stream, parse_options"]}
{"id": "C154", "title": "Tools for two archives pair their transducers", "statement": "hfst-concatenate, hfst-disjunct, hfst-conjunct, hfst-subtract, hfst-shuffle and hfst-priority-disjunct apply their operation to the transducers of two archives one by one, or to each of the first and the only one of the second. If the numbers do not fit, the exit code is not 0. The exit code of hfst-compare is 0 if and only if the numbers fit and the transducers so paired are all equal.", "quantifier": "all archives that are not empty", "why_tests_cant": "archives are unbounded", "anchors": ["tools/src/hfst-concatenate.cc: concatenate_streams", "tools/src/hfst-disjunct.cc: disjunct_streams", "tools/src/hfst-compare.cc: compare_streams"]}
{"id": "C155", "title": "hfst-compose pairs the transducers of two archives", "statement": "hfst-compose composes the transducers of two archives one by one, or each of one archive with the only one of the other. If the numbers do not fit, the exit code is not 0.", "quantifier": "all archives that are not empty", "why_tests_cant": "archives are unbounded", "anchors": ["tools/src/hfst-compose.cc: compose_streams"]}
{"id": "C156", "title": "hfst-proc: generation replaces words by their forms", "statement": "hfst-proc -g replaces each word between ^ and $ by its forms, with slashes between them; a word without forms is divided at the plus signs after tags, and a part without forms is shown without its tags after a number sign. Unanalysed and untranslated words are shown up to their tags with their marks, and the invariant part after a number sign is kept. The text outside words is left as it is. With -n the marks are left out, with -d the tags are kept.", "quantifier": "all texts, lexicons and the three modes", "why_tests_cant": "texts and lexicons are unbounded", "anchors": ["tools/src/hfst-proc/applicators.cc: GenerationApplicator", "tools/src/hfst-proc/tokenizer.cc: read_delimited, token_to_string, escape"]}
{"id": "C157", "title": "hfst-summarize tells the truth", "statement": "The numbers of states, final states, transitions and epsilons that hfst-summarize prints are those of the transducer. It says acceptor just when the two sides of every transition are the same, and input (output) deterministic just when no state has an epsilon or the same symbol twice on that side. The symbols seen, the symbols missing, the sparsest and densest states, the most ambiguous symbols and the symbol pairs listed with their numbers are those of the transducer.", "quantifier": "all transducers and all thresholds for symbol pairs", "why_tests_cant": "transducers are unbounded", "anchors": ["tools/src/hfst-summarize.cc: process_stream"]}
{"id": "C158", "title": "hfst-summarize: cyclic", "statement": "hfst-summarize says cyclic just when some state of the transducer is on a loop, and cyclic at initial state just when the initial state is.", "quantifier": "all transducers", "why_tests_cant": "transducers are unbounded", "anchors": ["tools/src/hfst-summarize.cc: process_stream"]}
{"id": "C159", "title": "hfst-expand-equivalences: the strings", "statement": "hfst-expand-equivalences replaces, in each pair of strings of the transducer and on the levels asked for, any of the symbols that have extensions by one of them, leaves the other symbols alone, and has no other pairs of strings; a pair obtained from one of weight w has a weight of at most w, and the weight of some pair it is obtained from.", "quantifier": "all transducers, all lists of extensions and the three levels", "why_tests_cant": "transducers, strings and lists of extensions are unbounded", "anchors": ["tools/src/hfst-expand-equivalences.cc: process_stream", "tools/src/hfst-expand-equivalences.cc: add_extension"]}
{"id": "C160", "title": "hfst-expand-equivalences: the file of extensions", "statement": "A tab-separated file of extensions gives, for every line that is not empty and not a comment, one extension of the first field by each of the others; a file with a line of one field or with an empty field is refused.", "quantifier": "all files without zero bytes", "why_tests_cant": "files are unbounded", "anchors": ["tools/src/hfst-expand-equivalences.cc: process_stream"]}
{"id": "C161", "title": "hfst-expand-equivalences on archives", "statement": "Every transducer of an archive is expanded by the same extensions.", "quantifier": "all archives, all pairs of symbols and all files of extensions", "why_tests_cant": "archives and files are unbounded", "anchors": ["tools/src/hfst-expand-equivalences.cc: process_stream"]}
{"id": "C162", "title": "hfst-repeat repeats as often as asked", "statement": "With options --from=N (0 if omitted) and --to=K (infinity if omitted), which may also be infinity, hfst-repeat gives a transducer that accepts exactly the strings made of at least N and at most K strings of the transducer; arguments in the wrong order and arguments that are not such numbers are refused.", "quantifier": "all transducers of type SFST and all arguments of the two options", "why_tests_cant": "transducers, strings and numbers are unbounded", "anchors": ["tools/src/hfst-repeat.cc: parse_options, process_stream", "tools/src/hfst-commandline.cc: hfst_strtonumber", "libhfst/src/HfstTransducer.cc: repeat_n_to_k, repeat_n_plus, repeat_n_minus"]}
{"id": "C163", "title": "hfst-check-alpha", "statement": "For every two transducers at the same place of two archives, hfst-check-alpha lists exactly the symbols of the transitions, and those of the alphabets, that only one of them has, and says that the one is a superset of the other just when it is. The exit code is 0 just when all have the same symbols.", "quantifier": "all pairs of archives", "why_tests_cant": "archives and transducers are unbounded", "anchors": ["tools/src/hfst-check-alpha.cc: process_stream"]}
{"id": "C164", "title": "hfst-dump-alphabets", "statement": "hfst-dump-alphabets prints in byte order, in the format asked for, a line for each symbol of the alphabet and of the transitions of every transducer, as asked for, and no line twice; in the formats for VISL CG 3 the symbols are those that look like tags.", "quantifier": "all archives, the three formats and the options to leave out one of the alphabets", "why_tests_cant": "archives and transducers are unbounded", "anchors": ["tools/src/hfst-dump-alphabets.cc: process_stream, is_multichar"]}
{"id": "C165", "title": "Labels in options", "statement": "A label given to hfst-substitute or hfst-insert-freely is taken as two symbols just when it has a colon between two characters that is not escaped by a backslash; it is split at the first such colon, and @0@ is epsilon.", "quantifier": "all labels", "why_tests_cant": "labels are unbounded", "anchors": ["tools/src/hfst-insert-freely.cc: label_to_stringpair", "tools/src/hfst-substitute.cc: label_to_stringpair"]}
{"id": "C166", "title": "hfst-insert-freely", "statement": "hfst-insert-freely changes every transducer of an archive so that the symbol or pair given can be read anywhere, any number of times, at no weight; nothing else changes.", "quantifier": "all archives, labels and strings", "why_tests_cant": "archives, transducers and strings are unbounded", "anchors": ["tools/src/hfst-insert-freely.cc: process_stream, parse_options", "libhfst/src/HfstTransducer.cc: insert_freely"]}
{"id": "C167", "title": "Version tests of hfst-info", "statement": "hfst-info succeeds just when the version of the library is at least the one given with --atleast-version, exactly the one given with --exact-version and at most the one given with --max-version; texts that are no version are refused.", "quantifier": "all versions, option texts and build configurations", "why_tests_cant": "versions and texts are unbounded", "anchors": ["tools/src/hfst-info.cc: parse_version_string, parse_options, main"]}
{"id": "C168", "title": "Feature tests of hfst-info", "statement": "hfst-info --require-feature succeeds just when the library was built with the feature; unknown features are refused.", "quantifier": "all feature names and build configurations", "why_tests_cant": "feature names are unbounded and a test sees one build configuration", "anchors": ["tools/src/hfst-info.cc: parse_version_string, parse_options, main"]}
{"id": "C169", "title": "Names of results", "statement": "The result of a tool on one or two transducers is named OPERATION(NAME) or OPERATION(NAME1, NAME2), with UNNAMED for a missing name; a name longer than 1024 bytes is given by its first 1000 bytes, so no name is longer than 1024 bytes; other properties do not change, and naming does not fail.", "quantifier": "all names, operations and properties", "why_tests_cant": "names are unbounded and may hold any character at the cut", "anchors": ["tools/src/hfst-tool-metadata.cc: hfst_set_name, hfst_set_name_maybe_truncate", "libhfst/src/HfstTransducer.cc: set_property, set_name, get_name"]}
{"id": "C170", "title": "hfst-name", "statement": "hfst-name gives every transducer of an archive the name, cut to the length given, and changes nothing else.", "quantifier": "all archives, names and lengths", "why_tests_cant": "archives and names are unbounded", "anchors": ["tools/src/hfst-name.cc: process_stream", "libhfst/src/HfstTransducer.cc: set_property, set_name, get_name"]}
{"id": "C171", "title": "hfst-edit-metadata", "statement": "hfst-edit-metadata gives every transducer of an archive the latest value given for each property and changes nothing else, refuses options without an equals sign, and prints a property of every transducer.", "quantifier": "all archives, option lists and lengths", "why_tests_cant": "archives and options are unbounded", "anchors": ["tools/src/hfst-edit-metadata.cc: parse_options, process_stream", "libhfst/src/HfstTransducer.cc: set_property, set_name, get_name"]}
{"id": "C172", "title": "hfst-split", "statement": "hfst-split writes the i-th transducer of an archive, alone, to the file named by the prefix, the number i and the extension, and touches no other file; the buffer of the name is large enough.", "quantifier": "all archives, prefixes, extensions and file systems", "why_tests_cant": "archives and names are unbounded", "anchors": ["tools/src/hfst-split.cc: process_stream"]}
{"id": "C173", "title": "hfst-multiply", "statement": "hfst-multiply writes every transducer of an archive as often as it is told, in order; it ends, and refuses a number with anything after it.", "quantifier": "all archives and option texts", "why_tests_cant": "archives and numbers are unbounded; the counter wraps around only after 2^32 copies", "anchors": ["tools/src/hfst-multiply.cc: process_stream", "tools/src/hfst-commandline.cc: hfst_strtoul"]}
{"id": "C174", "title": "Formulas of results", "statement": "The formula of the result of a tool is the operation and the formulas of its arguments, with a full stop for a missing one; a formula longer than 1024 bytes is replaced by TRUNC; other properties do not change, and describing a result never fails when its parts are well formed. The formula of a string shows its first character if that is ASCII.", "quantifier": "all formulas, operations, strings and properties", "why_tests_cant": "formulas are unbounded", "anchors": ["tools/src/hfst-tool-metadata.cc: hfst_set_formula, hfst_set_formula_maybe_truncate", "libhfst/src/HfstTransducer.cc: set_property, get_property"]}
{"id": "C175", "title": "PC-KIMMO tables", "statement": "The PC-KIMMO table of a transducer has one column for each pair of symbols, which it names, and one row for each state, which tells whether the state is final and where it goes with each pair (0 for nowhere).", "quantifier": "all transducers", "why_tests_cant": "transducers are unbounded", "anchors": ["libhfst/src/HfstPrintPCKimmo.cc: print_pckimmo", "tools/src/hfst-fst2txt.cc: process_stream"]}
{"id": "C176", "title": "Dot labels are cut between characters", "statement": "A label in the dot format is never cut inside a UTF-8 character: it keeps as many whole characters as fit in 63 bytes.", "quantifier": "all non-empty valid UTF-8 texts, all limits from four bytes, all single transitions", "why_tests_cant": "texts are unbounded", "anchors": ["libhfst/src/HfstPrintDot.cc: trim_to_valid_utf8", "libhfst/src/HfstPrintDot.cc: print_dot"]}
{"id": "C177", "title": "Edges of the dot format", "statement": "The dot format of hfst-fst2txt has one edge for each state and each of its targets, labelled with the transitions between them in order.", "quantifier": "all transducers", "why_tests_cant": "transducers are unbounded", "anchors": ["libhfst/src/HfstPrintDot.cc: print_dot", "tools/src/hfst-fst2txt.cc: process_stream"]}
