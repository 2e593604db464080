{
 "claims": [
  {
   "property": "C01",
   "status": "proved",
   "theorems": [
    "C01_search_only_reachable",
    "C01_agendas_sound"
   ],
   "note": "Every agenda the crate offers is proved sound, so the theorem applies to all of them."
  },
  {
   "property": "C02",
   "status": "proved",
   "theorems": [
    "C02_search_exhaustive",
    "C02_agendas_lossless",
    "C02_bfs_level_order",
    "C02_bfs_fair",
    "C02_dfs_recursive_order"
   ],
   "note": "Termination of the search is the hypothesis of exhaustiveness; the LimitedHeap and BeamHeap agendas are excluded because they drop items."
  },
  {
   "property": "C03",
   "status": "proved",
   "theorems": [
    "C03_weighted_order",
    "C03_weighted_finds",
    "C03_weighted_starves"
   ],
   "note": "C03_weighted_finds and C03_weighted_starves say when a node is found although the search never ends, and when it is not."
  },
  {
   "property": "C04",
   "status": "partial",
   "theorems": [
    "C04_entered_once",
    "C04_uniques_never_repeat",
    "C04_uniques_exhaustive_partial",
    "C04_uniques_tree_partial",
    "C04_uniques_stop_early_refuted"
   ],
   "note": "'Never repeats' is proved for all graphs. 'Never stops early' is false of the code: C04_uniques_stop_early_refuted gives a graph where the iterator ends before a reachable node was returned. The partial theorems say when it does not stop early. C04_entered_once: with any agenda, if no node is entered by two forward edges (edges back to a dominating node allowed), the iterator returns exactly the reachable nodes before its first None."
  },
  {
   "property": "C05",
   "status": "proved",
   "theorems": [
    "C05_drain",
    "C05_limited_heap_capacity",
    "C05_limited_heap_conserves",
    "C05_limited_heap_keeps_best"
   ],
   "note": ""
  },
  {
   "property": "C06",
   "status": "proved",
   "theorems": [
    "C06_drain",
    "C06_beam_heap"
   ],
   "note": ""
  },
  {
   "property": "C07",
   "status": "partial",
   "theorems": [
    "C07_drain",
    "C07_from_vec_drain",
    "C07_unique_heap_partial",
    "C07_from_vec_duplicates_refuted"
   ],
   "note": "Holds for heaps built by new/from_iter/push; false for From<Vec>: C07_from_vec_duplicates_refuted. C07_drain: emptying by pop, and into_sorted_vec, which is given by the contract of BinaryHeap::into_sorted_vec (M_Drain.sorts). C07_from_vec_drain: what From<Vec> does with any vector."
  },
  {
   "property": "C08",
   "status": "proved",
   "theorems": [
    "C08_vecmultimap",
    "C08_adapter"
   ],
   "note": ""
  },
  {
   "property": "C09",
   "status": "proved",
   "theorems": [
    "C09_partition_new",
    "C09_partition_cells",
    "C09_partition_collapse_new"
   ],
   "note": ""
  },
  {
   "property": "C10",
   "status": "proved",
   "theorems": [
    "C10_pushdown_stack",
    "C10_pushdown_conversions",
    "C10_pushdown_integerise"
   ],
   "note": ""
  },
  {
   "property": "C11",
   "status": "proved",
   "theorems": [
    "C11_recognise_sound",
    "C11_recognise_beam_sound"
   ],
   "note": "Stated for any automaton with any storage type, and again for the concrete automata in C14/C16/C18."
  },
  {
   "property": "C12",
   "status": "proved",
   "theorems": [
    "C12_beam_search",
    "C12_narrow_beam_refuted",
    "C12_recognise_complete",
    "C12_recognise_ends",
    "C12_recognise_finds"
   ],
   "note": "Assumes transition weights at most one for the order. 'Exhaustive' is conditional on the search having ended; C12_recognise_ends says when it does. C12_beam_search: recognise_beam_search also returns each run once and in order, ends under the same condition, and is exhaustive if the beam has room for all runs on prefixes of the word (C12_narrow_beam_refuted: a narrower beam can reject a word of the language)."
  },
  {
   "property": "C13",
   "status": "proved",
   "theorems": [
    "C13_check_run",
    "C13_check_run_accepts_recognised"
   ],
   "note": ""
  },
  {
   "property": "C14",
   "status": "proved",
   "theorems": [
    "C14_fsa_recognise",
    "C14_fsa_recognise_beam",
    "C14_fsa_reads_back",
    "C14_pda_recognise",
    "C14_pda_recognise_beam",
    "C14_pda_new_defined",
    "C14_pda_empty_stack_panics_refuted",
    "C14_fsa_beam_search",
    "C14_tsa_beam_search",
    "C14_pda_beam_search",
    "C14_fsa_finds",
    "C14_pda_finds",
    "C14_tsa_finds",
    "C14_tsa_recognise",
    "C14_tsa_recognise_beam",
    "C14_tsa_reads_back"
   ],
   "note": "Recognition with the integerised automaton is related to the accepting runs over the original symbols (specification S_Recog.enum_*), including panics: finite state automata never panic, pushdown automata panic at construction precisely on instructions that pop nothing and at recognition only if a run empties the stack (C14_pda_empty_stack_panics_refuted shows that this happens). Tree stack automata never panic (C14_tsa_*). C14_fsa_beam_search, C14_pda_beam_search, C14_tsa_beam_search say the same for beam search. C14_fsa_finds, C14_pda_finds, C14_tsa_finds: if no weight exceeds one and all long runs are lighter than an accepting run, this run is returned after finitely many calls, whether or not the search ends."
  },
  {
   "property": "C15",
   "status": "proved",
   "theorems": [
    "C15_replace"
   ],
   "note": ""
  },
  {
   "property": "C16",
   "status": "proved",
   "theorems": [
    "C16_cfg_pda_language",
    "C16_cfg_pda_derivations",
    "C16_cfg_ends",
    "C16_left_recursion_never_ends",
    "C16_cfg_pda_beam",
    "C16_left_recursion_finds",
    "C16_repeated_rules"
   ],
   "note": "Language for all grammars; one-to-one correspondence with leftmost derivations if no two rules coincide up to weight. Without left recursion every search ends (with and without a beam) and decides the language; with reachable left recursion the exhaustive search never ends (C16_left_recursion_never_ends). With a beam: derivations only, each once, sorted, all of them if the beam is wide enough. C16_repeated_rules: the automaton of a grammar with repeated rules is exactly that of the grammar with these rules joined and their weights added, so the correspondence holds for the joined grammar. C16_left_recursion_finds: if no weight exceeds one and products of many rule weights fall below the weight of a derivation, the search returns this derivation after finitely many calls, left recursion or not."
  },
  {
   "property": "C17",
   "status": "proved",
   "theorems": [
    "C17_zipper",
    "C17_inverse",
    "C17_derived",
    "C17_to_tree",
    "C17_instructions"
   ],
   "note": "For every tree stack built with the public functions: C17_zipper (new/set/push/up/down as moves of a pointer in a finite tree, no panics), C17_inverse (down undoes up and push, up undoes down), C17_derived (push_next, ups, all, map), C17_to_tree, C17_instructions."
  },
  {
   "property": "C18",
   "status": "partial",
   "theorems": [
    "C18_recognise_beam_partial",
    "C18_left_recursion_finds",
    "C18_runs_partial",
    "C18_language_partial",
    "C18_recognise_partial",
    "C18_recognise_ends_partial",
    "C18_empty_word_accepted",
    "C18_empty_word_refuted",
    "C18_trailing_terminals_refuted",
    "C18_undefined_nonterminal_refuted",
    "C18_unordered_refuted",
    "C18_copying_refuted",
    "C18_deleting_refuted",
    "C18_left_recursion_never_ends",
    "C18_left_recursion_refuted",
    "C18_conversion_defined"
   ],
   "note": "For every PMCFG in which each variable occurs exactly once, the components of a successor are used in increasing order and every successor has a rule: C18_runs_partial (no panic; accepting runs other than the empty one are the derivations, one run each, same weight, the storage shows the derivation; the word read is that of the derivation after shortening the terminals at the end of components), C18_language_partial (with at most one terminal at the end of components: accepted words are the empty word and the derived words), C18_recognise_partial (recognise enumerates the derivations best first, each of them once if no rule is listed twice), C18_recognise_ends_partial (without left recursion runs are bounded and the enumeration ends, for every word), C18_recognise_beam_partial (the same with a beam, where derivations may be missing unless the beam has room for all partial runs). All but C18_runs_partial hold for rounded weights too. Missing parts are false: C18_empty_word_refuted, C18_trailing_terminals_refuted, C18_undefined_nonterminal_refuted, C18_unordered_refuted, C18_copying_refuted, C18_deleting_refuted, C18_left_recursion_refuted (with left recursion the search for an underivable word never ends; C18_left_recursion_never_ends says so for every left-recursive initial rule and every word of known symbols). C18_left_recursion_finds: with left recursion and weights that fade, every derivation is still found after finitely many calls. C18_conversion_defined: the conversion panics exactly if a rule of an initial nonterminal has no component, a successor has no rule, or a variable stands for a component that some rule of the successor does not have."
  },
  {
   "property": "C19",
   "status": "proved",
   "theorems": [
    "C19_relabel",
    "C19_tts",
    "C19_tts_storage"
   ],
   "note": "C19_relabel (pushdown automata, any relabelling) and C19_tts (tree stack automata whose initial tree stack is built with the public functions): approximation does not panic, every run has an image run of the approximated automaton on the same word ending in the mapped storage, accepting stays accepting. C19_tts also: the approximated recogniser never panics."
  },
  {
   "property": "C20",
   "status": "partial",
   "theorems": [
    "C20_relabel_partial",
    "C20_tts_partial",
    "C20_second_coarse_parse_refuted",
    "C20_merged_refuted",
    "C20_relabel_panics_refuted"
   ],
   "note": "Proved for both strategies: what the iterator yields are accepting fine runs on the word, in order of weight, namely exactly those whose image (weights included) is the first coarse parse; if nothing was merged, all fine runs of the first coarse parse; no coarse parse implies no fine parse. Refuted in full: C20_second_coarse_parse_refuted (fine runs of the second coarse parse are never yielded although it is enumerated), C20_merged_refuted (merged transitions are mapped back to nothing), C20_relabel_panics_refuted."
  },
  {
   "property": "C21",
   "status": "partial",
   "theorems": [
    "C21_new_safe",
    "C21_from",
    "C21_from_overlap_refuted",
    "C21_from_str",
    "C21_from_str_any",
    "C21_from_str_repeated_label_refuted"
   ],
   "note": "C21_new_safe proves the claim for new/new_safe, C21_from_str for files with distinct labels and C21_from_str_any for all lines (the last default and the last line of a label count; it fails exactly if there is no default, the default labels a class too or classes overlap); C21_from says what From<Vec> does. Refuted for the other constructors: C21_from_overlap_refuted (overlaps are accepted), C21_from_str_repeated_label_refuted (a repeated label drops members)."
  },
  {
   "property": "C22",
   "status": "proved",
   "theorems": [
    "C22_dyck"
   ],
   "note": ""
  },
  {
   "property": "C23",
   "status": "proved",
   "theorems": [
    "C23_recognize",
    "C23_recognize_sorted",
    "C23_recognize_unique",
    "C23_never_panics",
    "C23_equivalence_refuted"
   ],
   "note": "For every partition and word, recognize ends and returns whether the word cancels to the empty word (multiple_dyck); the same for the sorted variant (sorted_multiple_dyck). No instruction panics. C23_equivalence_refuted: if the language is instead defined as the class of the empty word under the equivalence generated by the cancellations, the recogniser rejects a member."
  },
  {
   "property": "C24",
   "status": "proved",
   "theorems": [
    "C24_index",
    "C24_index_with_state",
    "C24_chart",
    "C24_outside_table"
   ],
   "note": "C24_index / C24_index_with_state: cells one-to-one and in range; C24_chart: the chart is a map with at most beam entries per span; C24_outside_table: the table of outside estimates is a map from (state, span)."
  },
  {
   "property": "C25",
   "status": "proved",
   "theorems": [
    "C25_chart_is_sound",
    "C25_chart_is_optimal",
    "C25_grammar"
   ],
   "note": "All words up to 255 tokens, all beams 1..65535, thresholds, filters and estimates for soundness; with room for all states and no threshold the entry is the maximum and is present exactly if a derivation exists. Rule weights are assumed positive and at most one. Heap tie-breaks are those of any heap satisfying the max_heap contract."
  },
  {
   "property": "C26",
   "status": "partial",
   "theorems": [
    "C26_contexts",
    "C26_inside_partial",
    "C26_outside",
    "C26_needed_constituents_are_kept",
    "C26_best_weight_is_kept",
    "C26_width_255_refuted",
    "C26_inside_maximal_refuted"
   ],
   "note": "Outside part proved for all widths up to 254 (C26_outside, C26_needed_constituents_are_kept, C26_best_weight_is_kept). Refuted: width 255 (C26_width_255_refuted, always panics) and exactness of the inside weight (C26_inside_maximal_refuted); C26_inside_partial proves the support is exact and the value an upper bound."
  },
  {
   "property": "C27",
   "status": "partial",
   "theorems": [
    "C27_mask_exact",
    "C27_needed_rules_are_enabled",
    "C27_accepted_grammars",
    "C27_needed_rules_refuted"
   ],
   "note": "C27_mask_exact (the enabled rules are exactly the reachable and productive ones, numbered as in the approximation) and C27_needed_rules_are_enabled (every rule of a derivation of the word) are proved for all grammars in normal form in which every rule has a component; C27_accepted_grammars shows that all grammars accepted by Lcfrs::new and in_normal_form meet these hypotheses if no rule has an empty composition. Refuted without that: C27_needed_rules_refuted (a nonterminal of fanout 0 is accepted, but the mask disables the rules that use it)."
  },
  {
   "property": "C28",
   "status": "partial",
   "theorems": [
    "C28_parser_partial",
    "C28_default_settings_partial",
    "C28_settings",
    "C28_debug_partial",
    "C28_tokens_refuted",
    "C28_root_refuted",
    "C28_chains_refuted",
    "C28_duplicates_refuted",
    "C28_near_words",
    "C28_sound_with_chains",
    "C28_shared_tokens_refuted",
    "C28_nothing_lost",
    "C28_debug_answers"
   ],
   "note": "Proved for grammars accepted by Lcfrs::new in normal form with at most 256 successors and components, nonzero weights at most one, no chain cycles (chain_free), nonterminals with terminal rules that derive one token only (tokens_apart, root_token), words of at most 255 tokens: soundness, order, each tree once if no rule is listed twice (C28_duplicates_refuted shows that this is needed), candidates (how many trees are among the first c), completeness without pruning, and debug. The unrestricted statement is false: C28_tokens_refuted (the first tree for a word derives another word), C28_root_refuted, C28_chains_refuted (the parser never returns). What holds without these conditions: C28_near_words, for every accepted grammar, all settings and any fuel every tree that is returned is a derivation of the grammar for a word that is the sentence up to tokens one nonterminal derives besides each other, likewise for the fallback and debug; C28_sound_with_chains, with tokens apart but cycles of chains allowed every tree returned is a derivation of the sentence. C28_nothing_lost: for grammars without chain cycles, whatever the tokens and the settings, the parser always answers, with a fixed finite list of derivations of such near words that candidates cut off, and without pruning every derivation of the sentence is in it; C28_debug_answers: the same for debug. So only the order and the uniqueness need the token conditions. C28_shared_tokens_refuted: without tokens_apart the order is wrong and a tree comes twice."
  },
  {
   "property": "C29",
   "status": "partial",
   "theorems": [
    "C29_covers_every_derivation",
    "C29_reads_only_derivations",
    "C29_covers_refuted",
    "C29_covers_wide_refuted"
   ],
   "note": "C29_covers_every_derivation and C29_reads_only_derivations (toderiv never panics and reads only derivations of the word, with equal weight) are proved for every grammar accepted by Lcfrs::new and in_normal_form whose rules have a component and at most 256 successors. Refuted without these two: C29_covers_refuted (a successor of fanout 0 is missing from the tree) and C29_covers_wide_refuted (257 successors: numbers are truncated to eight bits and the derivation is lost)."
  },
  {
   "property": "C30",
   "status": "proved",
   "theorems": [
    "C30_fallback",
    "C30_fallback_of_parser",
    "C30_every_tree",
    "C30_cut"
   ],
   "note": "For every grammar accepted by Lcfrs::new in normal form with at most 256 successors and components (the limits the code documents) and every bracket word of its approximation; C30_fallback_of_parser ties it to what with_fallback returns, under the conditions of C28. C28_near_words covers the fallback for all accepted grammars. C30_cut: the closing brackets at the end of the word may be missing or too many, the tree is the same. C30_every_tree: the bracket words of the approximation are exactly those of its derivation trees."
  },
  {
   "property": "C31",
   "status": "partial",
   "theorems": [
    "C31_new_partial",
    "C31_new_refuted",
    "C31_panics"
   ],
   "note": "C31_new_partial characterises acceptance exactly. In full false: C31_new_refuted (rejects an LCFRS whose last successor has fanout 0; panics if a successor has no rule). C31_panics: exactly when Lcfrs::new panics (the first rule that does not pass the check has a successor without rules); with C31_new_partial this settles for every list of rules which of the three outcomes occurs."
  },
  {
   "property": "C32",
   "status": "proved",
   "theorems": [
    "C32_from_pmcfg",
    "C32_same_language",
    "C32_into_pmcfg"
   ],
   "note": "C32_into_pmcfg: the way back (From<Mcfg> for PMCFG) keeps the language and inverts from_pmcfg."
  },
  {
   "property": "C33",
   "status": "partial",
   "theorems": [
    "C33_used_once",
    "C33_nondeleting",
    "C33_terminates",
    "C33_defined",
    "C33_is_lcfrs",
    "C33_sound",
    "C33_complete_partial",
    "C33_language_refuted"
   ],
   "note": "Proved: termination, no panic when successors have rules, output is linear and non-deleting, soundness. Completeness holds when the search has returned every reachable pair (C33_complete_partial); in general false: C33_language_refuted (the search stops at the first repeated nonterminal and rules are lost; undefined successors panic). Conditions on the grammar alone under which the language is kept, with the same weights: C33_used_once (no nonterminal occurs twice on right-hand sides; deletions allowed) and C33_nondeleting (no deletions, no nonterminal entered by two forward edges; recursion allowed)."
  },
  {
   "property": "C34",
   "status": "partial",
   "theorems": [
    "C34_no_word_lost",
    "C34_words_kept",
    "C34_panics",
    "C34_language_partial",
    "C34_language_refuted"
   ],
   "note": "C34_panics: panics exactly on rules that are not fanout 1 or refer to missing successors. Language preserved when every successor is used exactly once (C34_language_partial); in general false: C34_language_refuted (copying and deleting rules). C34_no_word_lost: for all rules the conversion accepts, copying and deleting ones included, no word is lost; C34_words_kept: without copying and with productive successors exactly the same words are derived (their weights lack those of deleted parts)."
  },
  {
   "property": "C35",
   "status": "proved",
   "theorems": [
    "C35_evaluate",
    "C35_yield_defined"
   ],
   "note": ""
  },
  {
   "property": "C36",
   "status": "partial",
   "theorems": [
    "C36_yield",
    "C36_old_nodes",
    "C36_criteria",
    "C36_normal_form_partial",
    "C36_terminates",
    "C36_normal_form_refuted",
    "C36_terminates_refuted"
   ],
   "note": "Yield and tree shape are preserved (C36_yield, C36_old_nodes) and meets_negra_criteria decides the normal form (C36_criteria). The normal form is reached exactly when no rule is one terminal followed by variables (C36_normal_form_partial); C36_normal_form_refuted gives the witness. Termination for non-empty terminals (C36_terminates); C36_terminates_refuted is an endless loop for an empty terminal."
  },
  {
   "property": "C37",
   "status": "proved",
   "theorems": [
    "C37_export",
    "C37_words",
    "C37_panics"
   ],
   "note": "C37_export (words in order, distinct numbers, parent numbers), C37_words (they spell the yield), C37_panics (the exact panics: not in normal form, undefined yield, a word at the root, too few given words). The text of the lines is the subject of C43."
  },
  {
   "property": "C38",
   "status": "partial",
   "theorems": [
    "C38_discodop_partial",
    "C38_normalised",
    "C38_default_lexer",
    "C38_rparse_partial",
    "C38_wide_refuted",
    "C38_truncated_refuted",
    "C38_rparse_refuted"
   ],
   "note": "C38_discodop_partial: disco-dop files whose components have at most 64 variables are read completely, one variable per bit numbered left to right, weights divided by the total of the left-hand side; C38_normalised: over exact fractions the weights of every left-hand side sum to one unless their total is zero; C38_default_lexer: the default lexicon has exactly the nonterminals that are only on right-hand sides; C38_rparse_partial: rparse files are read completely, one variable per truth value. Missing parts are false: C38_wide_refuted (65 variables and more), C38_truncated_refuted (malformed lines drop the rest silently), C38_rparse_refuted (no normalisation for rparse)."
  },
  {
   "property": "C39",
   "status": "partial",
   "theorems": [
    "C39_cfg_rule_syntax",
    "C39_pmcfg_rule_syntax",
    "C39_grammar_syntax",
    "C39_token",
    "C39_cfg_round_trip_partial",
    "C39_pmcfg_round_trip_partial",
    "C39_grammar_round_trip_partial",
    "C39_lcfrs_round_trip_partial",
    "C39_quotes_refuted",
    "C39_newline_refuted",
    "C39_lcfrs_initial_refuted",
    "C39_numbers",
    "C39_panic_refuted",
    "C39_bare_token_refuted",
    "C39_weight_panics",
    "C39_cfg_weight_error"
   ],
   "note": "C39_cfg_round_trip_partial, C39_pmcfg_round_trip_partial: for rules whose symbols are well escaped and whose weight text has no blanks (and indices below 2^64), parsing the displayed rule gives the rule back; C39_grammar_round_trip_partial: the same for PMCFGs without line breaks in symbols. C39_lcfrs_round_trip_partial: LCFRS whose initial nonterminal is a bare token. C39_token: exact condition for one symbol. Beyond the claim: C39_cfg_rule_syntax, C39_pmcfg_rule_syntax, C39_grammar_syntax (every text of the documented syntax is read as what it means). C39_weight_panics: a PMCFG rule whose weight text is missing or is not a weight makes the parser panic; C39_cfg_weight_error: such a CFG rule is an error. Missing parts are false: C39_quotes_refuted, C39_newline_refuted, C39_lcfrs_initial_refuted, C39_panic_refuted, C39_bare_token_refuted."
  },
  {
   "property": "C40",
   "status": "partial",
   "theorems": [
    "C40_fsa_language",
    "C40_from_transitions_accepts_nothing",
    "C40_epsilon_loop_starves_refuted",
    "C40_fsa_ends_exactly",
    "C40_fsa_finds"
   ],
   "note": "Soundness for all automata. C40_fsa_ends_exactly: the search ends exactly if the word has a foreign symbol or no state reached with a part of it lies on a loop of empty transitions, and then it has returned exactly the accepting paths. C40_fsa_finds: with loops, a path is still found if no weight exceeds one and products of many weights of empty transitions fall below its weight. In general false: C40_epsilon_loop_starves_refuted (a weight-one empty loop keeps the search from ever finding an existing path)."
  },
  {
   "property": "C41",
   "status": "partial",
   "theorems": [
    "C41_relabel_map_back_partial",
    "C41_tts_map_back_partial",
    "C41_map_back_merged_refuted",
    "C41_pda_merges"
   ],
   "note": "C41_pda_merges: the automaton's transitions are exactly the distinct (word, instruction) pairs of the input, each weighted with the sum of the weights given for it. Mapping back: C41_relabel_map_back_partial and C41_tts_map_back_partial (exactly the originals with the same word, weight and mapped instruction; all of them if nothing was merged). Refuted for merged transitions: C41_map_back_merged_refuted."
  },
  {
   "property": "C42",
   "status": "partial",
   "theorems": [
    "C42_transition_syntax",
    "C42_fsa_syntax",
    "C42_tsa_syntax",
    "C42_ts_transition_round_trip",
    "C42_tsa_round_trip_partial",
    "C42_tsa_round_trip_zero",
    "C42_fsa_round_trip_refuted",
    "C42_fsa_states_refuted",
    "C42_tsa_initial_refuted",
    "C42_malformed_refuted"
   ],
   "note": "C42_transition_syntax, C42_fsa_syntax, C42_tsa_syntax: every text of the format is read as exactly the transitions, the last initial state and the last list of final states it declares. C42_ts_transition_round_trip: displayed transitions of tree stack automata are read back. C42_tsa_round_trip_partial: so is a displayed tree stack automaton, except that its initial symbol is replaced by its number (complete if labels are numbers and the initial one is 0: C42_tsa_round_trip_zero). The rest is false: C42_fsa_round_trip_refuted (the text of every finite state automaton with a transition is rejected), C42_fsa_states_refuted, C42_tsa_initial_refuted, C42_malformed_refuted."
  },
  {
   "property": "C43",
   "status": "partial",
   "theorems": [
    "C43_commands_partial",
    "C43_table",
    "C43_malformed",
    "C43_root_token_refuted",
    "C43_shared_tokens"
   ],
   "note": "C43_commands_partial: extract reads any text of the documented grammar syntax, and parse prints for every line exactly one answer: the k best derivations in the export format, else a fallback built from components of rules (if wanted), else the NOPARSE block; complete when nothing is pruned. Conditions: those of C28 and no rule that turns the initial nonterminal into a token. C43_table: every answer is a list of five-column tables, and ids and columns can be read back from the text. C43_malformed: lines that stand for no sentence make the command panic. C43_shared_tokens: without the condition on tokens the command still prints one answer per line without panicking, trees are derivations of words near the sentence (S_Loose), and without pruning no derivation of the sentence is missing among the candidates. The rest is false: C43_root_token_refuted."
  },
  {
   "property": "C44",
   "status": "partial",
   "theorems": [
    "C44_left_recursion_ends",
    "C44_mcfg_parse_partial",
    "C44_empty_line_refuted",
    "C44_left_recursion_refuted"
   ],
   "note": "C44_mcfg_parse_partial: for grammar texts of the documented syntax with ordered variables, at most one terminal at the end of components and (for the export format) rules of variables or one terminal without tokens at the root, and nonempty sentences, the command never panics and, once it ends, has printed for every line the n best derivations (all if there are fewer, each once) and an empty line; with a beam, at most n derivations, each once and in order. Without left recursion it ends, with or without a beam. The weight of a derivation is the product in the order in which the rules are entered, so rounding is covered (see C55_mcfg_parse for doubles). Display of a configuration is a parameter here (see C54); the configuration printed has nothing left to read and its storage holds the derivation. The rest is false: C44_empty_line_refuted (an empty line panics with --negra for every grammar), C44_left_recursion_refuted (never ends). C44_left_recursion_ends: with left recursion and weights that fade the command ends if, and under stated conditions only if, every sentence has at least n derivations or a token that no rule mentions."
  },
  {
   "property": "C45",
   "status": "partial",
   "theorems": [
    "C45_cfg_parse_partial",
    "C45_repeated_rule_refuted",
    "C45_left_recursion_refuted",
    "C45_left_recursion_ends",
    "C45_repeated_rules"
   ],
   "note": "Never panics; for grammars without rules that coincide up to weight prints the best n derivations in order; ends without left recursion. C45_repeated_rules: with repeated rules it prints the same for the grammar in which they are joined and their weights added. C45_left_recursion_ends: without a beam and with weights that fade the command ends if every sentence has at least n derivations or a token that no rule mentions; with reachable left recursion it ends only then. In full the property is false: repeated rules are merged (C45_repeated_rule_refuted), left recursion keeps the command from ending (C45_left_recursion_refuted)."
  },
  {
   "property": "C46",
   "status": "partial",
   "theorems": [
    "C46_tsa_recognise_partial",
    "C46_coarse_to_fine_refuted",
    "C46_printed_automaton_refuted"
   ],
   "note": "Never panics on texts of the documented syntax and numeric options; prints at most n different accepting runs per sentence, better ones first, the best n without a beam; ends if partial runs are bounded. In full the property is false: the option coarse-to-fine has no effect (C46_coarse_to_fine_refuted), and the automata printed by mcfg automaton make the command panic (C46_printed_automaton_refuted)."
  },
  {
   "property": "C47",
   "status": "partial",
   "theorems": [
    "C47_relabelled_language",
    "C47_relabel_parse_partial",
    "C47_tts_parse_partial",
    "C47_coarse_left_recursion_refuted",
    "C47_subcommands",
    "C47_topk_refuted"
   ],
   "note": "relabel parse and tts parse never panic on files of the documented syntax, print one answer per line as specified, lose no sentence, and end if the coarse grammar (relabel) or the given grammar (tts) has no left recursion. In full the property is false: the coarse grammar can be left-recursive when the given one is not, and the search then never ends (C47_coarse_left_recursion_refuted), and topk prints nothing (C47_topk_refuted). C47_subcommands: which subcommand does what."
  },
  {
   "property": "C48",
   "status": "partial",
   "theorems": [
    "C48_relabel_stack_partial",
    "C48_tts_stack_partial",
    "C48_lost_refuted"
   ],
   "note": "For any number of strategies: only runs of the fine automaton on the word are returned, each once, all of one weight, and best ones if adding weights dominates and no transition of the coarsest automaton weighs more than one; they are exactly the preimages of the first answer one level below; the iterator answers every call once the coarsest search has an answer or an end; if the coarsest automaton rejects, nothing is returned and there is no run. False in full: the answer can be empty although there is a run (C48_lost_refuted)."
  },
  {
   "property": "C49",
   "status": "proved",
   "theorems": [
    "C49_mcfg_automaton",
    "C49_incomplete_grammars",
    "C49_cfg_automaton",
    "C49_relabel_automaton",
    "C49_tts_automaton",
    "C49_same_text_refuted"
   ],
   "note": "For every file of the documented syntax. C49_mcfg_automaton and C49_incomplete_grammars: the commands that convert a multiple context-free grammar panic exactly if the grammar is incomplete (complete_grammar, see C18_conversion_defined); mcfg automaton prints one line for each transition. C49_same_text_refuted records that the printed text is ambiguous: nonterminals and terminals of one name look alike."
  },
  {
   "property": "C50",
   "status": "partial",
   "theorems": [
    "C50_tags",
    "C50_lexicon_partial",
    "C50_no_root",
    "C50_no_error",
    "C50_words_refuted",
    "C50_any_lexicon"
   ],
   "note": "C50_tags: disco-dop grammars without lexicon (parsing of tag sequences), every answer of csparsing parse is one of S_Command for the normalised rules and A -> A for the preterminals. C50_lexicon_partial: the same with a lexicon in which parts of speech have one word each and the root none. C50_no_root: if ROOT is mentioned nowhere, extract panics. C50_no_error: no lexicon is refused, and the lines after the first empty or single-field line are ignored in both files. C50_any_lexicon: with any lexicon without words for the root the answers are those of S_LooseCommand (nothing lost, trees of near words possible, no order). The rest is false: C50_words_refuted (two words of one part of speech: the tree for one sentence is printed with words of another)."
  },
  {
   "property": "C51",
   "status": "proved",
   "theorems": [
    "C51_history",
    "C51_determined",
    "C51_equality",
    "C51_append_split_off"
   ],
   "note": "C51_history: for every history, results, contents and order of iteration are those of the specification, which C51_determined shows to leave no choice. C51_equality, C51_append_split_off."
  },
  {
   "property": "C52",
   "status": "partial",
   "theorems": [
    "C52_total_orders",
    "C52_greater",
    "C52_heap_order",
    "C52_equality",
    "C52_equal_compares_equal_refuted",
    "C52_partial_order_refuted"
   ],
   "note": "C52_total_orders, C52_greater, C52_heap_order, C52_equality prove everything except that equal values compare as Equal, which is false: C52_equal_compares_equal_refuted (weights differ). C52_partial_order_refuted: with incomparable weights partial_cmp is not transitive."
  },
  {
   "property": "C53",
   "status": "proved",
   "theorems": [
    "C53_reversed_order",
    "C53_heap_drains_ascending",
    "C53_passed_on"
   ],
   "note": "C53_reversed_order, C53_heap_drains_ascending, C53_passed_on. Operations, parser, printer and factorisation of the value inside are arbitrary functions."
  },
  {
   "property": "C54",
   "status": "partial",
   "theorems": [
    "C54_printed_tree_partial",
    "C54_tree_readable",
    "C54_empty_line_refuted",
    "C54_configuration_text",
    "C54_relabelled"
   ],
   "note": "C54_printed_tree_partial: under the conditions of C44 without the export format, the text printed for a derivation is given line by line (weight, then the rules in preorder, indented by depth). C54_tree_readable: different derivations have different texts if the texts of their rules can be read back and have no line break. C54_empty_line_refuted: the full claim is false for empty lines, where for every grammar the first thing printed is the initial configuration, which is no derivation. C54_configuration_text: Display of any configuration and of any pushdown, and that the symbols left to read can be told apart. C54_relabelled: renaming what the nodes hold changes their text and the derivation by the renaming and nothing else."
  },
  {
   "property": "C55",
   "status": "proved",
   "theorems": [
    "C55_doubles",
    "C55_order_matters_refuted",
    "C55_rounding_error",
    "C55_mcfg_parse",
    "C55_factorize",
    "C55_factorize_refuted",
    "C55_cfg_parse",
    "C55_runs",
    "C55_read_weight"
   ],
   "note": "C55_doubles: the product, the order and the laws of logarithms of probabilities in IEEE double precision (Flocq); all laws of weights but associativity hold. C55_order_matters_refuted: associativity fails, so the order of multiplication matters. The theorems of C12-C16, C18, C40, C44-C47, C49 and C54 are stated for all weights with these laws and thus hold for doubles; C55_runs and C55_read_weight say in which order the weights of the rules of a derivation are multiplied. C55_rounding_error: the computed weight is within a relative error of 2^-53 per factor of the exact one, or zero because of underflow of the probability. C55_mcfg_parse: mcfg parse with doubles prints the derivations best first by computed weight, and so by exact weight up to this error. C55_cfg_parse: the same for cfg parse. C55_factorize: the factors of a rule weight used by csparsing are equal and multiply to the weight up to a relative error of 2^-53 for each of them and two more; C55_factorize_refuted: not exactly."
  },
  {
   "property": "C56",
   "status": "partial",
   "theorems": [
    "C56_text",
    "C56_mcfg_parse",
    "C56_cfg_parse",
    "C56_other_commands",
    "C56_panics_partial",
    "C56_unknown",
    "C56_input_not_text_refuted",
    "C56_grammar_not_text_refuted",
    "C56_csparsing_extract",
    "C56_csparsing_parse",
    "C56_csparsing_reports"
   ],
   "note": "C56_mcfg_parse, C56_cfg_parse, C56_other_commands, C56_csparsing_extract, C56_csparsing_parse: each subcommand equals the modelled command on the text of the named files, the standard input and the values of the options (clap's result, gzip and bincode are parameters; csparsing parse only needs that unzipping and deserialising undo what extract did). C56_text: reading succeeds exactly on well-formed UTF-8 (RFC 3629). C56_panics_partial: missing files and malformed numbers panic (the beam width only if there is a sentence). C56_csparsing_reports: csparsing panics on whatever it cannot read. C56_unknown: other subcommands do nothing. The rest is false: C56_input_not_text_refuted (a standard input that is not UTF-8 counts as empty), C56_grammar_not_text_refuted (a grammar file that is not UTF-8 counts as a grammar without rules, every sentence is answered by a blank line)."
  },
  {
   "property": "C57",
   "status": "partial",
   "theorems": [
    "C57_characters",
    "C57_lines",
    "C57_sentences",
    "C57_input",
    "C57_words",
    "C57_trim_partial",
    "C57_starts",
    "C57_trim_exactly",
    "C57_words_exactly"
   ],
   "note": "C57_characters, C57_lines, C57_starts, C57_sentences, C57_words, C57_input: decoding UTF-8 is unique, and the lines, line starts, words and sentences that the model makes of bytes are those of the characters, for every text; white space outside ASCII in the standard input is known (plain_white). C57_trim_partial: so are trimmed lines of grammar and automaton files, if they contain no white space outside ASCII (17 characters, e.g. the no-break space): the model of trim does not know it, nor does the model of approximation parse, which prints the line itself. The words of the instructions in automaton files and the symbols of disco-dop and rparse grammars are cut at ASCII white space too. That is what is missing. C57_trim_exactly and C57_words_exactly say exactly where the model differs from the code: trim for lines that have white space outside ASCII at an edge (only ASCII white space before or behind it), split_whitespace for texts that contain such white space."
  },
  {
   "property": "C58",
   "status": "partial",
   "theorems": [
    "C58_command_lines",
    "C58_other_lines",
    "C58_ctf_refuted",
    "C58_nothing_missing",
    "C58_mcfg_parse",
    "C58_cfg_parse",
    "C58_csparsing_parse",
    "C58_csparsing_extract",
    "C58_incomplete"
   ],
   "note": "C58_command_lines: for each of the thirteen subcommands, the words behind its names are accepted if and only if they are written according to S_Clap (the help texts) and nothing is given twice, missing or excluded; then the command gets exactly the given values and the defaults of the others. C58_other_lines: no other command line is accepted, except those that end before a subcommand, for which C58_incomplete shows that nothing is printed. C58_nothing_missing: required arguments and options with defaults always have a value. C58_mcfg_parse, C58_cfg_parse, C58_csparsing_extract, C58_csparsing_parse: whole commands from the words of the command line to what is printed (through C56). The reader of command lines is the crate clap, modelled after its documentation; the declarations are those of the code. False: C58_ctf_refuted, the option declared with the short name ctf of tsa recognise is refused when it is written -ctf."
  },
  {
   "property": "C59",
   "status": "proved",
   "theorems": [
    "C59_renaming",
    "C59_composes"
   ],
   "note": "C59_renaming, both directions; C59_composes. C59_ex has a renaming that joins two nonterminals and adds a word, so the condition of the second part is needed."
  },
  {
   "property": "C60",
   "status": "proved",
   "theorems": [
    "C60_is_consistent",
    "C60_toderiv",
    "C60_toderiv_panics",
    "C60_derivations",
    "C60_trees"
   ],
   "note": "C60_is_consistent and C60_toderiv. The recursion is given fuel, the height of the tree plus one, and is shown never to run out of it. C60_derivations: for accepted grammars, the trees that pass are the derivations. C60_toderiv_panics: with numbers of rules that do not exist, toderiv panics exactly on the trees that pass. C60_trees: the same for every derivation tree of the approximation."
  }
 ]
}