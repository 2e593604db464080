{"id": "C01", "title": "Graph search returns only reachable nodes", "statement": "Every node returned by iterating a Search (depth-first, breadth-first, weighted or with a user-supplied agenda) is one of the initial nodes or is reachable from one by repeatedly applying the successor function.", "quantifier": "all item types, initial node lists, successor functions, agenda disciplines (including every tie-breaking order of a heap) and numbers of next() calls", "why_tests_cant": "the graph and the agenda order are arbitrary; a test samples one graph and one tie-break", "anchors": ["search/src/search.rs: Search::next, dfs, bfs, weighted, with_agenda"]}
{"id": "C02", "title": "Graph search is exhaustive when it ends", "statement": "If iterating a Search over an agenda that never drops items ends (next() returns None), the nodes returned are exactly the paths from the initial nodes, each once: nothing reachable was missed. Breadth-first search additionally returns every node reachable in d steps after finitely many calls and orders nodes by distance.", "quantifier": "all graphs, all agenda disciplines, all histories of next()", "why_tests_cant": "requires all graphs, including infinite ones for breadth-first search", "anchors": ["search/src/search.rs: Search::next, Search::bfs, Search::dfs"]}
{"id": "C03", "title": "Weighted search enumerates by non-increasing weight", "statement": "If no successor weighs more than its parent, Search::weighted returns nodes in non-increasing weight order, and when it has returned a node, every reachable path-node of strictly larger weight (along which weights never increase) was returned before.", "quantifier": "all graphs with monotone weights, all heap tie-breaking orders, all prefixes of the enumeration", "why_tests_cant": "tie-breaking and graph shape are unbounded", "anchors": ["search/src/search.rs: Search::weighted", "search/src/agenda/binary_heap.rs: weighted::BinaryHeap"]}
{"id": "C04", "title": "uniques() never repeats and never stops early", "statement": "Search::uniques() returns no node twice, and when it ends every reachable node has been returned.", "quantifier": "all graphs and agendas", "why_tests_cant": "needs graphs where a node is enqueued twice before it is first expanded; all histories", "anchors": ["search/src/search.rs: unique::Search::next"]}
{"id": "C05", "title": "Bounded heap keeps exactly the best items", "statement": "A LimitedHeap of capacity c never holds more than c items; after any sequence of pushes it holds c items of the pushed multiset of maximal priority, and each push returns the item that was dropped, if any; pop returns an item of maximal priority. Popping until nothing is left returns what it holds by descending priority: pushing items and then emptying the heap gives the c best in order.", "quantifier": "all capacities, priorities, push/pop histories", "why_tests_cant": "all histories, ties and capacities (including 0)", "anchors": ["search/src/agenda/limited_heap.rs: LimitedHeap::push, pop, peek, len"]}
{"id": "C06", "title": "Beam heap accepts only items within the beam", "statement": "BeamHeap::push accepts an item exactly when the heap is empty or the item's priority is at least beta times the current maximum; it reports acceptance faithfully, never drops a stored item, and pop returns a maximal stored item. Popping until nothing is left returns every stored item once, by descending priority.", "quantifier": "all beam widths, priorities, push/pop histories", "why_tests_cant": "all histories", "anchors": ["search/src/agenda/beam_heap.rs: BeamHeap::push, pop, peek"]}
{"id": "C07", "title": "UniqueHeap holds each element at most once", "statement": "However a UniqueHeap was built and whatever sequence of push/pop was applied, it holds each element at most once, push returns true exactly when the element was not held, membership equals heap content, and pop returns an element of maximal weight; peek shows the element that pop would return, len counts the elements and is_empty tells whether there are none. Popping until nothing is left returns every element once, by descending weight and by descending element among equal weights, and into_sorted_vec returns the same in the opposite order.", "quantifier": "all operation histories, including construction by collect() and From<Vec>", "why_tests_cant": "all histories and constructors", "anchors": ["unique-heap/src/lib.rs: UniqueHeap, UniqueHeap::into_sorted_vec"]}
{"id": "C08", "title": "VecMultiMap behaves as a total map from index to list", "statement": "VecMultiMap (and its borrowing Adapter) behaves as the map from every index to the sequence of values pushed to it; reads and padding never change that map, and conversion to a vector of a given size returns it.", "quantifier": "all operation histories, all indices", "why_tests_cant": "all histories", "anchors": ["vecmultimap/src/lib.rs: VecMultiMap, VecMultiMapAdapter"]}
{"id": "C09", "title": "Partition is a disjoint cover and collapses back", "statement": "Partition::new succeeds exactly if no symbol occurs in two cells; then get_cell returns the cell a symbol was given in, and collapse returns exactly the non-empty input cells.", "quantifier": "all finite families of finite sets", "why_tests_cant": "all families", "anchors": ["src/util/partition.rs: Partition::new, get_cell, collapse"]}
{"id": "C10", "title": "Pushdown is a faithful persistent stack", "statement": "Pushdown push/pop/peek/set/iter/to_vec/From/Into behave as the operations on the sequence of its elements; conversions round-trip; map and (un)integerisation act elementwise.", "quantifier": "all stacks, all element types", "why_tests_cant": "all stacks", "anchors": ["src/util/push_down.rs: Pushdown"]}
{"id": "C11", "title": "recognise is sound", "statement": "Every item returned by recognise(word) (or recognise_beam_search) carries a run of the automaton from its initial storage that reads exactly the given word, ends in a terminal configuration, and whose reported weight is the product of the transition weights of that run.", "quantifier": "all automata, words, heap tie-breaks, beam widths, prefixes of the enumeration", "why_tests_cant": "all automata and words", "anchors": ["src/recognisable/automaton.rs: recognise, recognise_beam", "src/recognisable/transition.rs: Transition::apply"]}
{"id": "C12", "title": "recognise is complete and ordered best-first", "statement": "With weights at most one, recognise(word) returns accepting runs in non-increasing weight; every accepting run heavier than a returned one was returned before; if the enumeration ends, every accepting run was returned exactly once.", "quantifier": "all automata with weights at most one, words, heap tie-breaks", "why_tests_cant": "all automata and words, unbounded run lengths", "anchors": ["src/recognisable/automaton.rs: recognise"]}
{"id": "C13", "title": "check_run agrees with recognise", "statement": "check_run(run) is non-empty exactly if the instructions of run can be executed one after the other from the initial storage, returns the resulting storages with the product weight, and accepts every run that recognise returns.", "quantifier": "all automata and runs", "why_tests_cant": "all runs", "anchors": ["src/recognisable/automaton.rs: Automaton::check_run"]}
{"id": "C14", "title": "Internal integerisation is unobservable", "statement": "Recognising with the integerised automaton returns the same items as recognising with the original one; words with symbols unknown to the automaton are rejected.", "quantifier": "all automata, all words", "why_tests_cant": "all automata and words", "anchors": ["src/automata/push_down_automaton/mod.rs", "src/util/integerisable.rs", "src/recognisable/automaton.rs: recognise"]}
{"id": "C15", "title": "Pushdown replace instruction", "statement": "Replace{current,new} applies to a pushdown exactly if current (top first) is on top, replaces those symbols by new (top last pushed) and leaves the rest; otherwise it yields nothing.", "quantifier": "all stacks and instructions", "why_tests_cant": "all stacks", "anchors": ["src/automata/push_down_automaton/mod.rs: PushDown::replace, PushDownInstruction::apply"]}
{"id": "C16", "title": "CFG to pushdown automaton preserves language and weights", "statement": "The pushdown automaton built from a context-free grammar accepts a word exactly if the grammar derives it; accepting runs correspond one-to-one to leftmost derivations, with equal weight when no two rules coincide up to weight.", "quantifier": "all grammars, all words", "why_tests_cant": "all grammars and words", "anchors": ["src/automata/push_down_automaton/from_cfg.rs", "src/automata/push_down_automaton/mod.rs: PushDownAutomaton::new, is_terminal"]}
{"id": "C17", "title": "Tree stack operations form a zipper", "statement": "push/up/down/set on a TreeStack behave as moving a pointer in a finite tree addressed by child indices: down undoes up and push, up undoes down, push succeeds exactly on a vacant child, no operation changes nodes other than the one it names.", "quantifier": "all tree stacks and operation histories", "why_tests_cant": "all histories", "anchors": ["src/automata/tree_stack_automaton/tree_stack.rs: TreeStack"]}
{"id": "C18", "title": "PMCFG to tree stack automaton preserves the language", "statement": "The tree stack automaton built from a PMCFG accepts exactly the words the grammar derives; recognising a word with it enumerates its derivations best first, each once, and ends.", "quantifier": "all PMCFGs, all words", "why_tests_cant": "all grammars and words", "anchors": ["src/automata/tree_stack_automaton/from_pmcfg.rs", "src/automata/tree_stack_automaton/mod.rs: is_terminal"]}
{"id": "C19", "title": "Approximation never loses an accepting run", "statement": "For the relabelling and tree-stack-to-pushdown strategies, every run of the original automaton maps instruction by instruction to a run of the approximated automaton on the same word, and accepting configurations map to accepting ones.", "quantifier": "all automata, relabelling functions, runs", "why_tests_cant": "all automata and runs", "anchors": ["src/approximation/relabel.rs", "src/approximation/tts.rs", "src/approximation/mod.rs: approximate_automaton"]}
{"id": "C20", "title": "Coarse-to-fine recognition is sound and complete", "statement": "CoarseToFineParseForest yields only accepting runs of the fine automaton on the word, and yields every one of them whose coarse image is enumerated.", "quantifier": "all automata, strategies, words", "why_tests_cant": "all automata and words", "anchors": ["src/recognisable/coarse_to_fine.rs: CoarseToFineRecogniser", "src/approximation/mod.rs: unapproximate_run"]}
{"id": "C21", "title": "Equivalence relation projection", "statement": "An EquivalenceRelation built from classes projects every symbol to the label of its class and every other symbol to the default; construction fails exactly on overlapping classes or a class labelled like the default.", "quantifier": "all families of classes", "why_tests_cant": "all families", "anchors": ["src/approximation/equivalence_classes.rs: EquivalenceRelation"]}
{"id": "C22", "title": "Dyck recogniser decides the Dyck language", "statement": "recognize(word) is true exactly if word is well-bracketed (derivable by epsilon | ww | (w)).", "quantifier": "all words over any bracket alphabet", "why_tests_cant": "all words", "anchors": ["src/dyck/mod.rs: recognize"]}
{"id": "C23", "title": "Multiple Dyck recogniser decides the multiple Dyck language", "statement": "The recogniser for a partition terminates on every bracket word, without a panic, and accepts it exactly if the word can be cancelled to the empty word: brackets around Dyck words may be cancelled together if their symbols form a cell of the partition and the concatenation of what they enclose can itself be cancelled. The sorted recogniser cancels only symbols of one sort together, and each sort once per level.", "quantifier": "all partitions, all words", "why_tests_cant": "all partitions and words", "anchors": ["src/dyck/multiple/automaton", "src/dyck/multiple/mod.rs"]}
{"id": "C24", "title": "CKY chart cells never collide", "statement": "For every sentence length up to 255, spans and states are mapped one-to-one to in-range cells of the chart and of the outside-estimate table; add_entry/get_weight/iterate_nont behave as a map from (span, state) with at most beam entries per span in insertion order.", "quantifier": "all sentence lengths, spans, states, beams, insertion histories", "why_tests_cant": "all sizes", "anchors": ["src/grammars/lcfrs/csparsing/automaton/chart.rs: index, index_with_state, DenseChart", "src/grammars/lcfrs/csparsing/automaton/estimates.rs: SxOutside::index"]}
{"id": "C25", "title": "CKY chart is sound and Viterbi-optimal", "statement": "Every chart entry is the weight of a derivation of the span in the approximating grammar; with the default beam, no threshold and no estimates, the entry of each state is the maximal weight of such a derivation and is present exactly if one exists.", "quantifier": "all grammars with weights at most one, all words up to 255 tokens, all heap tie-breaks", "why_tests_cant": "all grammars, words", "anchors": ["src/grammars/lcfrs/csparsing/automaton/mod.rs: fill_chart"]}
{"id": "C26", "title": "Estimates never prune a needed constituent", "statement": "For every constituent that occurs in a complete derivation of the sentence, SxOutside::get returns Some, for every maximal width the constructor accepts; and the inside estimate is the maximal weight of a derivation of that length.", "quantifier": "all grammars, widths 0..=255, sentences", "why_tests_cant": "all grammars and widths", "anchors": ["src/grammars/lcfrs/csparsing/automaton/estimates.rs"]}
{"id": "C27", "title": "Rule mask never removes a needed rule", "statement": "RuleMaskBuilder::build(word) enables every rule used in any derivation of word, enables only rules all of whose nonterminals are reachable and productive over the word's terminals, and numbers rules as the automaton does.", "quantifier": "all grammars in normal form, all words", "why_tests_cant": "all grammars and words", "anchors": ["src/grammars/lcfrs/csparsing/automaton/rulemask.rs: new, build", "src/grammars/lcfrs/csparsing/automaton/mod.rs: from_grammar"]}
{"id": "C28", "title": "CS parser returns only derivations of the sentence, best first", "statement": "Every tree yielded by with_fallback(word) is a derivation of the grammar whose yield is word; trees come in non-increasing weight and at most `candidates` words are enumerated; with default settings every derivation is eventually yielded, each of them once.", "quantifier": "all LCFRS in normal form, words, settings", "why_tests_cant": "all grammars, words, k", "anchors": ["src/grammars/lcfrs/csparsing/mod.rs: with_fallback, toderiv", "src/grammars/lcfrs/csparsing/automaton/kbest/mod.rs"]}
{"id": "C29", "title": "CS representation covers every derivation", "statement": "The context-free approximation of an LCFRS derives, for every derivation of the grammar, a bracket word from which toderiv reads back exactly that derivation, with weight equal to the product of the rule weights.", "quantifier": "all LCFRS in normal form, all derivations", "why_tests_cant": "all derivations", "anchors": ["src/grammars/lcfrs/csparsing/automaton/mod.rs: from_grammar", "src/grammars/lcfrs/csparsing/mod.rs: toderiv"]}
{"id": "C30", "title": "Fallback trees are well-formed", "statement": "CowDerivation::new reads the bracket word back into the tree that produced it; fallback returns a tree of rules and never panics on words the generator produces.", "quantifier": "all bracket words of the approximation", "why_tests_cant": "all words", "anchors": ["src/grammars/lcfrs/csparsing/cowderiv.rs"]}
{"id": "C31", "title": "Lcfrs::new accepts exactly the LCFRS", "statement": "Lcfrs::new returns Some exactly if fanouts are consistent, the initial nonterminal has fanout 1 and every composition uses each variable of each successor exactly once; it never panics.", "quantifier": "all rule lists", "why_tests_cant": "all rule lists", "anchors": ["src/grammars/lcfrs/mod.rs: Lcfrs::new, read_fanouts, check_composition"]}
{"id": "C32", "title": "Mcfg::from_pmcfg accepts exactly linear PMCFGs with one initial symbol", "statement": "Mcfg::from_pmcfg returns Some with unchanged rules exactly if no variable occurs twice in a composition and there is exactly one initial nonterminal.", "quantifier": "all PMCFGs", "why_tests_cant": "all grammars", "anchors": ["src/grammars/mcfg/mod.rs: from_pmcfg"]}
{"id": "C33", "title": "MCFG to LCFRS conversion preserves the language", "statement": "The LCFRS built from an MCFG is linear and non-deleting and derives exactly the same words with the same weights.", "quantifier": "all MCFGs with consistent fanouts", "why_tests_cant": "all grammars", "anchors": ["src/grammars/lcfrs/conversion.rs", "search/src/search.rs: unique::Search::next"]}
{"id": "C34", "title": "PMCFG to CFG conversion preserves the language", "statement": "Converting a fanout-1 PMCFG to a CFG preserves derivable words and weights and panics exactly on rules that are not fanout 1.", "quantifier": "all PMCFGs", "why_tests_cant": "all grammars", "anchors": ["src/grammars/cfg/from_pmcfg.rs"]}
{"id": "C35", "title": "evaluate computes the yield", "statement": "evaluate on the term of a derivation tree returns the yield defined by recursion over the tree, and panics exactly if a referenced child or component is missing.", "quantifier": "all trees of compositions", "why_tests_cant": "all trees", "anchors": ["src/grammars/pmcfg/mod.rs: evaluate, evaluate_pos, to_term"]}
{"id": "C36", "title": "separate_terminal_rules preserves yields and reaches normal form", "statement": "separate_terminal_rules returns a tree with the same yield in which each rule has either exactly one terminal and nothing else or only variables.", "quantifier": "all derivation trees", "why_tests_cant": "all trees", "anchors": ["src/grammars/pmcfg/mod.rs: separate_terminal_rules", "src/grammars/pmcfg/negra.rs: meets_negra_criteria"]}
{"id": "C37", "title": "NEGRA export is a faithful tree encoding", "statement": "to_negra lists the words in sentence order, gives every inner node above a word one line and one number, and the parent number of each line is the number of the line of its parent (0 for the root).", "quantifier": "all derivation trees in normal form", "why_tests_cant": "all trees", "anchors": ["src/grammars/pmcfg/negra.rs: to_negra_vector, get_rule_number"]}
{"id": "C38", "title": "disco-dop and rparse imports", "statement": "Imported yield functions give exactly one variable occurrence per bit, numbered left to right per successor; imported weights of each left-hand side are normalised to sum to one.", "quantifier": "all yield strings, all rule lists", "why_tests_cant": "all inputs", "anchors": ["src/grammars/lcfrs/from_discodop.rs", "src/grammars/lcfrs/from_rparse.rs"]}
{"id": "C39", "title": "Grammar text round-trips", "statement": "Displaying a CFG or PMCFG rule and parsing the text gives the rule back.", "quantifier": "all rules", "why_tests_cant": "all rules", "anchors": ["src/grammars/pmcfg/mod.rs: Display", "src/grammars/pmcfg/from_str.rs", "src/grammars/cfg/from_str.rs", "src/util/parsing.rs"]}
{"id": "C40", "title": "Finite state automata recognise their language", "statement": "A finite state automaton accepts exactly the words labelling paths from its initial to a final state.", "quantifier": "all automata and words", "why_tests_cant": "all automata", "anchors": ["src/automata/finite_state_automaton/mod.rs"]}
{"id": "C41", "title": "Approximate automaton constructor merges duplicate transitions consistently", "statement": "Transitions of a pushdown automaton that coincide up to weight are merged into one carrying the sum; every original transition is represented and the transition stays applicable in the same configurations, and coarse transitions can be mapped back to all their originals.", "quantifier": "all transition lists", "why_tests_cant": "all lists", "anchors": ["src/automata/push_down_automaton/mod.rs: PushDownAutomaton::new", "src/approximation/mod.rs"]}
{"id": "C42", "title": "The text of an automaton is read as the automaton it describes", "statement": "A text that lists transitions, an initial state and (for finite state automata) final states is parsed into the automaton with exactly these; displaying an automaton and parsing the text gives an automaton with the same initial state, final states and transitions.", "quantifier": "all texts of the format, all automata", "why_tests_cant": "all texts: blanks, comments, repeated declarations, quoted symbols; all automata", "anchors": ["src/recognisable/from_str.rs", "src/recognisable/transition.rs: Display", "src/automata/finite_state_automaton/from_str.rs", "src/automata/finite_state_automaton/mod.rs: Display", "src/automata/tree_stack_automaton/from_str.rs", "src/automata/tree_stack_automaton/mod.rs: Display", "src/automata/tree_stack_automaton/tree_stack_instruction.rs: Display"]}
{"id": "C43", "title": "The parse command prints the best parses of every sentence", "statement": "For a grammar given as a text, csparsing extract followed by csparsing parse prints for every line of the input, in order and with the right number, the k best derivations of the sentence in the export format (words or, with POS tags, the words given beside the tags at the leaves), a fallback tree if there is no derivation and fallbacks are wanted and there is one, and otherwise the sentence marked as not parsed; the printed columns can be read back unambiguously.", "quantifier": "all grammar texts, all options, all inputs", "why_tests_cant": "all grammars, corpora and combinations of options: order of derivations, tie of words to leaves, numbering, malformed lines", "anchors": ["src/bin/csparsing.rs: handle_sub_matches, split_line, split_pos", "src/grammars/pmcfg/negra.rs: to_negra, noparse", "src/grammars/lcfrs/csparsing/mod.rs"]}
{"id": "C44", "title": "The mcfg parse command prints the best parses of every sentence", "statement": "For a grammar given as a text, mcfg parse prints for every line of the input, in order, the n best derivations of the sentence (all of them if there are fewer, each of them once) followed by an empty line: with --negra in the export format with the number of the line counted from 1, otherwise as final configurations whose storage shows the derivation. With a beam the derivations printed are derivations of the sentence. The command does not panic and comes to an end.", "quantifier": "all grammar texts, all numbers of parses and beams, all inputs", "why_tests_cant": "all grammars and corpora; whether the search ends at all depends on the grammar, and panics hide in rare inputs such as empty lines", "anchors": ["src/bin/pmcfg.rs: handle_sub_matches", "src/automata/tree_stack_automaton/from_pmcfg.rs: from, to_abstract_syntax_tree", "src/grammars/pmcfg/negra.rs: to_negra"]}
{"id": "C45", "title": "The cfg parse command prints the best derivations of every sentence", "statement": "For a context-free grammar given as a text, cfg parse prints for every line of the input, in order, one line for each of the n best leftmost derivations of the sentence (all of them if there are fewer, each of them once), which shows a final configuration with the weight of the derivation, followed by an empty line. With a beam the lines printed stand for derivations of the sentence. The command does not panic and comes to an end.", "quantifier": "all grammar texts, all numbers of parses and beams, all inputs", "why_tests_cant": "all grammars and corpora; whether the search ends at all depends on the grammar, and rules that coincide are merged silently", "anchors": ["src/bin/cfg.rs: handle_sub_matches", "src/automata/push_down_automaton/from_cfg.rs: from", "src/recognisable/configuration.rs: Configuration"]}
{"id": "C46", "title": "The tsa recognise command prints the best accepting runs of every sentence", "statement": "For a tree stack automaton given as a text, tsa recognise prints for every line of the input, in order, the sentence, one line for each of the n best accepting runs of the automaton on it (all of them if there are fewer, each of them once, better ones first), and an empty line. With a beam the runs printed are accepting runs. With the option coarse-to-fine the search uses the approximation named. The command does not panic, ends if the runs have bounded length, and accepts the automata that mcfg automaton prints.", "quantifier": "all automaton texts, all option values, all inputs, all grammars whose automaton is printed", "why_tests_cant": "all automata and corpora; whether an option has any effect at all and whether one command can read what another one prints are statements about all inputs", "anchors": ["src/bin/tree_stack_automata.rs: main", "src/bin/pmcfg.rs: handle_sub_matches (automaton)", "src/automata/tree_stack_automaton/from_str.rs", "src/automata/tree_stack_automaton/from_pmcfg.rs: Display for PosState"]}
{"id": "C47", "title": "The approximation parse commands answer for every sentence, and the coarse grammar never loses one", "statement": "approximation relabel parse reads a context-free grammar and a file of classes of nonterminals and prints, for every line of the input in order, a best derivation of the sentence in the grammar in which every nonterminal is replaced by the label of its class, or None if there is none; every sentence of the grammar gets an answer other than None. approximation tts parse does the same with the tree stack automaton of a grammar in which only the path to the stack pointer is kept. The commands do not panic on files of the documented syntax, they end if the given grammar has no left recursion, and the third command in the help text, topk, prints the answers for its approximation.", "quantifier": "all grammar files, all class files that name a default class once and last, all texts, all iteration orders of hash sets", "why_tests_cant": "all grammars, classes and corpora; the coarse grammar can be left-recursive when the given one is not, and then the search runs for ever, which no test run can observe", "anchors": ["src/bin/approximation.rs: handle_sub_matches (relabel, tts, topk)", "src/approximation/equivalence_classes.rs: FromStr for EquivalenceRelation", "src/approximation/relabel.rs: approximate_initial, approximate_transition", "src/approximation/tts.rs: approximate_initial, approximate_transition"]}
{"id": "C48", "title": "Recognisers with several approximation strategies return best runs of the fine automaton", "statement": "A recogniser built from an automaton and a sequence of approximation strategies (coarse_to_fine_recogniser! with one or more strategies, the first possibly the pushdown approximation of a tree stack automaton, the others relabellings) returns runs of the automaton itself on the word, each once, and none of them is worse than any other run on the word; if the coarsest automaton does not recognise the word, neither does the automaton, and nothing is returned; if the word is recognised, the first run returned weighs as much as the first run the automaton returns by itself.", "quantifier": "all automata, all sequences of strategies of any length with any alphabets, all words, all weights with the laws of the weight type, all iteration orders of hash maps and heaps", "why_tests_cant": "the one test compares four words of one grammar through two strategies; the claim ranges over every number of strategies and every automaton, and it fails exactly when the best coarse run has no counterpart, which depends on all weights together", "anchors": ["src/recognisable/coarse_to_fine.rs: coarse_to_fine_recogniser!, CoarseToFineRecogniser, CoarseToFineParseForest", "src/approximation/relabel.rs: RlbElement", "src/approximation/tts.rs: TTSElement", "tests/pmcfg.rs: test_coarse_to_fine_recogniser_correctness"]}
{"id": "C49", "title": "The commands that print automata print the automaton of the grammar", "statement": "For every grammar file, cfg automaton prints the initial stack and exactly one line for each rule (rules that differ at most in weight are one line, with the sum of their weights), one for each terminal that occurs in a rule and one for each initial nonterminal; approximation relabel automaton prints what cfg automaton prints for the grammar in which every nonterminal is replaced by its class; approximation tts automaton prints one line for each word and path instruction of the tree stack automaton of the grammar, with the sum of the weights. mcfg automaton prints one line for each transition of the tree stack automaton of the grammar. The first two commands panic on no file of the documented syntax; approximation tts automaton and mcfg automaton panic exactly if a rule of an initial nonterminal has no component, a successor has no rule, or a variable refers to a component that some rule of the successor lacks, and in these cases mcfg parse and approximation tts parse panic too, whatever the corpus.", "quantifier": "all grammar files, all files that describe a partition, all weights (for the approximations: with associative and commutative addition), all iteration orders of hash sets and hash maps", "why_tests_cant": "no test looks at the text of a pushdown automaton; which lines are merged and with which weights depends on all rules together, and the order of the lines changes from run to run", "anchors": ["src/bin/cfg.rs: handle_sub_matches, automaton", "src/bin/approximation.rs: relabel automaton, tts automaton", "src/automata/push_down_automaton/mod.rs: Display for PushDown, PushDownInstruction, PushDownAutomaton", "src/automata/push_down_automaton/from_cfg.rs: Display for PushState, From<CFG>", "src/bin/pmcfg.rs: automaton"]}
{"id": "C50", "title": "csparsing parses with disco-dop grammars", "statement": "For every grammar file in disco-dop's format, csparsing extract --disco-grammar writes a representation with which csparsing parse prints, for every sentence, the best trees of the grammar whose rules are those of the file with weights normalised per left-hand side, whose words are those of the lexicon (without a lexicon: each nonterminal that is the left-hand side of no rule is its own word, with weight one) and whose initial nonterminal is ROOT. If no rule and no lexicon entry mentions ROOT, extract panics.", "quantifier": "all disco-dop grammar files and lexicons, all corpora, all options of parse, all heaps and hash iteration orders", "why_tests_cant": "no test runs the command; how normalisation, the default lexicon, the pruning masks and the k-best search interact depends on the whole grammar", "anchors": ["src/bin/csparsing.rs: extract, parse", "src/grammars/lcfrs/from_discodop.rs", "src/grammars/lcfrs/csparsing/mod.rs: CSRepresentation::new"]}
{"id": "C51", "title": "GornTree is a finite map from addresses to values, iterated in pre-order", "statement": "After any history of insert, remove, entry, indexing by assignment, append, split_off and updates, a GornTree behaves like a partial function from Gorn addresses to values: every operation returns what it returns on that function, iteration lists each address once, parents before children and siblings from left to right. Equal contents are equal trees however they came about; append empties the other tree; split_off splits the tree at the address and loses nothing.", "quantifier": "all value types, all lists the tree is collected from, all histories of operations, all addresses", "why_tests_cant": "histories are unbounded and the order of addresses of different lengths has many cases", "anchors": ["src/util/tree.rs: GornTree"]}
{"id": "C52", "title": "Configurations, transitions and items are ordered best first, and equality ignores weights", "statement": "If weights, symbols, storages and instructions are totally ordered, so are configurations, transitions, runs and items, and partial_cmp agrees with cmp. The greater configuration is the one with the greater weight, at equal weights the one with the shorter rest of the word, then the greater rest, then the greater storage; so a max-heap of items pops an item of maximal weight. Two configurations are equal exactly if the rest of the word and the storage are, two transitions exactly if word and instruction are; equal values have equal hashes; values that compare as Equal are equal, and equal values compare as Equal.", "quantifier": "all types with total orders, all configurations, transitions and items, all hashers, all heaps", "why_tests_cant": "transitivity and antisymmetry are statements about all triples and pairs of values", "anchors": ["src/recognisable/configuration.rs: PartialEq, Hash, PartialOrd, Ord", "src/recognisable/transition.rs: PartialEq, Hash, PartialOrd, Ord", "src/recognisable/mod.rs: Item", "src/util/push_down.rs: Pushdown"]}
{"id": "C53", "title": "Reverse reverses the order and nothing else", "statement": "Reverse(a) is less than Reverse(b) exactly if b is less than a; a max-heap of reversed values gives them back smallest first, each as often as it was put in; zero, one, the arithmetic operations, parsing, printing and factorisation are those of the value inside.", "quantifier": "all types with a total order, all values, all heaps, all lists of values", "why_tests_cant": "order laws and the output of a heap are statements about all values and all lists", "anchors": ["src/util/reverse.rs: Reverse"]}
{"id": "C54", "title": "The trees that mcfg parse prints are the derivations", "statement": "Without --negra, mcfg parse prints for every sentence the weight and the rules of its n best derivations: each rule on one line, in preorder, indented by its depth and labelled with its child number, below a root line that carries the pointer. Different derivations are printed differently, so the derivation can be read from the text.", "quantifier": "all grammar files of the documented syntax, all sentences, all n, with and without a beam, all derivations", "why_tests_cant": "the storage from which the text is made is built step by step by the automaton, for derivations of any size and shape", "anchors": ["src/recognisable/configuration.rs: Display for Configuration", "src/automata/tree_stack_automaton/tree_stack.rs: Display for TreeStack, to_tree", "src/automata/tree_stack_automaton/from_pmcfg.rs: Display for PosState", "src/bin/pmcfg.rs: handle_sub_matches", "src/automata/push_down_automaton/mod.rs: Display for PushDown"]}
{"id": "C55", "title": "Rounding does not disturb the search", "statement": "The searches do not rely on exact arithmetic. With weights whose products are rounded, as the logarithms of probabilities in double precision are, recognising and mcfg parse still return exactly the accepting runs or derivations, each with the weight obtained by multiplying the weights of its transitions or rules in the order in which they are used, and best first by these computed weights. The computed weight is within a relative error of 2^-53 for each factor of the exact one, so a derivation can come before a better one only if their exact weights agree up to that error.", "quantifier": "all automata and grammars, all words, all weights that are logarithms of probabilities in IEEE double precision, every order of ties", "why_tests_cant": "the rounding error depends on the order of the factors, and the weights of a test are a handful of the doubles", "anchors": ["src/recognisable/transition.rs: Transition::apply", "src/recognisable/automaton.rs: recognise, check_run", "src/automata/tree_stack_automaton/from_pmcfg.rs: From<Pmcfg>", "Cargo.toml: log_domain", "src/util/factorizable.rs: factorize"]}
{"id": "C56", "title": "Options, files and inputs reach the commands, and what cannot be read is reported", "statement": "Every subcommand of rustomata does what its library functions do with the content of the files named on the command line, the standard input and the values of the options: the grammar, --number, --beam and --negra for mcfg and cfg; the automaton for tsa; the grammar and classes for approximation; grammar or standard input, gzipped or not, lexer and --sxlen for csparsing extract; csfile, -k (1 if missing), --beam, --threshold, --candidates and the flags for csparsing parse, which continues with what extract wrote. A missing file, an option that is not a number and an input that is not UTF-8 are reported instead of being answered.", "quantifier": "all command lines, all file contents and all standard inputs (all byte sequences)", "why_tests_cant": "whether an input is text is a property of all byte sequences, and the combinations of options, files and inputs are unbounded; a test compares one command line at a time", "anchors": ["src/bin/main.rs: main", "src/bin/pmcfg.rs: handle_sub_matches", "src/bin/cfg.rs: handle_sub_matches", "src/bin/tree_stack_automata.rs: handle_sub_matches", "src/bin/approximation.rs: handle_sub_matches", "src/bin/csparsing.rs: handle_sub_matches, FileReader"]}
{"id": "C57", "title": "Texts are read by characters, in every script", "statement": "Inputs, grammars and automata may contain words of any script. Lines end at line feeds, words at white space, and never inside a character, even if a byte of its code is that of white space; two words are equal exactly if they consist of the same characters.", "quantifier": "all sequences of Unicode characters", "why_tests_cant": "there are over a million characters with codes of one to four bytes, and texts are unbounded", "anchors": ["src/bin/pmcfg.rs: handle_sub_matches (lines, split_whitespace)", "src/bin/cfg.rs: handle_sub_matches", "src/bin/csparsing.rs: handle_sub_matches", "src/recognisable/from_str.rs", "src/grammars/pmcfg/from_str.rs"]}
{"id": "C58", "title": "Command lines mean what the help says", "statement": "Options can be given in any order, by letter (-n 5, -n5, -n=5, letters without values together) or by name (--number 5, --number=5), before, between and behind the file names; after -- everything is a file name. An option that is not given has its documented default (one parse). A command line without a required file, with an option twice, with an unknown option, with too many file names or with options that exclude each other is refused before anything is read; no accepted command line makes a command fail for lack of an argument. A command line that stops before a subcommand prints nothing.", "quantifier": "all command lines (sequences of words of any length), all file contents and standard inputs", "why_tests_cant": "orders, spellings and combinations of options are unbounded; that nothing else is accepted is a statement about all sequences of words", "anchors": ["src/bin/main.rs: main", "src/bin/pmcfg.rs: get_sub_command", "src/bin/cfg.rs: get_sub_command", "src/bin/tree_stack_automata.rs: get_sub_command", "src/bin/approximation.rs: get_sub_command", "src/bin/csparsing.rs: get_sub_command"]}
{"id": "C59", "title": "Renaming nonterminals keeps the language", "statement": "If every rule of a grammar is mapped with PMCFGRule::map_nonterminals and the initial nonterminals are renamed likewise, every word is still derived with each of its weights. If no two nonterminals of the grammar get the same name, nothing else is derived.", "quantifier": "all PMCFGs, all functions on nonterminals, all words and weights", "why_tests_cant": "grammars, functions and derivations are unbounded; that no word is added is a statement about all derivations of the renamed grammar", "anchors": ["src/grammars/pmcfg/mod.rs: PMCFGRule::map_nonterminals"]}
{"id": "C60", "title": "The consistency test of cow derivations is exact", "statement": "CowDerivation::is_consistent ends without a panic for every tree. It returns true exactly if no two nodes that are reached by the same sequence of successor numbers, whatever the components, hold different rules. On the bracket word of the tree, CowDerivation::new gives the tree back and toderiv makes the same decision: it fails if the test fails, and otherwise returns the tree that holds at each sequence of successor numbers the rule of the nodes there. A derivation of the approximation for a word passes the test exactly if it comes from a derivation of the word by the grammar (for grammars without repeated rules).", "quantifier": "all cow derivations (finite trees with any rules, labels and numbers of successors), all lists of rules that contain the rules of the tree", "why_tests_cant": "trees are unbounded in depth and branching; two nodes that disagree may be arbitrarily far below the root and in subtrees of different components", "anchors": ["src/grammars/lcfrs/csparsing/cowderiv.rs: LabelledTreeNode::is_consistent, LabelledTreeNode::is_consistent_vec, CowDerivation::new", "src/grammars/lcfrs/csparsing/mod.rs: CSRepresentation::toderiv"]}
