# Formal model of tud-fop/rustomata in Rocq (Coq 8.16.1)

## 1. Method

* One Gallina definition per Rust function, grouped by crate/module, in `rocq/theories/M_*.v` (models; no proofs).
  Every definition cites file and lines in `/repo` and says where it simplifies.
* Independent specifications (inductive languages, derivation trees, reachability, multisets) in `S_*.v`.
* Proofs in `P_*.v`.
* Property theorems in `Properties_*.v`: each is followed by
  `Print Assumptions`, beside it an `Example` showing that a concrete non-trivial case meets its hypotheses.
* A statement that is false of the faithful model is proved as `..._refuted` with a concrete witness: these are
  findings about the code (section 4).  A statement proved only in part carries the suffix `_partial`.

## 2. Modelling decisions

* `usize` etc. are `nat`, except where the property is about width (chart indices, `u8` ranges, bit masks): there the
  wrap or overflow is explicit.
* Panics are explicit (`None` of an `option`, or `Panic`).
* Weights (`LogDomain<f64>`) are an abstract structure with the laws a theorem needs (commutative monoid, total order,
  monotone product, `w <= one`).  Each theorem names its laws; a concrete instance is exhibited.  Products are taken from left
  to right as the code takes them, and the theorems about automata, the grammars turned into automata and their commands ask
  for no associativity (`RoundLaws`), so that they hold for rounded doubles (C55, `M_Float`); the others, which are about the
  coarse-to-fine parser of LCFRS, ask for exact products (`WeightLaws`).
* `std::collections::BinaryHeap` and `min_max_heap::MinMaxHeap` are modelled by their documented contract: records of
  operations with laws (`max_heap`, `minmax_heap` in `M_Agenda.v`), and every theorem quantifies over all such records, so
  it holds for every tie-break.  `P_Agenda.list_heap` and `list_minmax` are instances, used in the examples.
* Loops and recursions whose termination is not structural take a bound (fuel); the theorems say that every bound from some
  point on gives the same result, or carry the non-termination as a finding.
* `HashMap`/`BTreeMap`/`HashSet`/`BTreeSet`/`HashIntegeriser` are finite maps/sets with their documented contract;
  iteration order of hash containers is an arbitrary permutation where it can matter.
* Texts are lists of bytes (`M_Nom.bytes`).  The macros of nom 3.2 that the code uses are modelled in `M_Nom` from their documentation:
  `Done`/`Error`/`Incomplete`, plus `Panic` for the `unwrap()`s in the code's own closures.  `str::parse` and `Display` of
  symbols and weights are arbitrary (`text_io`); `usize` has 64 bits.
  nom's source is not available here, so this model is not checked against it.  In particular `is_not!` on an empty text is modelled
  as success with an empty match; the case of a missing weight in `C39_weight_panics` and `C39_cfg_weight_error` depends on this
  (for CFG rules both behaviours give an error), the case of a malformed weight does not.
* Rust iterators are modelled by the sequence of values of `next()`.

## 3. Plan per property

| id | what is modelled | how it is proved |
|----|------------------|------------------|
| C01-C03 | `Search::next` as a relation over an arbitrary agenda (Vec, VecDeque, heap) | invariant over the sequence of `next()` calls; permutation argument with the tree of paths; order by weight |
| C04 | `unique::Search::next` | invariant (no repetition); refutation of exhaustiveness; exhaustive if no node is entered by two forward edges (`S_Enter.v`: walks, dominators), invariant: agenda and visited nodes are disjoint and without repetition |
| C05-C07 | heaps as multisets with nondeterministic max/min; emptying a heap (`M_Drain`) | invariant over operation histories; induction on the number of pops, uniqueness of sorted lists |
| C08 | list of lists | refinement to function `nat -> list` |
| C09 | finite maps as association lists | direct |
| C10 | inductive stack | refinement to lists |
| C11-C13 | generic automaton record, `recognise` and `recognise_beam_search` as search | search theorems + induction on runs; beam search is search with an agenda that may drop items: returned items, content and dropped subtrees partition the forest of runs |
| C14 | integerised automaton | bijection between the two searches; runs that outweigh all long runs are found (C14_*_finds) because every item that is popped before them is a short partial run |
| C15-C16 | PDA, `from_cfg` | simulation with leftmost derivations; end of the search by well-founded induction on (rest of the word, rank of the first nonterminal) |
| C17 | TreeStack zipper | refinement to partial map from addresses |
| C18 | TSA, `from_pmcfg` | runs between a push and its return are a big-step relation `Go`; soundness, completeness, weight and determinism by induction on it and on derivations; each derivation once because transitions are distinct if rules are; termination without left recursion by counting entered and left components against the symbols read; refutations outside ordered grammars; with left recursion, a run pushes a rule every few steps (potential: components still to come, and depth), so weights that fade make every derivation findable |
| C19-C21, C41 | approximation strategies, coarse-to-fine forest, equivalence classes | simulation; refutations |
| C22-C23 | Dyck recogniser; tree stack recogniser for multiple Dyck languages | equivalence with inductive languages: runs between visits of a node are Dyck words, segments are grouped by the child that reads them |
| C24-C30 | csparsing: chart, CKY, estimates, mask, k-best, toderiv, cowderiv | C30_cut: induction on the word; arithmetic; induction on span length; fixpoint arguments; refutations |
| C31-C34 | LCFRS/MCFG/CFG constructors and conversions | direct; simulation of derivations; refutations; the language is kept if the pairs searched by C33 are entered once, which two conditions on the grammar alone ensure |
| C35-C37 | evaluate, separate_terminal_rules, negra | induction over trees |
| C38 | parsers of disco-dop and rparse files on bytes, conversion to an LCFRS, default lexicon; `u64` powers with and without overflow checks | every file of the format (`S_Import`) is read completely; bits of a packed component by `N.testbit`; weights sum to one over `Q`; refutations |
| C42 | parsers and Display of transitions, finite state and tree stack automata on bytes; the order of `list_transitions` is an arbitrary permutation | every text of the syntax in `S_AutText` is read as what it declares, by induction on the lines; round trip of tree stack automata up to the initial symbol; refutations |
| C43 | `src/bin/csparsing.rs` (extract for the native grammar format, parse), the text that `to_negra` and `noparse` write | the text of C39 gives the rules, C28/C30 give the trees, C37 the rows, `S_Command` says what has to be printed; induction on the lines; injectivity of the text by induction on its rows; without token conditions the same from C28_nothing_lost (`S_LooseCommand`) |
| C44 | `src/bin/pmcfg.rs` (parse) | the text of C39 gives the rules, C18 the enumeration of derivations, C37 the rows, `S_Mcfg` says what has to be printed; the result after a bounded number of search steps is `Done`, `Running` or `Panics`; induction on the lines; termination from C18, with left recursion by counting the derivations that must be found |
| C45 | `src/bin/cfg.rs` (parse), derived Debug of configurations | the text of C39 gives the rules, C16 the enumeration of derivations, `S_CfgCommand` says what has to be printed; induction on the lines; termination from C16: steps of leftmost derivations are well-founded if there is no left recursion; repeated rules (`P_Repeated`): the automaton equals that of the grammar with these rules joined (numbering is unchanged by known symbols, adding to an entry commutes with later additions), so all results transfer; left recursion (`P_Finds`): a run of the automaton applies about as many rules as it is long, so runs longer than some bound are lighter than the derivation looked for, and the search tree up to this bound is finite |
| C46 | `src/bin/tree_stack_automata.rs`, `src/bin/pmcfg.rs` (automaton), derived Debug of transitions, Display of positions | the syntax of C42 gives the transitions, C14 and C12 the enumeration of runs, `S_TsaCommand` says what has to be printed; induction on the lines; the options are a list of names and values as clap gives it |
| C47 | `src/bin/approximation.rs` (relabel parse, tts parse, the dispatch), `equivalence_classes.rs` (text syntax) | `S_ApproxCommand` says what the class file means, what the coarse grammar is and what has to be printed; the relabelled automaton has the steps of the automaton of the coarse grammar (C16), the runs of the path automaton are bounded by the argument of C18 applied to the value at the pointer and the depth; induction on the lines |
| C48 | the macro `coarse_to_fine_recogniser!` with any number of strategies | `levels` is the sequence of strategies, each with its own alphabet; `pda_stack` nests the parse forest of C20; one lemma about a level over an arbitrary sub-recogniser (what it returns is the exact preimage of the first answer below, so it has its weight; a coarse run weighs at least as much as each run it stands for), then induction on the sequence; the base is C14 |
| C49 | the texts of pushdown and tree stack automata; the commands `cfg automaton`, `mcfg automaton`, `approximation relabel automaton`, `approximation tts automaton` | `pda_text` lists what `list_transitions` gives in any order; the transitions of the automaton are the merged ones (C41), they are sorted into rules, terminals and initial nonterminals; merging the images of merged transitions is merging the images (`merged_image`, by splitting a list into classes), and the images are the transitions of the coarse grammar; which grammars panic: C18_conversion_defined, by induction on components with the invariant that previous components exist |
| C50 | `src/bin/csparsing.rs` (extract with `--disco-grammar`, with and without `--disco-lexicon`), then `parse` | the files give the rules (C38), `disco_grammar` says in terms of the file what C43 asks of a grammar (`P_Disco`: widths from the bits, linearity from the running numbers of the bits); the answers are those of `S_Command` by C43 |
| C51 | `src/util/tree.rs` | `M_Gorn` keeps the BTreeMap as a list sorted by address; the specification is a partial function with one clause for each operation, and pre-order stated with prefixes; induction on the history |
| C52 | Ord, PartialOrd, Eq and Hash of configurations, transitions, pushdowns and items | each order is the lexicographic order of an injective tuple; `S_Order` says which one is greater without comparisons in sequence |
| C53 | `src/util/reverse.rs` | unfolding; the heap is any heap with the contract of `M_Agenda`, induction on its size |
| C54 | Display of configurations, tree stacks and positions | at the end of a run the storage holds each rule at its last position (the visited part of a derivation from C18, and uniqueness of its run); a sorted map is determined by its entries, so the entries are the preorder of the derivation; the text is cut into lines and the depth of a line is its length; C54_relabelled: induction on the tree stack |
| C55 | `LogDomain<f64>` on probabilities, over Flocq's IEEE doubles; runs and derivations weighed from left to right | case distinction on overflow; rounding is monotone and a sum of two doubles is rounded to zero only if it is zero; the searches need only that a product with a weight of at most one does not grow; induction on the visits of a derivation gives the order of its factors; the relative error of a sum of doubles of the same sign, factor by factor |
| C56 | `src/bin/main.rs` and every `handle_sub_matches`; `String::from_utf8`; clap's matches, the file system, gzip and bincode are parameters | unfolding each command down to the commands of C43-C47, C50, C52; recognition of UTF-8 against `S_Main` (the codes of RFC 3629) by case distinction on the lead byte with arithmetic on the code point |
| C57 | str::lines, split_whitespace, trim, starts_with of `M_Nom` (bytes) against their documentation on characters (`S_Chars`) | the bytes of a character outside ASCII are outside ASCII, so bytewise scanning finds exactly the ASCII characters; a decoder shows that codes are unique. White space outside ASCII is replaced by spaces where the input is only cut into sentences (`plain_white`), which is proved to be the same; trim of the model differs from str::trim exactly for lines with such white space at an edge (both are cut into edge, middle, edge, and the middles are compared) |
| C58 | the declarations of subcommands and options (`get_sub_command` of all commands), and the reader of clap 2 after its documentation | `S_Clap` has a grammar of command lines and the usage of each subcommand; the reader is proved to accept exactly that grammar (induction on the words, both directions), each declaration is compared with its usage |
| C59 | `PMCFGRule::map_nonterminals` | derivations are renamed node by node; back by induction on the derivation, the head determines the nonterminal as the names are distinct |
| C60 | `is_consistent`, `is_consistent_vec`; `cow_new`; `toderiv` | induction on the fuel for lists of trees of bounded height; the bracket word of a tree makes `toderiv` visit exactly the nodes with their paths; with C29 and C30, the trees of the approximation that pass are the derivations (`Properties_CowDeriv`, `Properties_CowWords`) |
| C39 | `parsing.rs`, the parsers and Display of CFGs, PMCFGs, LCFRS, on bytes over a model of nom 3.2 | every text of the documented syntax (`S_Text`) is parsed to the rule it means; Display writes a text of the syntax; refutations for unescaped quotes, newlines, panics |
| C40 | FSA | instance of the generic automaton; exact condition for the end of the search: pairs of a state left and the number of symbols read are different along a run without loops of empty transitions (pigeonhole) |

## 4. Trusted base

* Coq 8.16.1: its kernel, including the virtual machine used by `vm_compute` (concrete examples and witnesses only), the
  parser and pretty printer that show what is stated.
* `Print Assumptions` follows every theorem in `Properties_*.v` and prints "Closed under the global context" for each of
  them but seven: `C55_doubles`, `C55_order_matters_refuted`, `C55_rounding_error`, `C55_mcfg_parse`, `C55_cfg_parse`,
  `C55_factorize` and
  `C55_factorize_refuted`, which are about the IEEE doubles of the library Flocq, rest on
  axioms of the standard library's real numbers: `ClassicalDedekindReals.sig_forall_dec`, `ClassicalDedekindReals.sig_not_dec`,
  `FunctionalExtensionality.functional_extensionality_dep`, `Classical_Prop.classic`.  There is no axiom of our own and none of
  another library.  Only the standard library is imported, except in `M_Float.v`, `P_Float.v`,
  `Properties_Float.v` and `Properties_FloatCfg.v`, which import Flocq 4.1.  (Tools that list everything declared without a body also show the parameters of a module type in
  `Coq.ssr.ssrunder`, or of others in the libraries loaded; no theorem depends on them.)
* The reading of the code: nothing checks that `M_*.v` agrees with `/repo` except the citations beside each definition.
  The Rust program was neither built nor run.
* The contracts of external code stated as record laws or as hypotheses: heaps (`max_heap`, `minmax_heap`), iteration order
  of hash containers (any permutation), the laws of weights (`WeightLaws`: total order, commutative monoid, monotone
  product; where used also "at most one" and "not zero"), and the behaviour of nom 3.2 written down as functions in `M_Nom`.
  White space outside ASCII counts as white space in the standard input only; in the lines of files (trim), in instructions of automaton files and in disco-dop and rparse grammars it counts as a symbol (`C57_trim_exactly`, `C57_words_exactly` say for which texts that makes a difference).  `LogDomain<f64>` satisfies `WeightLaws` only up to rounding; on probabilities it satisfies `RoundLaws`
  (the laws without associativity), which is proved in C55 for a model of the crate log_domain written from its documentation.

## 5. What is modelled

| code | model | not modelled there |
|------|-------|--------------------|
| `search/src/agenda/*.rs`, `search/src/search.rs` | `M_Agenda`, `M_Search` | `Debug`, the blanket conversions of `lib.rs` |
| `unique-heap/src/lib.rs`, `vecmultimap/src/lib.rs` | `M_Agenda`, `M_Drain`, `M_Util` | iterator adaptors that only forward |
| `src/util/{partition,push_down,integerisable}.rs`, `src/dyck/mod.rs` | `M_Util`, `M_Automata` | |
| `src/recognisable/{mod,transition,configuration,automaton,int_automaton,from_str}.rs` | `M_Recog`, `M_Automata`, `M_AutText`, `M_ConfText` | |
| `src/dyck/multiple/**` | `M_Dyck` | `Serialize` |
| `LogDomain<f64>` of the crate log_domain (`Cargo.toml`), restricted to probabilities; `src/util/factorizable.rs` | `M_Float` (in the theorems about csparsing, factorize is a parameter with the exact law) | weights above one, the sum of weights, reading and writing of numbers |
| `src/automata/{finite_state,push_down,tree_stack}_automaton/` | `M_Automata`, `M_CFG`, `M_TreeStack`, `M_FromPmcfg`, `M_AutText`, `M_PdaText`, `M_ConfText` | |
| `src/approximation/*`, `src/recognisable/coarse_to_fine.rs` | `M_Approx`, `M_Stacked` (the macro with several strategies) | the command line layer that parses strategies; `recognise_beam_search`, which is `unimplemented!()` |
| `src/grammars/{pmcfg/mod,mcfg/mod,cfg/mod,cfg/from_pmcfg}.rs`, `src/grammars/lcfrs/{mod,conversion}.rs` | `M_Grammar`, `M_Conversion`, `M_Rename` | |
| `src/util/parsing.rs`, `src/grammars/{cfg,pmcfg,lcfrs}/from_str.rs`, Display of CFG rules, PMCFG rules, PMCFGs and LCFRS | `M_Nom`, `M_Text` | the texts of error messages |
| `src/grammars/lcfrs/{from_discodop,from_rparse}.rs` | `M_Import` | weights in `C38_normalised` are exact fractions |
| `src/grammars/pmcfg/negra.rs`, `separate_terminal_rules` | `M_Negra`, `M_Command` (text of a line) | - |
| `src/grammars/lcfrs/csparsing/automaton/{chart,mod,estimates,rulemask}.rs` | `M_Chart`, `M_CSAuto`, `M_Estimates`, `M_RuleMask` | timing and memory |
| `src/grammars/lcfrs/csparsing/automaton/kbest/*` | `M_KBest` | |
| `src/grammars/lcfrs/csparsing/{mod,cowderiv}.rs` | `M_ToDeriv`, `M_Cow`, `M_Consistent`, `M_CSParse` | `serde` |
| `src/bin/main.rs`, `get_sub_command` and `handle_sub_matches` of all commands | `M_Main`, `M_Clap` | the texts of help and error messages, words that are not UTF-8 (clap itself is modelled after its documentation), opening files, gzip and bincode (parameters), `coarse_to_fine.rs` (not part of the program) |
| `src/bin/csparsing.rs` | `M_Command`, `M_Disco`, `M_Main` | gzip and bincode (parameters), timings on stderr |
| `src/bin/pmcfg.rs` (parse) | `M_Mcfg`, `M_Main` | Display of a configuration is a parameter, which C54 replaces by `M_ConfText` |
| `src/bin/cfg.rs` (parse) | `M_CfgCommand`, `M_Main` | Debug of strings and weights (parameters) |
| `src/bin/tree_stack_automata.rs`, `mcfg automaton` | `M_TsaCommand` | clap itself, files, Debug of strings and weights (parameters); the branch for `strategies` is a parameter, it cannot be reached |
| `src/bin/approximation.rs`, `cfg automaton` | `M_ApproxCommand`, `M_PdaText` (the automaton subcommands) | clap itself, files, Debug of strings, weights and rules (parameters) |
| `src/util/tree.rs` | `M_Gorn` | Debug, `serde` |
| `src/util/reverse.rs`, the orders, equalities and hashes of `src/recognisable/{configuration,transition,mod}.rs` | `M_Order` | `serde`; hashing is by arbitrary functions of the components |
| `src/util/try_debug.rs`, `src/bin/coarse_to_fine.rs` and `src/grammars/pmcfg/relabel.rs` (not compiled: no target and no `mod` line mentions them), tests | - | nothing of it |

The concurrency, crash and persistence aspects of other systems do not occur: the crate is single-threaded and keeps no state
on disk.

## 6. Findings: statements about the code that are false, with proof

| theorem | what happens |
|---------|--------------|
| `C04_uniques_stop_early_refuted` | `unique::Search::next` returns `None` on a popped duplicate although reachable nodes remain |
| `C07_from_vec_duplicates_refuted` | `UniqueHeap::from(Vec)` keeps duplicates |
| `C14_pda_empty_stack_panics_refuted` | a pushdown automaton that pops its last symbol makes `recognise` panic |
| `C18_empty_word_refuted` (and `C18_empty_word_accepted` for every grammar) | the tree stack automaton of a grammar accepts the empty word, derived or not |
| `C18_trailing_terminals_refuted` | of several terminals at the end of a component only the last one is read: the buffer is cleared before every token |
| `C18_undefined_nonterminal_refuted` | the conversion panics if a successor has no rule |
| `C18_conversion_defined`, `C49_incomplete_grammars` | exactly the incomplete grammars make the conversion, and with it every command on the grammar, panic: a rule of an initial nonterminal without components, a successor without rules, a variable for a component that some rule of the successor lacks |
| `C18_left_recursion_refuted` | for a left-recursive grammar the search for an underivable word never ends |
| `C18_unordered_refuted`, `C18_copying_refuted`, `C18_deleting_refuted` | words are lost if components are used out of order or twice; underivable words are accepted if a successor is not used |
| `C20_second_coarse_parse_refuted` | coarse-to-fine recognition uses the first coarse parse only: `next_input` leaves `Some(None)` in its buffer |
| `C20_merged_refuted`, `C41_map_back_merged_refuted` | transitions merged by the approximation carry summed weights, the reverse map is keyed with the single weights, so the coarse run is mapped back to nothing |
| `C20_relabel_panics_refuted` | relabelling can make the coarse automaton pop its last symbol and panic |
| `C21_from_overlap_refuted`, `C21_from_str_repeated_label_refuted` | overlapping classes are accepted by `From<Vec>`; a repeated label in a file drops the earlier class |
| `C23_equivalence_refuted` | a word equivalent to the empty word under the equivalence generated by cancellation is not recognised: the recogniser cancels and never inserts |
| `C26_width_255_refuted`, `C26_inside_maximal_refuted` | outside estimates panic for 255 tokens; inside estimates are not exact |
| `C27_needed_rules_refuted` | the rule mask disables needed rules if a nonterminal has fanout 0 |
| `C28_tokens_refuted`, `C28_root_refuted`, `C28_chains_refuted`, `C28_duplicates_refuted`, `C28_shared_tokens_refuted` | the parser returns trees of another word, does not return, or returns a tree twice (if a rule is listed twice, or if a nonterminal derives several tokens; then the order is wrong, too). `C28_near_words` bounds the damage: the trees are derivations of a word that differs from the sentence only in tokens of one nonterminal; `C28_nothing_lost`: without chain cycles the list is finite and every derivation of the sentence is in it |
| `C29_covers_refuted`, `C29_covers_wide_refuted` | read-off loses successors of fanout 0, and wraps after 256 successors |
| `C31_new_refuted` | `Lcfrs::new` rejects an LCFRS, and panics if a successor has no rule (`C31_panics` says exactly when) |
| `C33_language_refuted`, `C34_language_refuted` | conversion of an MCFG loses rules (`C33_used_once`, `C33_nondeleting`: grammars for which it does not); the CFG of a copying or deleting PMCFG has another language (`C34_no_word_lost`: never a smaller one) |
| `C36_normal_form_refuted`, `C36_terminates_refuted` | negra normal form is not reached for one terminal followed by variables; endless loop for an empty terminal |
| `C38_wide_refuted` | disco-dop components with more than 64 variables panic or are read with wrong successors; with 256 variables they become empty |
| `C38_truncated_refuted` | the first line that is not a rule (also an empty line) ends the import without an error; yields end at the first empty component or wrong digit; a decimal weight 0.5 is read as 0 |
| `C38_rparse_refuted` | rparse weights are not normalised; an unreadable weight panics |
| `C42_fsa_round_trip_refuted` | the text of a finite state automaton has no parentheses around instructions: its parser rejects it as soon as there is a transition |
| `C42_fsa_states_refuted` | that text lists numbers instead of states and only those below the number of final states |
| `C42_tsa_initial_refuted` | the text of a tree stack automaton names the number of the initial symbol instead of the symbol |
| `C42_malformed_refuted` | malformed instructions and weights panic, a weight without `#` is dropped, a line of blanks is an error |
| `C43_root_token_refuted` | csparsing parse panics on a sentence that is derived by a rule of the initial nonterminal for one token (`to_negra` has no parent for the word) |
| `C43_malformed` | one word without a slash (with POS tags) or one empty line (with line numbers) aborts the command for the whole corpus |
| `C12_narrow_beam_refuted` | with a beam of one item a word of the language is rejected: the cheaper first step leads nowhere (not a bug; it limits what beam search can promise) |
| `C44_empty_line_refuted` | with `--negra`, an empty line makes mcfg parse panic, whatever the grammar: the automaton accepts the empty word and `to_negra` gets an empty tree |
| `C44_left_recursion_refuted` | with a left-recursive grammar mcfg parse never gets past a sentence that has no derivation |
| `C54_empty_line_refuted` | without `--negra`, an empty line makes mcfg parse print the initial configuration as if it were a parse, whatever the grammar |
| `C55_order_matters_refuted`, `C55_factorize_refuted` | products of weights depend on the order of the factors, and the factors a rule weight is split into do not multiply to that weight; both up to rounding errors that are bounded in C55 |
| `C58_ctf_refuted` | the option of tsa recognise that is declared with the short name `ctf` is refused when it is written `-ctf strategies`: clap takes one letter |
| `C56_input_not_text_refuted`, `C56_grammar_not_text_refuted` | errors of `read_to_string` are dropped by mcfg and cfg: an input that is not UTF-8 counts as empty, and so does a grammar file, so that every sentence is answered by a blank line, as if it had no parse |
| `C45_repeated_rule_refuted` | rules that coincide up to weight are merged: cfg parse prints one line for their derivations, with the sum of the weights |
| `C45_left_recursion_refuted`, `C16_left_recursion_never_ends` | with left recursion that is reachable from an initial nonterminal the search never ends; cfg parse never gets past a sentence that has no derivation |
| `C46_coarse_to_fine_refuted` | tsa recognise has an option coarse-to-fine but looks up `strategies`, which clap does not know: the option never has an effect |
| `C46_printed_automaton_refuted` | tsa recognise panics on every automaton that mcfg automaton prints for a grammar with a rule for an initial nonterminal: the text of a position has parentheses and blanks |
| `C47_coarse_left_recursion_refuted` | replacing nonterminals by labels can make a grammar left-recursive that is not; approximation relabel parse then never ends on a word the coarse grammar does not derive |
| `C47_topk_refuted` | approximation topk is in the help text, but nothing handles it: it prints nothing |
| `C48_lost_refuted` | with two strategies nothing is returned for a word that has a run, although nothing is merged and all weights behave: the best run of the coarsest automaton has no counterpart, and no other coarse run is tried |
| `C49_same_text_refuted` | the text of a pushdown automaton does not determine it: stack symbols for nonterminals and terminals of the same name are shown alike, so two grammars with different languages print the same automaton |
| `C50_words_refuted` | with a lexicon in which a part of speech has two words, the printed tree of the sentence `7 8` has the words `7 9`: the k-best search takes any word of the part of speech |
| `C52_equal_compares_equal_refuted`, `C52_partial_order_refuted` | configurations and transitions that differ in their weight only are equal but do not compare as Equal; with incomparable weights partial_cmp has cycles |
| `C50_no_error` | malformed lexicons are never refused and malformed grammar lines end the file silently: everything after the first empty or single-field line is ignored |
| `C50_no_root` | a disco-dop grammar whose root is not called `ROOT` makes `csparsing extract` panic |
| `C18_left_recursion_never_ends` | with a left-recursive initial rule the search never ends, for any word of known symbols |
| `C39_quotes_refuted`, `C39_newline_refuted` | Display does not escape: a terminal with quotation marks is read back as two terminals; a symbol with a line break makes the text of a grammar unreadable |
| `C39_lcfrs_initial_refuted` | Display of an LCFRS omits the quotation marks around the initial nonterminal |
| `C39_panic_refuted` | reading a PMCFG rule panics on a malformed weight, on a comment directly behind the weight and on numbers from 2^64 on (`C39_weight_panics`: every rule whose weight text is missing or not a weight) |
| `C39_bare_token_refuted` | bare tokens are cut at every byte of the UTF-8 code of the arrow (e.g. in Æ); tabs are swallowed |
| `C40_epsilon_loop_starves_refuted` | a weight-one empty loop keeps the search from finding an existing path |

The seeded wrong programs and the theorems that caught them are in `seeded/LOG.jsonl`.
