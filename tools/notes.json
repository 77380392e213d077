{
 "C01": {"note": "Refinement over all call sequences, failing calls included."},
 "C02": {"note": "For every reachable DirectedGraph."},
 "C03": {"note": "For every program whose add_edge endpoints exist (as the property says)."},
 "C04": {"note": "For every program whose add_edge endpoints exist (as the property says)."},
 "C05": {"note": "Proved for DirectedGraph. REFUTED for UndirectedGraph and IncidenceGraph: add_edge raises KeyError after the forward half is stored; the exact effect of a failing call is proved."},
 "C06": {"note": "All three classes."},
 "C07": {"note": "Identifiers are consecutive between clears; clear gives back the initial state."},
 "C08": {"note": "v1 - v2 keeps edges that are not edges of v1 (C08_view_sub_edges_refuted); C08_view_expressions describes the vertices and the edges of any nested expression exactly."},
 "C09": {"note": ""},
 "C10": {"note": "REFUTED: an existing transition to state 0 is replaced (truth value of the integer 0). The exact behaviour on every reachable automaton is proved: refusal when the target is not 0, otherwise exactly one new transition."},
 "C100": {"note": "The text of a view describes exactly the selected items for every set order; when the caller passes vs, edges to vertices outside vs remain (refuted witness)."},
 "C101": {"note": "False for texts containing ^, $ or a backslash: re_escape puts a backslash before them but the tokenizer has no such escape sequence, so compiling raises IndexError (refuted; C101_escape_raises_partial and C101_escape_iff_partial give the exact condition). A text with the Greek epsilon is refuted as well. Proved for every other text: the NFA accepts exactly w. re_escape is injective."},
 "C102": {"note": "Refuted on lists with several targets for one (source, symbol): a transition to the first name (state 0) is replaced by a later one, and stays in in_edges(0). Proved exactly for every list: which target is kept, the same automaton for both constructors, the exact in_edges, and that in_edges is the transpose iff no first-listed transition to the first name has another target; in particular for deterministic lists."},
 "C103": {"note": "Proved for every list, label map, final map and initial name, with the in-edges described from the list."},
 "C104": {"note": "Proved for every history: the style text and the GraphDp objects. C104_extra_dp: a GraphDp created after a string was appended to extra_style cannot be exported. The last part is false for a color on several lines (C104_two_lines_refuted); C104_round_trip_partial requires colors and strings on one line, besides the hypotheses of C62_directed_partial (edges between existing vertices, attributes on one line)."},
 "C105": {"note": "A constructor which calls its own class, and a class which is a key of another metaclass, are not modelled."},
 "C106": {"note": "IncidenceNodeAutomaton built by a disciplined history with set_initial and set_final, acyclic, default leaves, labels and visitor, fuel at least the number of states. The kept states are exactly the smallest of each class (symbol, accepted words, readable words). Acceptance is preserved exactly when the initial state is kept; if it is merged away every non-empty word raises KeyError (witness). C106_transitions: the final flags are unchanged and the remaining transitions are exactly the former ones of the kept states, redirected to the kept state of the class of their target."},
 "C107": {"note": "Equality, order, exceptions and hash described exactly for all descriptors; strict total order and order-independent sort on descriptors of one type (integers, strings, tuples of these), which the edges of graphs and of automata with string symbols have; set() keeps one of the equal descriptors and raises exactly when one holds a set. Refuted: the edges of an automaton whose symbols are of two types cannot be sorted. Floats and other objects are not modelled; the number that hash returns is not modelled."},
 "C108": {"note": "Refuted: the descriptor returned by add_edge is never one of edges() (C108_add_edge_never for every history), edge(u, v) raises TypeError exactly when there is a transition from u to v, and set(edges()) raises as soon as there is an edge. The order of the edges never compares the sets (C108_order)."},
 "C109": {"note": "Exact for every interleaving, except that add_edge(u, v) on a reversed graph adds an arc from v to u (C109_add_edge_reversed_refuted; C109_add_edge_reversed describes it exactly)."},
 "C11": {"note": "Refinement over all call sequences, failing calls and dangling targets included; the abstract map records the overwrite of C10."},
 "C110": {"note": "False: out_edges calls itself forever (RecursionError in Python) and remove_edge raises KeyError after removing one half of the edge; a second reversal restores the methods."},
 "C111": {"note": "False as stated: clear keeps the initial state(s) and the final flags, so a cleared automaton with no vertex may accept the empty word and a state created later may be final (witnesses for Automaton and Nfa). Proved for all programs: after ops, clear, ops' the automaton is the one a new empty one is after the set_initial/set_final calls of ops followed by ops' (for Automaton also the results of ops'); its language right after clear."},
 "C112": {"note": "False as stated only for the source, which a loop that improves its distance makes examined twice (witness). Proved without hypotheses on weights, comparison, visitor or maps: termination within one iteration per key plus one, discovery at most once, examined = source + discovered, the source at most twice and once without such a loop, the exact causes of the exceptions, and the origin of distances and predecessors."},
 "C113": {"note": "The texts are read by the DOT reader of DotSpec.v. C113_bk_tree (any distance), C113_bk_tree_elements (metrics: each element once), C113_ast (any expression accepted by shunting_yard_ast), C113_arguments, C113_missing."},
 "C114": {"note": "False for the default format svg (C114_write_refuted, C114_svg_never: it raises AttributeError after emptying the file). C114_write is exact for every format, DOT string, file and answer of dot."},
 "C115": {"note": "False for a color that contains a percent sign (C115_template_refuted). C115_template: the text is wrapped as documented iff the color has no percent sign. The effects of display_svg, display_body and ipynb_display_graph, and the text of beside, are exact for all arguments."},
 "C116": {"note": "UTF-8 is specified after RFC 3629, independently of the encoder and the decoder. The program dot is any function."},
 "C117": {"note": "The visitor records each call with the automaton as it is at this moment. C117_same_result holds on any automaton; C117_told and C117_any_leaves on automata built by disciplined programs (add_edge names existing states and does not hit a transition to state 0, remove_edge names an existing transition or an undefined one), with given leaves that are distinct states of the automaton and pmap_vlabel = pmap_elabel = None; termination is a hypothesis. C117_ends: the call never ends if a state of a cycle leads to a leaf, and ends otherwise."},
 "C118": {"note": "Proved for every pmap_vlabel, when pmap_elabel is None or gives the symbol of each transition (C118_labels_partial: the states kept, their behaviour, the accepted words, the returned height); without maps the function is the one of C48, on any automaton (C118_default). False for other pmap_elabel, even one to one (C118_edge_labels_refuted): a moved transition is created with the label as its symbol, which overwrites or drops a transition and loses words, whether they are spelled with the symbols or with the labels."},
 "C119": {"note": "The sets of states and the epsilon-transitions are proved (C119_states). The sets of symbols are refuted (C119_symbols_refuted): a symbol stays in alphabet() and sigma() after its last transition is removed by remove_edge, or by remove_vertex on the target. Proved: no symbol is missing (C119_complete_partial), they are exact when neither remove_edge nor remove_vertex was called (C119_symbols_partial), and exactly what they hold after any calls (C119_exact_partial)."},
 "C12": {"note": "For every reachable Automaton."},
 "C120": {"note": "The search reads the automaton that its visitor holds, at each step; the theorem is on every automaton, with an explicit bound on the number of rounds."},
 "C121": {"note": "revuz_height: any finite graph given by its in_edges and out_degree methods. revuz_minimize: IncidenceAutomaton and IncidenceNodeAutomaton built by a disciplined program, default leaves (any leaves for the non termination), labels and visitor, fuel at least the number of states. Non termination is None for every fuel. Acceptance is preserved when the initial state remains; otherwise the words accepted are given exactly. The final states and the transitions that remain are given exactly too."},
 "C122": {"note": "Extends C23 and C24 to the words excluded there: a symbol epsilon of the word consumes one epsilon-transition in the Nfa and is rejected by the deterministic automaton. C122_disagree exhibits the automaton and the word."},
 "C123": {"note": "Proved for Graph and UndirectedGraph as g_dup and for automata, for any finite source graph. Callbacks that modify g_dup are out of the model, except those of C78, which set final states. The state of g_dup after an exception is not observed."},
 "C124": {"note": "Full. C124_calls: any tokens, any sink, any visitor (raising or not); C124_tree: the exact calls for the infix form of a tree; C124_same_output: relation with the model without visitor of C30. The test `while o` on an empty-string token is dropped, as in C30."},
 "C125": {"note": "True of deterministic_inclusion, deterministic_intersection (both automata have an initial state), Trie.insert, trie_matching, moore_determination, hopcroft_minimize (final and non-final states, initial state present; the other cases of C47 do not depend on the order), revuz_minimize (no cycle leads to a leaf) and prune_incidence_automaton. Refuted for deterministic_union (one order accepts nothing, the other one every word); true when no word leads back to a single initial state (C125_union_partial). Refuted for make_shortest_path (two different paths; with a cycle of weight 0, a path or no end); both paths have the same weight when cycles have positive weight (C125_shortest_path_partial)."},
 "C126": {"note": "Proved for disciplined acyclic automata with a final and a non-final state, whose initial state has no smaller equivalent state: the two results are isomorphic. Refuted when the initial state has a smaller equivalent state (revuz_minimize removes it) and when all states are final (hopcroft_minimize raises). \"Equivalent\" is: same accepted words and same readable words."},
 "C127": {"note": "The second call may use another iteration order and another fuel. For hopcroft_minimize the automaton has a final state, a non-final state and an initial state, as in C47. For revuz_minimize no vertex of a cycle leads to a leaf, as in C121."},
 "C128": {"note": "C128_unambiguous, C128_attributes, C128_calls_directed, C128_calls_undirected and C128_same_graph prove the part on read_graphviz for all texts and all HTML parsers; the hooks are assumed not to raise and not to modify the graph. C128_dp_always and C128_dp_refuted: read_graphviz_dp raises TypeError on every input. C128_dp_hooks: what its two hooks would do."},
 "C129": {"note": "Stated for any object with the graph API whose vertices are listed once and whose edges stay among the vertices (plain_graph; two_way_graph when in_edges is used); C129_graphs shows that the graphs built by DirectedGraph, UndirectedGraph and IncidenceGraph programs are such objects. reverse_graph updates its argument in place; here the object before and after are two values."},
 "C13": {"note": "REFUTED by an overwritten transition to state 0 and by remove_edge with a wrong target (stale in-edges), and by add_edge towards an unknown vertex (missing in-edge); clear() may raise after such calls. Proved for all histories avoiding these cases (exact transpose); and C13_no_missing_partial: without excluding the overwritten transitions and the wrong remove_edge calls, every edge is still an in-edge of its target (only stale in-edges in excess)."},
 "C130": {"note": "The intersection is below both arguments and commutative, for all automata with an initial state. Idempotence is false for both products (witnesses) and characterised exactly by the two idempotent_partial theorems (an equivalence). The union is commutative and contains its arguments when the two automata return to their initial states together; it is not commutative in general (witness, with an iteration order of the sets that depends on the order of insertion)."},
 "C131": {"note": "C131_calls: the bounds on the executions and the calls, for any stack of at least max(1, len(x)+len(y)) calls. C131_exhaustive and C131_stack: they are reached on words without common letter. C131_stack_any and C131_stack_equal: the least depth for any words, and the exact one for equal words. C131_naive: the naive function is exponential without common letter; C131_equal: it is linear on equal words. The stack of Python is the fuel of the model; None stands for RecursionError."},
 "C132": {"note": "Full. tree_of (TrieSizeSpec) says states <-> words: reading, reachability, injectivity, and the count for any duplicate-free listing. is_trie covers insertions of words and of tries under any set order. Isomorphism uses the definition of MinSpec."},
 "C133": {"note": "Full. re_operator spells the regular expressions of RE_OPERATORS_RE; with_cat and grouped are relations, shown to determine the tokens. \\d is restricted to ASCII digits."},
 "C134": {"note": "Proved for every well-formed expression in which {0} is applied only to operands beginning at the state 0; C134_zero_repeats shows on (a|b){0}? and c(a|b){0} what happens otherwise. C134_linear: at most two states per character without {..}."},
 "C135": {"note": "Proved for any text. float() is abstract (it may raise anything)."},
 "C136": {"note": "Stated for g12 = None (a new Automaton). The if_push of the intersection takes the state 0 for a missing state; the theorem states exactly which pairs remain (see C44)."},
 "C137": {"note": "All parts proved for every graph whose edges join its vertices (C129_graphs: the graphs of the library meet this), every selection; the searches with the default if_push. Print Assumptions: closed."},
 "C138": {"note": "C138_insert_automaton (the result), C138_key_error (unmapped targets), C138_runs (the words read along the copy), C138_glued_concatenation, C138_same_object (aliasing: the dictionary of vertices grows while it is iterated). C138_same_empty: with the same object twice and no states, insert_automaton changes nothing, concatenation and alternation raise KeyError (alternation after it has added a state)."},
 "C139": {"note": "C139_union and C139_intersection: the result is g12 beside the product built in a new automaton (beside), and the words accepted (words_after), for every g12 whose next number is larger than its vertices, which holds after any calls (C139_numbered). C139_words_refuted: a product without state leaves the words of g12; a cleared g12 keeps final flags. g12 is another object than g1 and g2."},
 "C14": {"note": "REFUTED by remove_edge towards another vertex with the same symbol and by dangling targets. Proved for all other histories, with clear, set_initial and set_final included (C14_history_partial); and C14_no_missing_partial: whatever remove_edge names, every edge is still an in-edge of its target."},
 "C140": {"note": "Proved for both graph classes, for another graph with any history (C140_*_into) and for g itself. C140_dangling shows that the hypothesis on the targets is needed. Callbacks are not given (C123 covers them for an empty g_dup)."},
 "C141": {"note": "The operands may be g12 itself (None) or other objects, in any combination. C141_intersection: the run in place is the run on copies (the words then follow from C139 and C44). C141_union_copies: the same for the union when no transition of g12 leads to its initial state. C141_union: when no transition of the other operand leads to its initial state, the union stands beside g12 with its first state initial, and accepts exactly the words of the operands (if it has a state). Full claim false: C141_union_refuted (both parts), C141_dangling (never ends)."},
 "C142": {"note": "C142_into: g_dup with any history of calls; C142_self: g_dup is g, model of the search on the changing automaton in AutSelfCopy.v, with the callback that reads the final states of the automaton in its present state. C142_dangling: why C142_self asks that the transitions go to existing states. The maps are given by the caller: with omitted maps the call raises TypeError (C78)."},
 "C143": {"note": "Proved for every pmap_vlabel that separates the states with different symbols, and every pmap_elabel (C143_node_labels_partial); the minimality needs a pmap_elabel that depends on the target only, as the default one does. False without these conditions: C143_coarse_labels_refuted (words are lost), C143_source_labels_refuted (states with the same behaviour remain). Without maps the function is the one of C106, on any automaton (C143_default)."},
 "C144": {"note": "C144_same_result holds on any node automaton with any labels, orders and leaves. C144_told and C144_any_leaves hold on automata built by disciplined programs (as in C106), with given leaves that are distinct states, for labels such that two states with the same label have the same symbol (always true without pmap_vlabel); termination is a hypothesis. C144_ends: the call never ends if a state of a cycle leads to a leaf, and ends otherwise. C144_words draws the consequences from the calls alone. C144_coarse_labels_refuted: without the hypothesis on the labels the visitor may be told that a transition was moved with None as the new transition, and the transition is lost."},
 "C15": {"note": "Names of any type with decidable equality, sorted() by contract (a permutation); also the accepted language in terms of names."},
 "C16": {"note": "Full. Any sequence of insertions in an empty Trie, over any label type; no exception and language = inserted words."},
 "C17": {"note": "Full, for tries built by insertions."},
 "C18": {"note": "Full, for all tries built by insertions of words and tries, every set iteration order, with an explicit bound on the number of loop turns (termination)."},
 "C19": {"note": "Full. max_len None and 0 both mean \"no bound\", as in the code. The parameter g is covered too: several calls on the same suffix trie gather the factors of all the words (C19_several_words); on a trie built by insertions no accepted word is added, because the new states are not final (C19_given_trie)."},
 "C20": {"note": "Full: multiplicities (C20_factors) and the resulting set (C20_factors_set)."},
 "C21": {"note": "Full."},
 "C22": {"note": "Full, for every Nfa built by any sequence of calls; termination is part of the theorem (the loop never exceeds the number of edges + 2 turns)."},
 "C23": {"note": "Full, for epsilon-free words. (The code reads the symbol epsilon of a word as an extra epsilon-step.)"},
 "C24": {"note": "Full: all NFAs, both values of complete, any pop and symbol order, explicit bound on the loop turns."},
 "C25": {"note": "Every construction on arbitrary NFAs with one initial and one final state: no exception, the result has again one initial and one final state, and accepts the expected words (words without epsilon)."},
 "C26": {"note": "False of the code: (b a*)? accepts \"a\" (refuted). Proved instead: the exact language for every argument, the exact condition under which it is right, and that the condition holds when no transition enters q0 and none leaves f."},
 "C27": {"note": "False of the code for m = 0: (a|b){0,2} rejects \"ab\" (refuted). The result is now described exactly in all cases: right for every 1 <= m <= n and every m without upper bound; (0, 1) is zero_or_one (exact in C26); (0, n) with q0 = 0 accepts in addition the words read from f to f; (0, n) with q0 = p + 1 accepts a word read from state p to f followed by at most n - 1 words of the argument, so it is right iff that language is the expected one; (0, 0) accepts the empty word but returns an initial state that is not a state of the result; m > n raises AssertionError. The hypothesis that states are numbered 0, 1, 2.. in creation order holds of every fragment the constructions build (C27_numbered_partial)."},
 "C28": {"note": "False in general: (ba*)? accepts \"a\", (a|b){0,2} rejects \"ab\" (both follow from C27's refutations), and a class containing the Greek epsilon accepts the empty word. Proved for every well-formed syntax tree printed as text, tokenised, converted and compiled, when `safe` (no ? over a non-tidy operand, no {0,n} over an operand not starting at state 0); C28_compile_exact_partial gives the language actually accepted for the remaining expressions but {0,n} over an operand not starting at 0. compile_dfa likewise."},
 "C29": {"note": "All classes of single characters, ranges and escape sequences, negated or not, all alphabets. A hyphen stands for itself only in first place; within brackets \\D \\S \\W are relative to string.printable whatever the alphabet (the code passes no alphabet)."},
 "C30": {"note": "All operator tables and all trees whose infix form fits the table; parenthesised trees always fit; also for an arbitrary output sink. On any list of tokens (C30_any_tokens): IndexError exactly when a closing parenthesis is not matched, otherwise no token is lost."},
 "C31": {"note": "Proved for the grammar of the operator table without a plus sign; a plus sign always raises (second branch of RpnDequeAlg tests \"u-\" twice) and 2^-3 raises IndexError, shown by the _refuted theorem. C31_any_text says what kind of value is returned on any text: a number exactly when the text holds one, otherwise a string of opening parentheses. Number parsing and arithmetic are abstract and may raise."},
 "C32": {"note": "All strings and all increasing non-overlapping matches."},
 "C33": {"note": "The calls made by the search are exhibited as one sequence, the same for every visitor; finite_graph is proved for the graph and automaton classes. Also depth_first_search_graph."},
 "C34": {"note": "The subgraph is the part reachable from s through accepted edges; ancestors are read in the tree edges of the sequence of calls."},
 "C35": {"note": "Any graph given by out_edges; C35_graph is the DirectedGraph instance when every edge target is a vertex (otherwise dangling targets are listed too)."},
 "C36": {"note": "Any graph given by its out-edges, on the vertices reached from the given ones; C36_graph is the DirectedGraph instance when every edge target is a vertex."},
 "C37": {"note": "Proved: breadth_first_search_graph discovers exactly the reachable vertices, once, by non-decreasing distance (least number of accepted edges), examines each accepted out-edge of each discovered vertex once; tree edges increase the distance by one. C37_breadth_first_search: the entry point with a visitor."},
 "C38": {"note": "False: breadth_first_search without visitor raises AttributeError on any graph with a vertex (C38_default_visitor_never); witness C38_default_visitor_refuted."},
 "C39": {"note": "Proved without the acyclicity hypothesis."},
 "C40": {"note": "Proved for directed graphs (source s is always copied, relevant or not). False for UndirectedGraph: each edge is copied twice (witness); C40_undirected_graph says exactly what is copied: one edge for each direction in which a relevant edge leaves a reached vertex."},
 "C41": {"note": "Proved for out-edges of directed graphs. On an UndirectedGraph each edge is called back once from each end (witness); C41_undirected_graph is the exact statement."},
 "C42": {"note": "False without final state (witness): depth_first_search_graph with an empty source set starts from all vertices. C42_prune_partial: with a final state, exactly the useful states are kept; without, exactly the reachable ones; language, initial, final flags and in_edges are preserved in both cases, for every disciplined history (see C13)."},
 "C43": {"note": "Full: all pairs of automata, all iteration orders, termination included; the four results are characterised by language inclusions."},
 "C44": {"note": "False of the code: states numbered 0 are falsy in if_push, so the exploration stops there, and the empty word is lost when no common symbol leaves the initial states (two _refuted witnesses). Proved for all automata with an initial state: termination, no exception and the exact language of the result (C44_deterministic_intersection_exact), hence soundness, and the intersection under a condition on state 0. C44_no_initial: without an initial state it raises AttributeError, unless the other initial state has no transition."},
 "C45": {"note": "False of the code: pairs that contain one initial state are made initial, and the empty word is lost when there is no transition (two _refuted witnesses). Proved for all automata: termination, no exception and the exact language of the result, the union read after some word x that leads one automaton back to its initial state (C45_deterministic_union_exact); the union when no word leads back to a single initial state. Without an initial state every pair is made initial (ex_C45_no_initial)."},
 "C46": {"note": "Full for tries built by insertions of words: each counter is the size of the matching class of prefixes."},
 "C47": {"note": "IncidenceAutomaton built by a disciplined program, fuel at least the number of states, every order of iteration. Proved when there are final and non-final states and the initial state is a vertex: same language, states are the classes for \"same accepted and same readable words\", pairwise different languages if g is complete or every state accepts a word. Refuted otherwise: TypeError whenever all (or no) states are final and there is a transition (C47_crash is the general statement), dead states not merged, extra state for an empty group. The other cases are in THopcroftRest.v: AssertionError when the initial state is not a vertex (C47_no_initial), two states without transition when there is no transition (C47_no_transition)."},
 "C48": {"note": "IncidenceAutomaton built by a disciplined program, acyclic, default leaves and visitor, fuel at least the number of states. Remaining states keep their accepted words and are exactly the smallest states of the classes of states with the same accepted and the same readable words (by accepted words alone if leaves are final), the return value is the maximum height. The language is preserved when the initial state remains; otherwise the words accepted are given exactly, and a witness shows that the language changes (the initial state is not redirected when it is merged). Minimality w.r.t. accepted words refuted with dead states. C48_transitions: the final flags are unchanged and the transitions that remain are exactly the former ones of the kept states, redirected to the kept state of the class of their target."},
 "C49": {"note": "Full statement, on the algorithms of heapq themselves (heapify, heappush, heappop of the standard library are modelled, not assumed): any interleaving of operations returns what a first-in first-out priority queue returns; iteration, len and bool agree with it; instance for Comparable keys."},
 "C50": {"note": "Full statement."},
 "C51": {"note": "Weights are integers (floats not modelled). Holds with compare=None and with compare=Less(). C51_directed_graph instantiates it with the DirectedGraph model and sys.maxsize."},
 "C52": {"note": "With ClosedPlus: + unless an operand is INFINITY, so edges of weight INFINITY are recorded as predecessors of unreachable vertices. C52_reachable: plain + below infty."},
 "C53": {"note": "Proved whenever all cycles have positive weight, for every iteration order of the sets. With a cycle of weight 0 the function may never return (C53_zero_cycle_refuted); C53_when_it_ends: it raises nothing and if it returns, the path is right. C53_at_infty: what happens when the distance is infty."},
 "C54": {"note": "Proved for every t at distance below infty, with non-negative weights, and for t without any path. The statement is false of t whose paths all weigh infty or more (two witnesses); C54_at_infty gives exactly the edges returned for these t. C54_single_path: single_path=True yields the edges of one shortest path."},
 "C55": {"note": "vis=None. Proved when all cycles have positive weight, which the quantifier (positive weights) implies; C55_when_it_ends covers the cycles of weight 0."},
 "C56": {"note": "Full statement, for words over any type with decidable equality. The model is the row-by-row recursion through the memo table of the source; the specification is the least number of one-letter edits in a walk between the words."},
 "C57": {"note": "Full statement."},
 "C58": {"note": "Full statement, with the longest common subsequence characterisation and the metric axioms."},
 "C59": {"note": "False as stated: damerau_levenshtein_distance is the optimal string alignment distance, witness CA / ABC (3 instead of 2), and the triangle inequality fails. Proved instead: it is the least cost of a cut of the words in blocks (no letter edited twice), it separates and is symmetric."},
 "C60": {"note": "Full statement for any metric; corollary for the default levenshtein_distance; and a witness that with damerau_levenshtein_distance (not a metric) search misses a word within d_max."},
 "C61": {"note": "Full statement."},
 "C62": {"note": "Proved for directed graphs without dangling edges, any optional argument on one line, styles not starting with a digit. Undirected graphs: the connector -- is not recognised, so all the edges are lost (C62_undirected gives the exact result). A dangling edge raises KeyError; an attribute on two lines loses the vertex. GraphvizOptsParser (HTMLParser) is not modelled: its results are ignored by the default visitor."},
 "C63": {"note": "Full characterisation of the output by the independent relation [escapes]; outside the tags no character among <>[]{} and none below 32. \"No control character\" fails for U+007F-U+009F, which are copied. Injective on characters; the translation of strings is not injective (backslash is copied)."},
 "C64": {"note": "Absorption, plain behaviour and commutativity proved. Monotonicity of ClosedPlus REFUTED when a finite sum exceeds the absorbing value; proved otherwise. Exact integers instead of floats."},
 "C65": {"note": "Round trips, and each conversion keeps hue, maximum and chroma of every color (black and white included), in exact arithmetic."},
 "C66": {"note": ""},
 "C67": {"note": "The record of the calls, get and keys (TMisc.v); a search (depth_first_search, breadth_first_search, or any other that makes the same calls whatever the visitor) with an aggregated visitor leaves each visitor in the state it would reach alone, and when it raises, the exception is that of the first visitor of the list to raise on the first call on which one of them raises (TAgg.v)."},
 "C68": {"note": ""},
 "C69": {"note": "Any finite acyclic graph given by its in_edges and out_degree methods, default leaves; instance for IncidenceAutomaton. Fuel at least the number of vertices."},
 "C70": {"note": "Proved for every finite tree spanned by out_edges: dfs_tree visits every subtree contiguously, root first; bfs_tree by non-decreasing depth; exact call sequences."},
 "C71": {"note": "The class refines sets of transitions; the result of every call and the numbers of the parallel copies are specified too."},
 "C72": {"note": "The visitor does not raise and does not modify the maps."},
 "C73": {"note": "Any operator table whose keys do not include \"(\"; Suffix trees (repetitions of regular expressions) excluded from the first theorem; the second one covers any list of tokens and any arity."},
 "C74": {"note": "False of the code: shunting_yard_ast never sets root (KeyError), a root other than vertex 0 raises RuntimeError, a unary operator raises TypeError (a generator is subscripted). With root 0 and a binary tree the text reads back as the tree."},
 "C75": {"note": "Proved under the contract stated in the property; C75_contract_needed shows a heap on which an increased key of a duplicated element leaves an entry with its old key."},
 "C76": {"note": "Partly false. Witnesses: remove_edge of an edge (q, r) that does not exist removes the transition of q with the symbol of r; clear() keeps the symbols and the final flags; an edge added before its target exists is stored under None and survives remove_vertex; alphabet() is the set of the symbols of the non-initial states, not that of the labels of the transitions; accepts raises KeyError when the initial state does not exist. Proved: under the discipline that the targets of added edges exist, exact agreement with the machine nv_step on all histories, for all observations, and the language as labelled paths."},
 "C77": {"note": "Partly false. Witnesses: pmap_vfinal is read at the vertex descriptors instead of the names (in the docstring example no state is final); the default pmap_vlabel raises TypeError; of two transitions from a state to states with the same symbol only the first is kept. Proved: the exact result for every list of transitions, KeyError exactly when q0n is not a name, and the language when the list is deterministic and pmap_vfinal agrees with the names at the descriptors."},
 "C78": {"note": "False with the default arguments: make_assoc_property_map(dict()) raises TypeError (C78_default_maps_never), and without callback the final states are not copied (C78_finals_refuted). Proved when both maps are given: termination, isomorphism with the relevant part reached from s, initial state, and the language, for any callback_dup_vertex that sets final flags. The calls of both callbacks are in C123."},
 "C79": {"note": "Proved when some states are final and some are not (C79_hopcroft_trim_partial, C79_hopcroft_complete_partial; uniqueness up to isomorphism included). Refuted otherwise: on one final state without transition two states are returned (C79_single_state_refuted); with a transition and only final states the call raises (C47_crash)."},
 "C80": {"note": "Full statement. Minimal among all deterministic automata (wf_dfa, MinSpec.v) of the same language, and unique up to isomorphism."},
 "C81": {"note": "Full statement for every string given to read_graphviz (str.splitlines included), for DirectedGraph and UndirectedGraph, with the default visitor; the attributes are ignored by that visitor. Spec: lines_of, means, builds in ReadDotSpec.v."},
 "C82": {"note": "Full, for weights of any type: distances, predecessors, order of the examinations; C82_widest_paths states the instance GreaterThan/ClosedMin in terms of the widths of the paths."},
 "C83": {"note": "True when going around a cycle makes a path strictly worse (C83_make_shortest_path, C83_dijkstra_shortest_path). False without this hypothesis, and in particular of the widest paths: C83_widest_path_refuted gives a graph on which both functions never end for some order of the sets."},
 "C84": {"note": "The subset construction theorem and the equality of states hold for every program; the absence of a trash state with complete=False holds for programs that never remove an edge or a vertex, and is refuted after remove_edge."},
 "C85": {"note": "Proved: other colors are unchanged; the exact set of texts starting with \"hsl\" that are read, the color they give, and ValueError on all others; the texts that int() reads. Refuted: the other HSL notations of HTML raise ValueError, and without the closing parenthesis the last character is silently dropped. Floats are exact rationals, str of a float is a parameter."},
 "C86": {"note": "Stated on the sequence of the visitor calls, one source or all. Hypotheses: all colors WHITE (the colors of a fresh map), source(e) = u for every out-edge of u."},
 "C87": {"note": "Invariant and search from any node proved for every metric. Insertion from a node: equal to the insertion from the root when the node is on the way of the element; refuted otherwise (witness: the inserted element is not found). C87_insert_from says exactly what an insertion from any node does to later searches."},
 "C88": {"note": "Proved from the least alignments, for words over any alphabet with decidable equality."},
 "C89": {"note": "The exact language after the insertion is proved for any automaton. The claim that only w is added is refuted (a state reached by two words; a final flag set in advance) and proved when one word only leads to each state."},
 "C90": {"note": "Composition of the model of automaton_insert_string on IncidenceAutomaton with C80 and C79. For hopcroft_minimize the hypothesis on prefixes excludes the known defect of C79."},
 "C91": {"note": "Proved: termination, the exact structure of the calls (FIFO order, outcome of each edge, colors), the examined pairs are the reachable ones (when if_push depends on the target pair, in particular for the default one), once each and by distance outside of the sources, and which sources are discovered again. Refuted: sources examined once; an edge accepted by if_push leads to an examined pair; finish_vertex receives g1 (it gets g2 twice)."},
 "C92": {"note": "The trace is unique (performs_unique), so the theorems about a trace t hold of the calls of the code. The documentation of gray_target says that the vertex is currently in the queue: with a loop it is the examined vertex, which has left the queue, hence 'discovered and not finished'. The hypothesis source e = u for the edges of out_edges u holds of Graph, not of UndirectedGraph."},
 "C93": {"note": "False in general: nothing is escaped (C93_not_json_refuted: a quote in a label gives a text which is not JSON; C93_other_graph_refuted: a label can add a vertex; C93_backslash_refuted). C93_to_json is the full statement when the names and the values of the attributes have no quote, no backslash and no control character. The JSON reader of JsonSpec.v follows RFC 8259."},
 "C94": {"note": "False for extra_style: enrich_kwargs calls items() on a list, so a GraphDp with an extra_style cannot be exported (C94_extra_style_refuted), and get_dpe reads an attribute which does not exist. C94_to_dot and C94_raises say exactly what to_dot does and when it raises."},
 "C95": {"note": "False in general, since C28 is (C95_compare_refuted: (ba*)? against a|(ba*) gives -1). Proved for all well formed and safe expressions (C95_compare_partial: termination, uniqueness of the result, the four relations on the languages defined by denote); for the other expressions, except x{0,n} with x beginning with an alternative, a star or a plus, the same with the languages that the automata really have (C95_compare_exact_partial). C95_equal turns one terminating run into a proof that two expressions have the same words, used in C95_example on (a|b)* and (a*b*)*. Words with the epsilon character are left out as in C28."},
 "C96": {"note": "C96_minimal_partial (all NFAs built by calls) and C96_regexp_partial (all well formed safe expressions): minimal among the complete automata on the alphabet, unique up to renaming, when some word is accepted and some word on the alphabet is not. C96_crash: TypeError in the other cases (nonempty alphabet), so the statement without that condition is false, C96_crash_refuted: a*. The determination with an IncidenceAutomaton is proved to build the same automaton as the one with an Automaton, by calls that maintain in_edges."},
 "C97": {"note": "C97_delta_best_effort and C97_accepts_debug hold for all automata and words, with is_final(BOTTOM) = False, which is the default. C97_accepts_debug_bottom: exactly on which words accepts_debug is wrong after set_final(BOTTOM); C97_accepts_debug_refuted is a witness. print is modelled by the values printed, not by their texts."},
 "C98": {"note": "False in general: a quote in a value ends it, so a value can add a vertex to the text (C98_quote_refuted); after a value ending with a backslash or a label with \"<\" inside a tag, the text ends inside a string (C98_backslash_refuted, C98_label_refuted). C98_dot_partial is the full statement when attribute names are DOT names, values have no quote and no ambiguous backslash, labels have no \"<\" inside a tag and the styles given as texts are DOT statements. The reader of DotSpec.v follows the grammar of Graphviz and accepts a part of it only."},
 "C99": {"note": "The texts describe the states, final states and transitions exactly and determine them (same-text theorems are equivalences); that the text determines the language is refuted: the initial state of Automaton and Nfa is not in the text, and a symbol ^ in a NodeAutomaton looks like the initial state. With the same initial state the language is determined (C99_language)."}
}
