{"id": "C01", "title": "DirectedGraph behaves as a plain set of vertices and edge descriptors", "statement": "After any sequence of add_vertex, add_edge, remove_edge, remove_vertex and clear calls on a DirectedGraph, every call's result (including the KeyErrors) and the content of vertices(), edges(), out_edges(u), num_vertices(), num_edges(), out_degree(u), edge(u, v), has_vertex() and has_edge() are those of an abstract state consisting only of a next-vertex counter, a list of vertices and a list of (source, target, distinguisher) triples.", "quantifier": "all initial sizes, all finite call sequences with arbitrary arguments (including unknown vertices and edges)", "why_tests_cant": "Any finite sequence of method calls is a history; tests replay a handful of them.", "anchors": ["src/pybgl/graph.py: Graph, DirectedGraph, EdgeDescriptor"]}
{"id": "C02", "title": "add_edge always creates exactly one new, distinct edge", "statement": "In a DirectedGraph whose source vertex exists, add_edge(u, v) succeeds, returns a descriptor (u, v, n) that was not in the graph before the call, and the edges afterwards are the edges before plus that descriptor, even when parallel edges exist or were removed in between.", "quantifier": "all reachable graphs, all u, v", "why_tests_cant": "Parallel edges and deletions interleave in unboundedly many ways.", "anchors": ["src/pybgl/graph.py: Graph.add_edge"]}
{"id": "C03", "title": "UndirectedGraph is symmetric under any history", "statement": "After any sequence of calls on an UndirectedGraph whose add_edge calls use existing vertices, edges() lists every edge once with source <= target, (u, v, n) is an out-edge of u iff (v, u, n) is an out-edge of v, in_edges equals out_edges, and an edge can be removed through either orientation of its descriptor; results are those of an abstract set of unordered edges.", "quantifier": "all sizes, all call sequences whose add_edge endpoints exist when called", "why_tests_cant": "Any finite sequence of method calls is a history; tests replay a handful of them.", "anchors": ["src/pybgl/graph.py: UndirectedGraph"]}
{"id": "C04", "title": "IncidenceGraph in_edges mirror out_edges under any history", "statement": "After any sequence of calls on an IncidenceGraph whose add_edge calls use existing vertices, in_edges(v) lists exactly the edges of edges() whose target is v, each once, and vertices()/edges()/out_edges() agree with the DirectedGraph abstraction.", "quantifier": "all sizes, all call sequences whose add_edge endpoints exist when called", "why_tests_cant": "Any finite sequence of method calls is a history; tests replay a handful of them.", "anchors": ["src/pybgl/incidence_graph.py: IncidenceGraph"]}
{"id": "C05", "title": "A failing add_edge leaves the graph unchanged", "statement": "If add_edge raises, the graph is observably the same as before the call (DirectedGraph, UndirectedGraph, IncidenceGraph).", "quantifier": "all reachable graphs, all arguments", "why_tests_cant": "Exception safety must hold at every point at which an exception can be raised.", "anchors": ["src/pybgl/graph.py: Graph.add_edge, UndirectedGraph.add_edge", "src/pybgl/incidence_graph.py: IncidenceGraph.add_edge"]}
{"id": "C06", "title": "remove_vertex removes the vertex and exactly its incident edges", "statement": "After remove_vertex(u) of an existing vertex, the vertices are the previous ones minus u and the edges are exactly the previous edges that do not touch u (DirectedGraph, UndirectedGraph, IncidenceGraph).", "quantifier": "all reachable graphs, all vertices, incl. self-loops and parallel edges", "why_tests_cant": "Any finite sequence of method calls is a history; tests replay a handful of them.", "anchors": ["src/pybgl/graph.py: Graph.remove_vertex", "src/pybgl/incidence_graph.py: IncidenceGraph.remove_vertex"]}
{"id": "C07", "title": "Vertex descriptors are never reused before clear", "statement": "add_vertex returns a descriptor that is not currently a vertex and that was never returned before since the creation or the last clear() of the graph; clear() leaves a graph without vertices nor edges.", "quantifier": "all histories", "why_tests_cant": "Any finite sequence of method calls is a history; tests replay a handful of them.", "anchors": ["src/pybgl/graph.py: Graph.add_vertex, Graph.clear"]}
{"id": "C08", "title": "GraphView exposes exactly the selected subgraph and views combine like sets", "statement": "vertices()/edges()/out_edges()/in_edges() of a view list exactly the underlying items that are selected and whose endpoints are selected; v1 | v2, v1 & v2 and v1 - v2 select the union, intersection and difference of the vertices, and the edges of v1 - v2 are edges of v1.", "quantifier": "all graphs and all vertex/edge predicates", "why_tests_cant": "Predicates are arbitrary functions.", "anchors": ["src/pybgl/graph_view.py: GraphView"]}
{"id": "C09", "title": "reverse_graph swaps directions and is an involution", "statement": "After reverse_graph(g), out_edges(u) are the former in_edges(u) and conversely, source and target are swapped, reachability is exactly the converse relation, and a second reverse_graph restores the graph.", "quantifier": "all incidence graphs", "why_tests_cant": "Holds for every graph.", "anchors": ["src/pybgl/reverse.py: reverse_graph"]}
{"id": "C10", "title": "Automaton.add_edge never changes an existing transition", "statement": "Whenever delta(q, a) is already defined, add_edge(q, r, a) returns (None, False) and leaves the automaton unchanged; otherwise it adds exactly the transition q -a-> r.", "quantifier": "all reachable automata, all q, r, a", "why_tests_cant": "Any finite sequence of method calls is a history; tests replay a handful of them.", "anchors": ["src/pybgl/automaton.py: Automaton.add_edge, Automaton.delta"]}
{"id": "C11", "title": "Automaton behaves as a partial transition function under any history", "statement": "After any sequence of add_vertex, add_edge, remove_edge, remove_vertex, set_initial and set_final calls on an Automaton, results and the content of vertices, edges, out_edges, sigma, alphabet, delta, edge, initial, is_final, finals and is_complete are those of an abstract finite map from (state, symbol) to state together with an initial state and a final predicate.", "quantifier": "all histories", "why_tests_cant": "Any finite sequence of method calls is a history; tests replay a handful of them.", "anchors": ["src/pybgl/automaton.py: Automaton"]}
{"id": "C12", "title": "accepts(w) decides the language of the automaton", "statement": "accepts(w) holds iff edges() contains a path spelled w from initial() to a final state; delta_word(q, w) is the end of that unique path.", "quantifier": "all automata, all words", "why_tests_cant": "Words are unboundedly long.", "anchors": ["src/pybgl/automaton.py: Automaton.accepts, Automaton.delta_word"]}
{"id": "C13", "title": "IncidenceAutomaton in_edges mirror out_edges under any history", "statement": "After any sequence of calls, in_edges(r) lists exactly the edges of edges() whose target is r.", "quantifier": "all histories", "why_tests_cant": "Any finite sequence of method calls is a history; tests replay a handful of them.", "anchors": ["src/pybgl/incidence_automaton.py: IncidenceAutomaton"]}
{"id": "C14", "title": "IncidenceNodeAutomaton in_edges mirror out_edges under any history", "statement": "After any sequence of calls, in_edges(r) lists exactly the edges of edges() whose target is r.", "quantifier": "all histories", "why_tests_cant": "Any finite sequence of method calls is a history; tests replay a handful of them.", "anchors": ["src/pybgl/incidence_node_automaton.py: IncidenceNodeAutomaton", "src/pybgl/node_automaton.py: NodeAutomaton"]}
{"id": "C15", "title": "make_automaton builds the automaton described by its transition list", "statement": "make_automaton(transitions, q0, final) of a deterministic transition list has one state per name, exactly the listed transitions, the named initial state and the named final states.", "quantifier": "all deterministic transition lists over totally ordered names", "why_tests_cant": "Unbounded inputs.", "anchors": ["src/pybgl/automaton.py: make_automaton"]}
{"id": "C16", "title": "A Trie accepts exactly the inserted words", "statement": "After inserting any sequence of words in an empty Trie, accepts(w) holds iff w was inserted.", "quantifier": "all finite sequences of words (incl. empty word, prefixes, duplicates), all queries", "why_tests_cant": "Set of words and queries unbounded.", "anchors": ["src/pybgl/trie.py: Trie.insert", "src/pybgl/automaton.py: automaton_insert_string, delta_best_effort"]}
{"id": "C17", "title": "Trie.num_edges is the number of edges", "statement": "For every Trie built by word insertions, num_edges() is the length of edges() and equals num_vertices() - 1.", "quantifier": "all sequences of insertions", "why_tests_cant": "Optimised shortcut must hold for every trie.", "anchors": ["src/pybgl/trie.py: Trie.num_edges"]}
{"id": "C18", "title": "Inserting a trie in a trie computes the union", "statement": "t1.insert(t2) makes t1 accept exactly the words accepted by t1 or t2 before the call.", "quantifier": "all pairs of tries, every iteration order of sets", "why_tests_cant": "Unbounded tries and hash orders.", "anchors": ["src/pybgl/trie.py: trie_deterministic_fusion, TrieDeterministicFusion"]}
{"id": "C19", "title": "make_suffix_trie recognises exactly the factors", "statement": "make_suffix_trie(w, max_len) accepts u iff u is a contiguous factor of w (of length at most max_len when max_len is given and non-zero).", "quantifier": "all words, all bounds, all queries", "why_tests_cant": "Unbounded words.", "anchors": ["src/pybgl/suffix_trie.py: make_suffix_trie"]}
{"id": "C20", "title": "factors(s, max_len) enumerates the factors", "statement": "factors yields exactly the factors of s (with the length bound), the empty word exactly once, and every other factor once per occurrence.", "quantifier": "all words, all bounds", "why_tests_cant": "Unbounded words.", "anchors": ["src/pybgl/suffix_trie.py: slices, factors"]}
{"id": "C21", "title": "DigitalSequence(w) is an automaton for {w}", "statement": "accepts(u) iff u == w; vertices are 0..len(w); edges are the consecutive letters; in_edges mirrors out_edges.", "quantifier": "all words, all queries", "why_tests_cant": "Unbounded words.", "anchors": ["src/pybgl/digital_sequence.py: DigitalSequence"]}
{"id": "C22", "title": "Nfa.delta_epsilon is the epsilon-closure and terminates", "statement": "delta_epsilon(qs) terminates and returns exactly the states reachable from qs by epsilon-transitions.", "quantifier": "all NFAs (cycles included), all sets", "why_tests_cant": "Cyclic graphs of any size.", "anchors": ["src/pybgl/nfa.py: Nfa.delta_epsilon, Nfa.delta_one_step"]}
{"id": "C23", "title": "Nfa.accepts decides the NFA language", "statement": "For every word without the epsilon symbol, accepts(w) iff some path of transitions, with epsilon-transitions inserted anywhere, spells w from an initial state to a final state.", "quantifier": "all NFAs, all epsilon-free words", "why_tests_cant": "Unbounded.", "anchors": ["src/pybgl/nfa.py: Nfa.accepts, Nfa.delta_word, Nfa.delta"]}
{"id": "C24", "title": "moore_determination preserves the language", "statement": "The DFA returned by moore_determination(nfa, complete=c) accepts w iff nfa accepts w, for both values of c, and terminates; with complete=True every state has a transition for every symbol of the NFA alphabet.", "quantifier": "all NFAs, all epsilon-free words, every iteration order", "why_tests_cant": "Unbounded.", "anchors": ["src/pybgl/moore_determination.py: moore_determination"]}
{"id": "C25", "title": "Thompson combinators compute the regular operations", "statement": "literal, bracket, concatenation, alternation, zero_or_more, one_or_more and repetition return an NFA whose language is {a}, a class, L1.L2, L1|L2, L*, L+ and L^m.", "quantifier": "all argument NFAs with one initial and one final state, all words", "why_tests_cant": "Unbounded automata and words.", "anchors": ["src/pybgl/thompson_compile_nfa.py"]}
{"id": "C26", "title": "zero_or_one computes L | {empty word}", "statement": "zero_or_one(nfa, q0, f) returns an NFA accepting exactly the empty word and the words of nfa.", "quantifier": "all argument NFAs built by the Thompson combinators, all words", "why_tests_cant": "Unbounded.", "anchors": ["src/pybgl/thompson_compile_nfa.py: zero_or_one"]}
{"id": "C27", "title": "repetition_range computes the bounded repetition", "statement": "repetition_range(nfa, q0, f, m, n) accepts exactly the concatenations of k words of nfa with m <= k (<= n when n is not None).", "quantifier": "all argument NFAs built by the Thompson combinators, all bounds, all words", "why_tests_cant": "Unbounded.", "anchors": ["src/pybgl/thompson_compile_nfa.py: repetition_range"]}
{"id": "C28", "title": "thompson_compile_nfa accepts the language of the regular expression", "statement": "For every regular expression, the compiled NFA (and compile_dfa) accepts exactly the words the expression denotes.", "quantifier": "all regular expression syntax trees, all words", "why_tests_cant": "Unbounded.", "anchors": ["src/pybgl/thompson_compile_nfa.py: thompson_compile_nfa", "src/pybgl/regexp.py: compile_nfa, compile_dfa"]}
{"id": "C29", "title": "parse_bracket denotes the character class", "statement": "parse_bracket of a class made of single characters and ranges lo-hi returns exactly the characters in the union of those singletons and closed intervals (complemented w.r.t. the alphabet when it starts with ^).", "quantifier": "all lists of items, all alphabets", "why_tests_cant": "Unbounded.", "anchors": ["src/pybgl/thompson_compile_nfa.py: parse_bracket"]}
{"id": "C30", "title": "shunting_yard_postfix outputs the postfix form of the expression tree", "statement": "For every expression tree, running shunting_yard_postfix on its infix token list outputs the post-order of the tree, honouring precedence and associativity of the operator table.", "quantifier": "all operator tables, all expression trees whose infix form is unambiguous for the table", "why_tests_cant": "Unbounded trees.", "anchors": ["src/pybgl/shunting_yard_postfix.py: shunting_yard_postfix"]}
{"id": "C31", "title": "shunting_yard_compute evaluates arithmetic expressions", "statement": "shunting_yard_compute returns the arithmetic value of the expression, unary signs included.", "quantifier": "all expression trees", "why_tests_cant": "Unbounded trees.", "anchors": ["src/pybgl/shunting_yard_postfix.py: RpnDequeAlg, shunting_yard_compute, AlgTokenizeVisitor"]}
{"id": "C32", "title": "tokenize reports a partition of the input", "statement": "The pieces reported by on_unmatched and on_matched, in call order, are non-empty, carry their exact position, and concatenate to the input string.", "quantifier": "all strings, all tokenizers returning increasing non-overlapping matches", "why_tests_cant": "Unbounded strings.", "anchors": ["src/pybgl/tokenize.py: tokenize"]}
{"id": "C33", "title": "depth_first_search visits exactly the reachable part of the graph, once", "statement": "depth_first_search(s) terminates; it discovers each vertex reachable from s through accepted edges exactly once and no other vertex, finishes each discovered vertex exactly once, and examines each accepted out-edge of each discovered vertex exactly once; discovered vertices end BLACK and the colors of the others are unchanged.", "quantifier": "all finite graphs, all sources, all if_push predicates, all-WHITE initial colors", "why_tests_cant": "Unbounded graphs.", "anchors": ["src/pybgl/depth_first_search.py: depth_first_search"]}
{"id": "C34", "title": "depth_first_search reports a back edge iff the searched part is cyclic", "statement": "back_edge is called for some edge iff the subgraph reachable from the source through accepted edges contains a cycle; when back_edge(e) is called, the target of e is an ancestor of its source in the search tree.", "quantifier": "all finite graphs", "why_tests_cant": "Unbounded graphs.", "anchors": ["src/pybgl/depth_first_search.py: depth_first_search"]}
{"id": "C35", "title": "topological_sort orders every DAG and rejects every cyclic graph", "statement": "On an acyclic directed graph the result lists each vertex exactly once and every edge goes from an earlier to a later vertex; on a graph with a cycle it raises RuntimeError.", "quantifier": "all finite directed graphs", "why_tests_cant": "Unbounded graphs.", "anchors": ["src/pybgl/topological_sort.py: topological_sort, TopologicalSortVisitor"]}
{"id": "C36", "title": "strong_components computes the strongly connected components", "statement": "After strong_components(g, component), component[u] == component[v] iff u and v are mutually reachable; the ids are 0..total-1 where total is the returned value; and component[u] >= component[v] for every edge (u, v). At the end the visitor gives the order of discovery in pmap_discover_time and, in pmap_root, the vertex of the component that was discovered first; its stack is empty.", "quantifier": "all finite directed graphs", "why_tests_cant": "Unbounded graphs.", "anchors": ["src/pybgl/strong_components.py: strong_components, TarjanVisitor"]}
{"id": "C37", "title": "breadth_first_search_graph visits exactly the reachable part, in order of distance", "statement": "It terminates, discovers each vertex reachable from the sources exactly once and no other, examines each accepted out-edge of each discovered vertex exactly once, and discovers vertices by non-decreasing number of edges from the sources.", "quantifier": "all finite graphs, all source lists without duplicates, all if_push predicates", "why_tests_cant": "Unbounded graphs.", "anchors": ["src/pybgl/breadth_first_search.py: breadth_first_search_graph"]}
{"id": "C38", "title": "breadth_first_search works with its default visitor", "statement": "breadth_first_search(s, g) called without visitor performs the traversal.", "quantifier": "all graphs", "why_tests_cant": "Every graph.", "anchors": ["src/pybgl/breadth_first_search.py: breadth_first_search"]}
{"id": "C39", "title": "cut returns a vertex cut", "statement": "In an acyclic graph, every path from s to a sink meets cut(s, g, in_cut); the result is made of the targets of reachable cutting edges and of the sinks reachable without crossing a cutting edge.", "quantifier": "all finite graphs, all edge predicates", "why_tests_cant": "Unbounded graphs.", "anchors": ["src/pybgl/cut.py: cut"]}
{"id": "C40", "title": "graph_copy builds an isomorphic copy of the relevant reachable subgraph", "statement": "graph_copy(s, g, g_dup) into an empty graph maps the relevant vertices reachable from s one-to-one to the vertices of g_dup, and the relevant edges between them one-to-one to the edges of g_dup, preserving endpoints.", "quantifier": "all finite graphs, all relevance predicates", "why_tests_cant": "Unbounded graphs.", "anchors": ["src/pybgl/graph_copy.py: graph_copy, DepthFirstSearchCopyVisitor"]}
{"id": "C41", "title": "graph_extract calls back exactly the relevant reachable items", "statement": "graph_extract calls callback_vertex_extract exactly once per vertex reachable from s through relevant edges and vertices, and callback_edge_extract exactly once per relevant edge between them.", "quantifier": "all finite graphs, all predicates", "why_tests_cant": "Unbounded graphs.", "anchors": ["src/pybgl/graph_extract.py: graph_extract"]}
{"id": "C42", "title": "prune_incidence_automaton keeps exactly the useful states", "statement": "After pruning, the states are exactly those reachable from the initial state and from which a final state is reachable, and the language is unchanged.", "quantifier": "all incidence automata", "why_tests_cant": "Unbounded automata.", "anchors": ["src/pybgl/prune_incidence_automaton.py: prune_incidence_automaton, find_reachable_vertices"]}
{"id": "C43", "title": "deterministic_inclusion decides inclusion and equality of languages", "statement": "It terminates and returns 0 iff the languages are equal, 1 iff L(g1) is strictly included in L(g2), -1 iff L(g2) is strictly included in L(g1), None iff neither is included in the other.", "quantifier": "all pairs of automata, every iteration order", "why_tests_cant": "Unbounded automata, all words.", "anchors": ["src/pybgl/deterministic_inclusion.py: deterministic_inclusion", "src/pybgl/parallel_breadth_first_search.py"]}
{"id": "C44", "title": "deterministic_intersection recognises the intersection", "statement": "The returned automaton accepts w iff both arguments accept w.", "quantifier": "all pairs of automata, all words, every iteration order", "why_tests_cant": "Unbounded.", "anchors": ["src/pybgl/deterministic_intersection.py: deterministic_intersection"]}
{"id": "C45", "title": "deterministic_union recognises the union", "statement": "The returned automaton accepts w iff one of the arguments accepts w.", "quantifier": "all pairs of automata, all words, every iteration order", "why_tests_cant": "Unbounded.", "anchors": ["src/pybgl/deterministic_union.py: deterministic_union"]}
{"id": "C46", "title": "trie_matching counts the prefixes of each class", "statement": "The four counters are the numbers of distinct prefixes (states of at least one trie) final in none, only the first, only the second, or both tries.", "quantifier": "all pairs of tries", "why_tests_cant": "Unbounded.", "anchors": ["src/pybgl/trie_matching.py: trie_matching"]}
{"id": "C47", "title": "hopcroft_minimize preserves the language and merges equivalent states", "statement": "On every automaton, hopcroft_minimize terminates and returns an automaton accepting the same words, no two states of which are equivalent.", "quantifier": "all incidence automata, all words, every iteration order", "why_tests_cant": "Unbounded.", "anchors": ["src/pybgl/hopcroft_minimize.py"]}
{"id": "C48", "title": "revuz_minimize preserves the language", "statement": "On every acyclic automaton, revuz_minimize leaves an automaton accepting the same words, and no two remaining states reaching a leaf have the same right language.", "quantifier": "all acyclic incidence automata, all words", "why_tests_cant": "Unbounded.", "anchors": ["src/pybgl/revuz_minimize.py"]}
{"id": "C49", "title": "Heap pops in order, first-in first-out among ties", "statement": "Popping a Heap yields the stored elements by increasing key, ties by insertion order, whatever the interleaving of push and pop; no element is lost or duplicated.", "quantifier": "all key functions into a total order, all operation sequences", "why_tests_cant": "Unbounded histories.", "anchors": ["src/pybgl/heap.py: Heap"]}
{"id": "C50", "title": "Comparable turns a total preorder into a consistent ordering", "statement": "For every total preorder, the six comparison operators of Comparable are mutually consistent: <= is the preorder, < is its strict part, == its equivalence, and >, >=, != their converses/negation.", "quantifier": "all total preorders", "why_tests_cant": "Arbitrary preorders.", "anchors": ["src/pybgl/heap.py: Comparable"]}
{"id": "C51", "title": "dijkstra_shortest_paths computes exact distances", "statement": "With non-negative weights it terminates and pmap_vdist[v] is the least weight of a path from s to v when that weight is below infty, infty otherwise.", "quantifier": "all finite graphs, all non-negative weights, all sources", "why_tests_cant": "Unbounded graphs.", "anchors": ["src/pybgl/dijkstra_shortest_paths.py: dijkstra_shortest_paths"]}
{"id": "C52", "title": "dijkstra_shortest_paths records all tight in-edges", "statement": "Afterwards pmap_vpreds[v] is exactly the set of edges (u, v) with dist[u] + weight == dist[v] and u reachable.", "quantifier": "all finite graphs, all non-negative weights", "why_tests_cant": "Unbounded graphs.", "anchors": ["src/pybgl/dijkstra_shortest_paths.py: dijkstra_shortest_paths_iteration"]}
{"id": "C53", "title": "make_shortest_path returns a shortest path", "statement": "After dijkstra_shortest_paths, make_shortest_path(g, s, t, preds) terminates and returns the edges of a path from s to t whose weight is dist[t], for every reachable t.", "quantifier": "all finite graphs, all non-negative weights, every set iteration order", "why_tests_cant": "Unbounded.", "anchors": ["src/pybgl/dijkstra_shortest_paths.py: make_shortest_path"]}
{"id": "C54", "title": "make_shortest_paths_dag returns exactly the edges of the shortest paths", "statement": "make_shortest_paths_dag(g, s, t, preds) is the set of edges lying on some shortest path from s to t.", "quantifier": "all finite graphs, positive weights", "why_tests_cant": "Unbounded.", "anchors": ["src/pybgl/dijkstra_shortest_paths.py: make_shortest_paths_dag"]}
{"id": "C55", "title": "dijkstra_shortest_path stops early without changing the answer", "statement": "dijkstra_shortest_path(g, s, t) returns None iff t is not reachable (below infty) and otherwise a path of minimal weight.", "quantifier": "all finite graphs, positive weights", "why_tests_cant": "Unbounded.", "anchors": ["src/pybgl/dijkstra_shortest_paths.py: dijkstra_shortest_path"]}
{"id": "C56", "title": "levenshtein_distance is the least number of edits", "statement": "levenshtein_distance(x, y) is the least number of single-character insertions, deletions and substitutions turning x into y.", "quantifier": "all pairs of words", "why_tests_cant": "Unbounded words.", "anchors": ["src/pybgl/levenshtein_distance.py"]}
{"id": "C57", "title": "levenshtein_distance is a metric", "statement": "It is 0 iff x == y, symmetric, and satisfies the triangle inequality.", "quantifier": "all words", "why_tests_cant": "Unbounded words.", "anchors": ["src/pybgl/levenshtein_distance.py"]}
{"id": "C58", "title": "lcs_distance is len(x) + len(y) - 2 * LCS(x, y)", "statement": "lcs_distance(x, y) is the least number of insertions and deletions turning x into y, i.e. len(x) + len(y) minus twice the length of a longest common subsequence; it is a metric.", "quantifier": "all pairs of words", "why_tests_cant": "Unbounded words.", "anchors": ["src/pybgl/lcs_distance.py"]}
{"id": "C59", "title": "damerau_levenshtein_distance is the least number of edits with swaps", "statement": "damerau_levenshtein_distance(x, y) is the least number of insertions, deletions, substitutions and adjacent swaps turning x into y, hence a metric.", "quantifier": "all pairs of words", "why_tests_cant": "Unbounded words.", "anchors": ["src/pybgl/damerau_levenshtein_distance.py"]}
{"id": "C60", "title": "BKTree.search returns a nearest element", "statement": "After inserting any sequence of elements from the root, search(w, d_max) returns (x, d) where x is an inserted element, d its distance to w and no inserted element is closer, when some element is within d_max; None otherwise.", "quantifier": "all metrics, all insertion sequences, all queries and radii", "why_tests_cant": "Unbounded.", "anchors": ["src/pybgl/bk_tree.py: BKTree.insert, BKTree.search"]}
{"id": "C61", "title": "Memoization does not change the edit distances", "statement": "The memoized compute method returns the value of the un-memoized recursion, for the three distances.", "quantifier": "all pairs of words", "why_tests_cant": "Unbounded.", "anchors": ["src/pybgl/levenshtein_distance.py", "src/pybgl/lcs_distance.py", "src/pybgl/damerau_levenshtein_distance.py"]}
{"id": "C62", "title": "read_graphviz(to_dot(g)) rebuilds the graph", "statement": "Reading the dot string of a graph in an empty graph of the same kind yields the same graph up to vertex renaming.", "quantifier": "all reachable graphs", "why_tests_cant": "Unbounded graphs.", "anchors": ["src/pybgl/graphviz.py: read_graphviz", "src/pybgl/graphviz_impl.py: to_dot"]}
{"id": "C63", "title": "graphviz_escape_html leaves no special character outside the allowed tags", "statement": "Outside the recognised HTML tags, the escaped label contains none of <, >, [, ], {, } and no control character, and escaping is injective on the escaped characters.", "quantifier": "all strings", "why_tests_cant": "Unbounded strings.", "anchors": ["src/pybgl/graphviz_impl.py: graphviz_escape_html, graphviz_escape_char"]}
{"id": "C64", "title": "Closed operators are absorbing and form the expected algebra", "statement": "ClosedPlus, ClosedTime, ClosedMin and ClosedMax return absorbing whenever an operand is absorbing; ClosedPlus with non-negative operands is commutative and monotone.", "quantifier": "all operands", "why_tests_cant": "Unbounded domain.", "anchors": ["src/pybgl/algebra.py"]}
{"id": "C65", "title": "hsv_to_hsl and hsl_to_hsv are mutually inverse", "statement": "On the unit cube, hsl_to_hsv(hsv_to_hsl(c)) == c when the value is non-zero, and hsv_to_hsl(hsl_to_hsv(c)) == c when the lightness is neither 0 nor 1 (exact arithmetic).", "quantifier": "all rational colors", "why_tests_cant": "Continuous domain.", "anchors": ["src/pybgl/color.py"]}
{"id": "C66", "title": "Associative property maps are read-after-write stores", "statement": "pmap[k] returns the last value stored under k, or the default, and reads or writes at other keys do not interfere; read-only maps reject writes.", "quantifier": "all histories", "why_tests_cant": "Any finite sequence of method calls is a history; tests replay a handful of them.", "anchors": ["src/pybgl/property_map.py"]}
{"id": "C67", "title": "AggregatedVisitor forwards every event to every visitor in order", "statement": "Each event is delivered exactly once to each visitor, in list order, so that an aggregated traversal gives each visitor the event sequence it would see alone.", "quantifier": "all visitor lists, all event sequences", "why_tests_cant": "Unbounded.", "anchors": ["src/pybgl/aggregated_visitor.py"]}
{"id": "C68", "title": "reverse_dict inverts injective dictionaries", "statement": "reverse_dict(reverse_dict(d)) == d when values are distinct; in general it maps each value to the last key holding it.", "quantifier": "all dictionaries", "why_tests_cant": "Unbounded.", "anchors": ["src/pybgl/reverse.py: reverse_dict"]}
{"id": "C69", "title": "revuz_height computes the height of every state", "statement": "On an acyclic graph, revuz_height terminates and pmap_vheight[q] is the length of the longest path from q to a leaf; it returns the maximum.", "quantifier": "all finite acyclic graphs", "why_tests_cant": "Unbounded.", "anchors": ["src/pybgl/revuz_minimize.py: revuz_height"]}
{"id": "C70", "title": "dfs_tree and bfs_tree visit each vertex of a tree once", "statement": "On a tree, both traversals discover each vertex exactly once; bfs_tree by non-decreasing depth and dfs_tree so that each subtree is visited contiguously.", "quantifier": "all finite trees", "why_tests_cant": "Unbounded.", "anchors": ["src/pybgl/graph_traversal.py"]}
{"id": "C71", "title": "Nfa maintains a set of transitions", "statement": "After any sequence of add_vertex, add_edge, remove_edge, remove_vertex, set_initial(s), set_final and clear, the vertices, edges, out_edges, delta_one_step, initial and final states of an Nfa are those of the set of transitions obtained by adding and removing the same transitions (parallel copies collapse, a missing source is created, add_vertex on such a source erases its transitions).", "quantifier": "all sequences of calls", "why_tests_cant": "Unbounded sequences of calls.", "anchors": ["src/pybgl/nfa.py: Nfa"]}
{"id": "C72", "title": "dijkstra_shortest_paths examines vertices in order of distance", "statement": "The visitor receives examine_vertex exactly once for each vertex reachable below infty, in non-decreasing order of the final distance, and discover_vertex exactly once for each of them but the source.", "quantifier": "all finite graphs, all non-negative weights, all sources", "why_tests_cant": "The order of the calls depends on the heap and on decrease_key for every graph; tests look at the final maps of a few graphs.", "anchors": ["src/pybgl/dijkstra_shortest_paths.py:113-283", "src/pybgl/heap.py:1-150"]}
{"id": "C73", "title": "shunting_yard_ast builds the syntax tree of the expression", "statement": "On the infix form of an expression, the returned graph is, from the returned root, the syntax tree of the expression (tokens, operands in order), without any other vertex; on any other token list it raises unless the postfix output is that of a tree.", "quantifier": "all operator tables, all expressions, all token lists", "why_tests_cant": "Unbounded expressions and tables.", "anchors": ["src/pybgl/shunting_yard_postfix.py: shunting_yard_ast, RpnDequeAst, RpnDequeOperation.append, Ast"]}
{"id": "C74", "title": "Ast.to_expr returns an expression that reads back as the tree", "statement": "For a syntax tree, to_expr() returns the text of an expression whose syntax tree is the same.", "quantifier": "all trees", "why_tests_cant": "Unbounded trees.", "anchors": ["src/pybgl/shunting_yard_postfix.py: Ast.to_expr"]}
{"id": "C75", "title": "Heap.decrease_key updates every entry of the element and nothing else", "statement": "For every heap built from any elements and any sequence of pushes, pops, changes of the key function and calls decrease_key(x): if at each such call the current key of x is not above the keys recorded for its entries (or x has at most one entry), the pops return what a queue returns whose entries of x got the current key, kept their rank among ties, and whose other entries are unchanged; no entry is lost. Without this contract, an entry may be skipped.", "quantifier": "all element types, key functions, initial elements and histories of operations, for any total preorder of the keys", "why_tests_cant": "decrease_key rebuilds the heap while it enumerates it; whether an entry is skipped depends on the shape of the heap and on the keys, of which tests see a few", "anchors": ["src/pybgl/heap.py:204-208", "src/pybgl/heap.py:150-217"]}
{"id": "C76", "title": "NodeAutomaton is a deterministic automaton whose transitions carry the symbol of their target", "statement": "For every history of add_vertex, add_edge, remove_edge, remove_vertex, set_initial, set_final and clear on a NodeAutomaton: vertices(), edges(), out_edges(), delta(), edge(), sigma(), symbol(), label(), the initial and the final states are those of the abstract machine 'states with symbols; transitions (q, r) labelled by the symbol of r, at most one per (q, symbol)'; remove_edge removes only the given transition; remove_vertex removes all the incident transitions; clear() restores an empty automaton; alphabet() is the set of the labels of the transitions; and accepts(w) is true exactly when w labels a path from the initial state to a final state.", "quantifier": "all symbol types, all initial numbers of vertices, all histories of calls, all words", "why_tests_cant": "The transitions are keyed by the symbol of the target at the time of the call: only histories which mix equal symbols, removals and late vertices tell the keys from the edges.", "anchors": ["src/pybgl/node_automaton.py:23-224", "src/pybgl/graph.py:177-206", "src/pybgl/automaton.py:213-363"]}
{"id": "C77", "title": "make_node_automaton builds the automaton described by the named transitions", "statement": "make_node_automaton(transitions, pmap_vlabel, q0n, pmap_vfinal) returns an automaton with one state per name of the transitions, carrying the symbol pmap_vlabel gives to the name; exactly the listed transitions; the state named q0n as initial state; and as final states those whose name pmap_vfinal maps to True.", "quantifier": "all lists of transitions over all types of names and symbols, all property maps, all orders of the names", "why_tests_cant": "It is a statement about all lists of transitions, names and maps; the test of the repository uses names equal to the descriptors, which hides the key confusion.", "anchors": ["src/pybgl/node_automaton.py:262-339"]}
{"id": "C78", "title": "automaton_copy builds an isomorphic copy of the relevant reachable part", "statement": "automaton_copy(s, g, g_dup) terminates and fills the empty automaton g_dup with a copy of the states and transitions reached from s through relevant states and transitions: pmap_vertices and pmap_edges are one-to-one and preserve ends and labels, the copy of s is the initial state; with a relevance that keeps everything, g_dup accepts the words that g accepts from s.", "quantifier": "all automata built by any history of calls, all relevance maps, all sources, all callbacks that set final flags", "why_tests_cant": "automaton_copy has no test at all; isomorphism for all automata is a statement on unboundedly many searches.", "anchors": ["src/pybgl/automaton_copy.py:23-120", "src/pybgl/graph_copy.py:80-112"]}
{"id": "C79", "title": "hopcroft_minimize returns the smallest automaton", "statement": "For every deterministic automaton whose states are all accessible from the initial state and all accept some word, hopcroft_minimize returns an automaton of the same language with the fewest states among all deterministic automata of that language, and any other such automaton with that number of states is isomorphic to it; the same holds among complete automata when the input is complete and accessible.", "quantifier": "all automata built by well-formed calls, all competing deterministic automata, all iteration orders of the sets", "why_tests_cant": "The claim quantifies over every competing automaton with the same infinite language; tests compare a few outputs with expected sizes.", "anchors": ["src/pybgl/hopcroft_minimize.py:16-124"]}
{"id": "C80", "title": "revuz_minimize returns the smallest automaton", "statement": "For every acyclic deterministic automaton whose states are all accessible from the initial state and all accept some word, revuz_minimize returns an automaton of the same language with the fewest states among all deterministic automata of that language, and any other such automaton with that number of states is isomorphic to it.", "quantifier": "all acyclic automata built by well-formed calls, all competing deterministic automata, all iteration orders", "why_tests_cant": "The claim quantifies over every competing automaton with the same language; tests only look at a few outputs.", "anchors": ["src/pybgl/revuz_minimize.py:14-248"]}
{"id": "C81", "title": "read_graphviz builds the graph described by any text", "statement": "For every text, read_graphviz on a new graph creates one vertex per vertex line (digits, optional bracketed options, semicolon), numbered in order, and one edge per edge line between the vertices last declared under the two names; other lines are ignored; if an edge line uses a name that no line above declares, it raises KeyError there and the graph is that of the lines above.", "quantifier": "all strings, directed and undirected graphs", "why_tests_cant": "The grammar of the lines is a statement on all strings; tests read a few files produced by to_dot.", "anchors": ["src/pybgl/graphviz.py:59-163"]}
{"id": "C82", "title": "dijkstra_shortest_paths is correct for any ranking and combination of the weights", "statement": "For every finite graph, every strict weak order given as compare (or the operator < of the distances if compare is None) and every combine under which an edge never improves a distance and respects the ranking, dijkstra_shortest_paths ends without exception; the distance of every vertex is the cost of a best walk from s, or infty if no walk is better than infty; the predecessors of v are exactly the edges that yield its distance; vertices are examined once each, in the order of the ranking. In particular GreaterThan and ClosedMin compute the widest paths.", "quantifier": "all graphs, weights of any type, rankings, combinations, contents of the distance map", "why_tests_cant": "The tests try ClosedPlus and ClosedMin on two graphs; the documentation promises any (Distance, compare, combine) semi-ring.", "anchors": ["src/pybgl/dijkstra_shortest_paths.py:139-186", "src/pybgl/dijkstra_shortest_paths.py:192-283", "src/pybgl/algebra.py:50-66", "src/pybgl/algebra.py:207-233"]}
{"id": "C83", "title": "make_shortest_path returns a best path for any ranking and combination of the weights", "statement": "After dijkstra_shortest_paths with any admissible compare and combine, make_shortest_path returns a best path to every vertex better than infty, whose cost is the distance, and dijkstra_shortest_path returns a best path, or None exactly if no walk is better than infty.", "quantifier": "all graphs, weights of any type, rankings, combinations, orders of iteration of the sets of edges", "why_tests_cant": "The set of predecessors is read in an arbitrary order; the tests see one order and no cycle of ties.", "anchors": ["src/pybgl/dijkstra_shortest_paths.py:337-369", "src/pybgl/dijkstra_shortest_paths.py:408-461"]}
{"id": "C84", "title": "moore_determination is the subset construction", "statement": "The states of the automaton returned by moore_determination(nfa) are exactly the sets of NFA states that some word reaches (epsilon moves included), each of them once: reading a word w leads to the state of the set of the NFA states that w reaches; two states are never the same set; every state is accessible from state 0, the initial one; a state is final iff its set contains a final state; there are at most 2^n of them for n NFA states. With complete=False, the automaton follows a non-empty word iff some run of the NFA spells it, i.e. there is no trash state. (False after remove_edge, whose empty inner dictionary makes sigma list a symbol that leads nowhere.)", "quantifier": "every Nfa built by any sequence of calls, every iteration order of the sets, both values of complete, every word", "why_tests_cant": "The language of the result (C24) does not determine its states: a determinisation that duplicates states, keeps unreachable ones or adds trash states passes every acceptance test.", "anchors": ["src/pybgl/moore_determination.py:11-73", "src/pybgl/nfa.py:55-133", "src/pybgl/nfa.py:165-179"]}
{"id": "C85", "title": "html_color_to_graphviz keeps the color", "statement": "html_color_to_graphviz returns unchanged any text that does not start with hsl, and translates hsl(h, s%, l%), with any blanks around the numbers, into the text of the hue, saturation and value of the same color. (False of the other forms of HSL colors of HTML - hsla with an opacity, no commas, decimals, units - which raise ValueError.)", "quantifier": "all texts, all numerals, all functions that print floats (exact arithmetic)", "why_tests_cant": "Unbounded texts and 3.7 million integer colors; the repository tests one.", "anchors": ["src/pybgl/color.py:59-102"]}
{"id": "C86", "title": "The calls of depth_first_search are nested and in order", "statement": "In the sequence of the visitor's calls: an edge is examined from the last vertex that is discovered and not finished; it is reported as a tree edge, and its target is discovered at once, iff its target was not discovered; as a back edge iff its target is discovered and not finished; as a forward or cross edge iff its target is finished. A vertex is finished when its accepted out-edges have all been examined, in their order. Between the discovery and the end of a vertex u exactly its descendants in the search forest are discovered and finished, and these are the vertices that could be reached from u, when u was discovered, through vertices not discovered yet (parenthesis and white path theorems).", "quantifier": "all finite graphs whose edges know their source, all sources, all if_push predicates, all-WHITE initial colors", "why_tests_cant": "Statements on all the pairs of events of unboundedly long traces; the tests compare the traces of a few graphs.", "anchors": ["src/pybgl/depth_first_search.py:107-228"]}
{"id": "C87", "title": "BKTree.insert and BKTree.search from a given node", "statement": "In a BKTree built by insertions, all the elements under an edge labelled d are at distance d of the element above; search(w, d_max, r) returns the nearest element among those under r; insert(w, u) keeps the tree searchable. (The last claim is false: after an insertion from a node that is not on the way of w, search(w, 0) does not find w.)", "quantifier": "all metrics with integer values, all sequences of insertions, all nodes, all radii", "why_tests_cant": "Unbounded trees and arbitrary metrics; the tests never use the parameters u and r.", "anchors": ["src/pybgl/bk_tree.py:66-134"]}
{"id": "C88", "title": "The three edit distances compared", "statement": "For all words, damerau_levenshtein_distance <= levenshtein_distance <= lcs_distance, each at most twice the previous one; the difference of the lengths is at most the first, the second at most the greatest length, the third at most the sum of the lengths and of its parity. Each of them ignores a common prefix, a common suffix and the direction of reading, and is subadditive for concatenation.", "quantifier": "all words over all alphabets", "why_tests_cant": "Relations between three recursions on unboundedly long words; the tests compare a few literals.", "anchors": ["src/pybgl/levenshtein_distance.py", "src/pybgl/lcs_distance.py", "src/pybgl/damerau_levenshtein_distance.py"]}
{"id": "C89", "title": "automaton_insert_string on any automaton", "statement": "automaton_insert_string(w) makes the automaton accept w, keeps every accepted word, and adds no other word. This holds when one word only leads to the state reached by the longest readable prefix of w; in general the words added are exactly x followed by the unread rest of w, for every word x leading to that state, provided no vertex to come is already marked final.", "quantifier": "every automaton obtained by any sequence of calls whose initial state and targets of transitions are vertices, every word", "why_tests_cant": "The tests insert words in tries only, where a single word leads to each state.", "anchors": ["src/pybgl/automaton.py:402-441", "src/pybgl/automaton.py:836-848"]}
{"id": "C90", "title": "Smallest automaton of a finite set of words", "statement": "Inserting a non-empty list of words in an IncidenceAutomaton of one vertex and calling revuz_minimize gives the smallest deterministic automaton that accepts exactly these words, unique up to the names of the states. hopcroft_minimize gives the same when some prefix of a word is not one of the words.", "quantifier": "every non-empty list of words over any alphabet, every order of iteration over the sets", "why_tests_cant": "Minimality compares the result with every other automaton, and the words are unbounded.", "anchors": ["src/pybgl/automaton.py:425-441", "src/pybgl/incidence_automaton.py:29-45", "src/pybgl/revuz_minimize.py", "src/pybgl/hopcroft_minimize.py"]}
{"id": "C91", "title": "Parallel breadth first search visits the product of two automata", "statement": "parallel_breadth_first_search terminates; it examines each pair of states that words lead to from the source pairs (through pairs accepted by if_push), once, by increasing number of symbols, each on all the symbols enabled in one of the automata; every call of the visitor (examine_symbol, examine_edge, tree_edge, gray_target, black_target, discover_vertex, finish_vertex) is made at its moment with its arguments, and the final colors are those of finished and discovered pairs.", "quantifier": "every two automata, every list of source pairs, every if_push, every visitor, every order of iteration over the sets of symbols", "why_tests_cant": "The pairs of states, the words, the callbacks and the orders of iteration are unbounded; a test sees one order.", "anchors": ["src/pybgl/parallel_breadth_first_search.py:208-288", "src/pybgl/graph_traversal.py:13-15"]}
{"id": "C92", "title": "The calls of a breadth-first search", "statement": "breadth_first_search_graph discovers its sources, then takes the vertices in the order of the queue (the sources, the last one first, then the targets of the tree edges), each with its examination, one group of calls per out-edge in the order of out_edges, and its end. tree_edge is called when the target is not discovered yet, gray_target when it is discovered and not finished, black_target when it is finished. When a vertex is discovered all the vertices closer to the sources are discovered and no farther one is; a tree edge goes one step farther, an edge to a gray vertex zero or one, an edge to a black vertex does not go farther; the tree edges form shortest paths to every reachable vertex.", "quantifier": "every finite graph, every list of distinct sources whose reachable vertices are WHITE, every if_push, every visitor", "why_tests_cant": "The order of the calls depends on the whole graph; tests look at few graphs and the test visitors record few of the calls.", "anchors": ["src/pybgl/breadth_first_search.py:130-197", "src/pybgl/breadth_first_search.py:12-127", "src/pybgl/breadth_first_search.py:200-237"]}
{"id": "C93", "title": "GraphDp.to_json is the JSON text of the graph", "statement": "GraphDp.to_json returns a JSON text which denotes an object with the type of the graph, the list of its vertices (or of the vertices given) in their order and the list of its edges, each with its identifiers and one string per attribute of the GraphDp; two graphs with the same text have the same type, vertices and edges.", "quantifier": "every list of vertices and edges, every dictionary of property maps", "why_tests_cant": "The texts and the graphs are unbounded; a test reads the JSON of a few graphs whose attributes have no special character.", "anchors": ["src/pybgl/graph_dp.py:11-26", "src/pybgl/graph_dp.py:104-148", "src/pybgl/graphviz_impl.py:279-291"]}
{"id": "C94", "title": "GraphDp.to_dot merges the styles", "statement": "GraphDp.to_dot(**kwargs) is to_dot of the wrapped graph where, for each of dpv, dpe, dg, dv, de, the dictionary given by the caller is completed with the entries of the GraphDp that it does not have, and extra_style is used; the result for a directed graph is read back by read_graphviz; the getters return the styles.", "quantifier": "every GraphDp, every keyword arguments, every graph", "why_tests_cant": "The dictionaries are unbounded and their overlaps are many; the tests never give an extra_style nor call get_dpe.", "anchors": ["src/pybgl/graph_dp.py:35-101", "src/pybgl/graphviz_impl.py:337-360", "src/pybgl/graphviz_impl.py:363-439"]}
{"id": "C95", "title": "Comparing two regular expressions", "statement": "deterministic_inclusion(compile_dfa(s1), compile_dfa(s2)) terminates, does not depend on the iteration orders of the sets or on how long the loops run, and returns 0, 1, -1 or None exactly when the languages of the regular expressions s1 and s2 are equal, the first is strictly contained in the second, the second strictly in the first, or neither contains the other.", "quantifier": "all regular expressions of the documented syntax, all alphabets, all iteration orders of sets, complete or not", "why_tests_cant": "the relation speaks about all words: tests compare finitely many words and finitely many expressions, and the result goes through parsing, Thompson's construction, determinization and a parallel traversal", "anchors": ["src/pybgl/deterministic_inclusion.py:14-110", "src/pybgl/regexp.py:1-45", "src/pybgl/moore_determination.py:1-73"]}
{"id": "C96", "title": "The minimal automaton of an NFA or of a regular expression", "statement": "hopcroft_minimize(moore_determination(nfa, dfa=IncidenceAutomaton())) returns the smallest complete deterministic automaton (over nfa.alphabet()) accepting exactly the words that the accepting runs of the NFA spell; any other such automaton of that size is isomorphic to it. The same from a regular expression through compile_nfa. It raises TypeError when the NFA accepts no word or all the words on its alphabet.", "quantifier": "all NFAs that can be built by method calls, all regular expressions of the documented syntax, all iteration orders of sets", "why_tests_cant": "minimality quantifies over all other automata and the language over all words; the composition goes through the subset construction and partition refinement", "anchors": ["src/pybgl/moore_determination.py:11-72", "src/pybgl/hopcroft_minimize.py:12-124"]}
{"id": "C97", "title": "delta_best_effort and accepts_debug", "statement": "delta_best_effort(w) returns the state reached by the longest prefix of w that the automaton can read from its initial state, and the length of that prefix ((BOTTOM, 0) when the initial state is BOTTOM). accepts_debug(w, g) returns the same boolean as accepts and prints one line per symbol with the state before and after it, until the first symbol read from BOTTOM.", "quantifier": "all automata, all words", "why_tests_cant": "the longest prefix and the printed run are about every word and every automaton, including words that leave the automaton at any position", "anchors": ["src/pybgl/automaton.py:402-423", "src/pybgl/automaton.py:467-487"]}
{"id": "C98", "title": "to_dot writes a text of the DOT language that describes the graph", "statement": "For every graph, every list of vertices and edges and all optional arguments, the text returned by to_dot is a text of the DOT language which, after the statements of the styles, has exactly one statement for each vertex and one for each edge, in the given order, with the right numbers, the right connector and exactly the attributes with a value: the label as an HTML string holding the escaped label, the others as strings holding the value.", "quantifier": "all graphs (directed or not), all lists of vertices and edges, all attribute dictionaries and styles, all orders of the tags in the tokenizer", "why_tests_cant": "Tests compare a few output strings or only check that dot accepts them; they cannot cover all attribute values, in particular those with quotes, backslashes and markup.", "anchors": ["src/pybgl/graphviz_impl.py:207-227", "src/pybgl/graphviz_impl.py:241-334", "src/pybgl/graphviz_impl.py:363-439"]}
{"id": "C99", "title": "The DOT texts of the automata show their states, final states and transitions, and determine them", "statement": "Automaton.to_dot, Nfa.to_dot and NodeAutomaton.to_dot called without arguments write a DOT text which, read back, has after the default style one node per state (a double circle exactly for the final states; for a NodeAutomaton, labelled by the symbol, or by ^ for the initial state) and one edge per transition with its label (epsilon in italics for the epsilon transitions of an Nfa). For symbols that are characters, two automata have the same text exactly if they have the same states, final states and transitions. The text determines the automaton, hence its language (false: the initial state is not in the texts of Automaton and Nfa; in a NodeAutomaton the symbol ^ looks like the initial state).", "quantifier": "for all automata, NFAs and node automata; for all characters as symbols for the determination", "why_tests_cant": "Tests draw a few automata and look at the picture; the determination quantifies over pairs of automata and over all characters, including those that must be escaped.", "anchors": ["src/pybgl/automaton.py:308-326", "src/pybgl/nfa.py:317-340", "src/pybgl/node_automaton.py:226-243", "src/pybgl/graphviz_impl.py:337-439"]}
{"id": "C100", "title": "GraphView.to_dot describes exactly the selected vertices and edges", "statement": "The text written by GraphView.to_dot, read back, has one node per vertex selected by the view and one edge per selected edge whose ends are selected, once each and whatever the iteration order of the sets, restricted to the vertices and edges given by the caller; without vertices given by the caller every edge links two described vertices; it mentions only the vertices asked for (false when the caller gives vertices: the edges leaving them remain).", "quantifier": "for all graphs, views, keyword arguments with well-formed attributes, and set iteration orders", "why_tests_cant": "The iteration order of sets of edges is arbitrary, and tests only see one order and a few views.", "anchors": ["src/pybgl/graph_view.py:244-260", "src/pybgl/graphviz_impl.py:363-439"]}
{"id": "C101", "title": "Compiling an escaped text", "statement": "For every text w, compile_nfa(re_escape(w)) is an NFA that accepts w and nothing else; re_escape is injective.", "quantifier": "all texts, all iteration orders of the sets", "why_tests_cant": "A test tries a few texts; that escaping covers exactly what the tokenizer treats specially is a statement about every text, and it fails for three characters that re_escape escapes but the tokenizer does not recognise.", "anchors": ["shunting_yard_postfix.py:30-49", "shunting_yard_postfix.py:146-158", "thompson_compile_nfa.py:484-515"]}
{"id": "C102", "title": "make_incidence_automaton is make_automaton with in_edges", "statement": "For every list of transitions (possibly with several targets for one source and symbol), make_automaton keeps per source and symbol the first listed target; make_incidence_automaton builds the same automaton (or raises the same exception) and its in_edges is the transpose of its edges.", "quantifier": "all lists of transitions over any names and symbols, all sort functions, initial names and final maps", "why_tests_cant": "Only a list that repeats a (source, symbol) whose first target is the first name in the sorted order shows the difference; tests use deterministic lists.", "anchors": ["src/pybgl/automaton.py:750-816", "src/pybgl/incidence_automaton.py:35-45", "src/pybgl/incidence_automaton.py:96-113"]}
{"id": "C103", "title": "make_incidence_node_automaton is make_node_automaton with in_edges", "statement": "For every list of transitions and every pmap_vlabel, make_incidence_node_automaton builds the automaton that make_node_automaton builds (or raises the same exception), and its in_edges is the transpose of its edges, whatever transitions are dropped because their source already has a transition with that symbol.", "quantifier": "all lists of transitions, all label and final maps, all initial names", "why_tests_cant": "A list in which edges are dropped (two targets with one symbol) is needed to see whether predecessors are recorded for dropped edges; tests use lists without them.", "anchors": ["src/pybgl/node_automaton.py:262-339", "src/pybgl/incidence_node_automaton.py:31-43", "src/pybgl/incidence_node_automaton.py:75-130"]}
{"id": "C104", "title": "GraphvizStyle is a pair of colors, and the graphs drawn in any colors are read back", "statement": "After any history of set_fg_color, set_bg_color and of strings appended to GraphvizStyle.extra_style, the default style of to_dot is the text of the last two colors followed by these strings; a GraphDp keeps the colors and the extra_style of the time of its creation; a directed graph whose text is drawn with this style is read back by read_graphviz.", "quantifier": "all histories of color changes, appended strings and GraphDp constructions, all colors, all directed graphs", "why_tests_cant": "The style is a global state: any test sees one history; a color is any string.", "anchors": ["src/pybgl/graphviz_impl.py:17-112", "src/pybgl/graph_dp.py:35-70"]}
{"id": "C105", "title": "A class with the metaclass Singleton has at most one object", "statement": "Each call of the class returns the object made by its first call whose constructor did not raise, whatever the later arguments; two calls return the same object exactly when the classes are the same; an exception of the constructor leaves no object behind.", "quantifier": "all histories of calls, all classes, all constructors", "why_tests_cant": "A test calls one class twice.", "anchors": ["src/pybgl/singleton.py"]}
{"id": "C106", "title": "revuz_minimize on a node automaton keeps one state per class", "statement": "On an acyclic IncidenceNodeAutomaton, revuz_minimize keeps exactly the smallest state of each class of states with the same symbol, the same accepted words and the same readable words; a kept state keeps its symbol and its accepted words; the automaton accepts the same words; the return value is the maximum height.", "quantifier": "all disciplined histories whose graph is acyclic, all symbols, all orders of iteration of the sets", "why_tests_cant": "A test minimises one small automaton whose initial state is the root 0; the order of iteration of sets is not under its control.", "anchors": ["src/pybgl/revuz_minimize.py:118-248", "src/pybgl/incidence_node_automaton.py"]}
{"id": "C107", "title": "EdgeDescriptor: equality, order and hash", "statement": "Two EdgeDescriptor are equal exactly when their sources, targets and distinguishers are, and none equals None; e < e' compares source, then target, then distinguisher and raises TypeError exactly when the first different fields have no order; hash(e) raises TypeError exactly when a field contains a set. On descriptors of the same type the order is strict and total, so that sorted(edges) depends only on the set of edges. Edges of one graph can always be sorted (false: an automaton with symbols of several types).", "quantifier": "all descriptors over None, integers, strings, nested tuples and sets of integers; all lists of descriptors", "why_tests_cant": "The comparison recurses in tuples of any shape and raises depending on the first difference; transitivity quantifies over triples", "anchors": ["src/pybgl/graph.py:38-126"]}
{"id": "C108", "title": "The edge descriptors of an Nfa", "statement": "The descriptor that Nfa.add_edge returns is one of nfa.edges() (false: never); nfa.edge(u, v) returns the edge from u to v if there is exactly one (false: TypeError as soon as there is one, since the descriptors contain a set); the edges of an Nfa can be put in a set (false); two different edges are compared by source, target and symbol.", "quantifier": "all Nfa built by method calls", "why_tests_cant": "Unbounded histories; the failure comes from the type of the distinguisher, which no test hashes", "anchors": ["src/pybgl/nfa.py:135-211", "src/pybgl/graph.py:353-373"]}
{"id": "C109", "title": "A reversed IncidenceGraph can still be modified", "statement": "Any interleaving of add_vertex, add_edge, remove_edge, remove_vertex, clear and reverse_graph behaves like the same program on a set of edges seen in its stored direction, or in the other one after an odd number of calls of reverse_graph: out_edges, in_edges, the degrees, source, target and edge(u, v) agree; add_edge(u, v) adds an arc from u to v.", "quantifier": "all programs on all IncidenceGraphs", "why_tests_cant": "The interaction depends on the parity of the calls and on which methods look up the exchanged attributes.", "anchors": ["src/pybgl/reverse.py: reverse_graph", "src/pybgl/incidence_graph.py: IncidenceGraph", "src/pybgl/graph.py: Graph.edge"]}
{"id": "C110", "title": "reverse_graph leaves an undirected graph unchanged", "statement": "After reverse_graph on an UndirectedGraph, out_edges, in_edges and remove_edge behave as before.", "quantifier": "all undirected graphs", "why_tests_cant": "It fails for every graph, in ways that depend on the lookup of the exchanged methods.", "anchors": ["src/pybgl/reverse.py: reverse_graph", "src/pybgl/graph.py: UndirectedGraph.in_edges, UndirectedGraph.remove_edge"]}
{"id": "C111", "title": "A cleared automaton is a new automaton", "statement": "For every program ops on an Automaton or an Nfa, after clear() the object has no vertex, no edge, accepts no word, and any later program ops' has the same results and builds the same automaton as on a newly created empty one.", "quantifier": "all programs before and after clear, all words", "why_tests_cant": "Flags kept by clear only show up when a later program reuses the same vertex numbers; no test calls clear() and then rebuilds.", "anchors": ["src/pybgl/graph.py: Graph.clear", "src/pybgl/automaton.py: Automaton.set_final", "src/pybgl/nfa.py: Nfa.set_final", "src/pybgl/nfa.py: Nfa.accepts"]}
{"id": "C112", "title": "Dijkstra on any input ends and examines each vertex once", "statement": "For every finite graph, any weights (negative or missing, edges to unknown vertices), any comparison and combination, any visitor and any initial content of the property maps, dijkstra_shortest_paths ends; every vertex is discovered and examined at most once; it raises only the exception of the visitor, the KeyError of a missing source or target, or what the weight map raises; and each final distance is the initial one or the cost of a walk from the source.", "quantifier": "all graphs, weights, orders, visitors and initial maps", "why_tests_cant": "Termination and the at-most-once discipline must hold outside the documented domain (negative cycles, dangling edges), where no test looks.", "anchors": ["src/pybgl/dijkstra_shortest_paths.py: dijkstra_shortest_paths", "src/pybgl/dijkstra_shortest_paths.py: dijkstra_shortest_paths_iteration", "src/pybgl/heap.py: Heap.decrease_key"]}
{"id": "C113", "title": "DOT texts of BK-trees and syntax trees", "statement": "BKTree.to_dot writes a DOT text with one node per vertex, labelled by the element of the vertex and drawn as a circle, and one edge per arc, labelled by the distance; with a metric each inserted element is shown exactly once. Ast.to_dot on a tree returned by shunting_yard_ast writes one node per vertex, labelled by its number and its token, and one edge from each operator to each of its operands. A label given by the caller replaces these labels; without it a vertex that has no element raises KeyError. The labels are assumed not to contain a < inside a tag (see C98).", "quantifier": "all distances, all lists of elements, all expressions and operator tables, all keyword arguments", "why_tests_cant": "The texts of all trees cannot be enumerated; the tests only check that to_dot returns", "anchors": ["src/pybgl/bk_tree.py:136-146", "src/pybgl/shunting_yard_postfix.py:535-543"]}
{"id": "C114", "title": "write_graphviz writes what dot outputs and tells whether it succeeded", "statement": "write_graphviz(s_dot, filename, engine, format) writes the answer of dot into the file and returns True iff dot succeeds; if it does not succeed the previous file is kept. (False of the code: with the default format svg it raises AttributeError after emptying the file. The exact behaviour is proved for all formats and all answers of dot.)", "quantifier": "all DOT strings, files, engines, formats and all answers of the program dot", "why_tests_cant": "The tests do not run dot; all answers of an external program.", "anchors": ["src/pybgl/graphviz.py: write_graphviz, run_graphviz, error"]}
{"id": "C115", "title": "HTML templates show the text they are given", "statement": "background_template_html(color) % s is the text s in a div of this color; ipynb_display_graph, display_svg, display_body show (and write) exactly this text; beside puts each of its five arguments at its place. (False of the code for a color with a percent sign; exact otherwise.)", "quantifier": "all colors, texts, file names", "why_tests_cant": "All strings, including those with percent signs.", "anchors": ["src/pybgl/ipynb.py: background_template_html, ipynb_display_graph, display_svg, display_body", "src/pybgl/html.py: html, beside"]}
{"id": "C116", "title": "The text given to dot and its answer are transmitted without loss", "statement": "dot reads the UTF-8 form (RFC 3629) of the DOT string with the arguments -T format -K engine; the svg answer is decoded, strings that have no UTF-8 form and bytes that are not UTF-8 raise; dot_to_svg returns the answer from its first <svg tag, graph_to_html the whole answer; when dot fails RuntimeError is raised after its errors have been printed.", "quantifier": "all DOT strings, engines, formats and all answers of the program dot", "why_tests_cant": "All code points and byte sequences.", "anchors": ["src/pybgl/graphviz.py: run_graphviz, dot_to_svg, dotstr_to_html, graph_to_html"]}
{"id": "C117", "title": "The visitor of revuz_minimize is told exactly the merges that are made", "statement": "On any IncidenceAutomaton built through its own methods, cyclic or not, and for any set of leaves among its states, a call of revuz_minimize that terminates raises no exception, gives the same automaton and the same height with or without a visitor, and its visitor is called, for each merged pair q1 < q2 of states with the same finality and the same transitions, in the order merging_states (before any change), move_transition once per transition into q2 (just after it is moved to q1), remove_vertex (when no transition leads to q2 any more), states_merged (once q2 is removed). The states that remain are the states of the automaton minus the second arguments of states_merged, they accept the words they accepted, and two merged states were equivalent in the given automaton.", "quantifier": "for all automata, all orders of iteration of the sets, all sets of leaves among the states", "why_tests_cant": "a test observes the calls on one automaton and one order of the sets", "anchors": ["src/pybgl/revuz_minimize.py:18-73", "src/pybgl/revuz_minimize.py:178-248"]}
{"id": "C118", "title": "revuz_minimize with labels on the states and the transitions", "statement": "On an acyclic IncidenceAutomaton built through its own methods, revuz_minimize with property maps pmap_vlabel and pmap_elabel keeps, of each class of states with the same behaviour, the state with the smallest number, and each state that is kept keeps its behaviour: the labels of the words that can be read from it, and for each word whether the state it leads to is final and what label it has. In particular two states with different labels are never merged. Without property maps the function only looks at the symbols of the transitions.", "quantifier": "for all acyclic automata, all property maps on the states and the transitions, all orders of iteration of the sets", "why_tests_cant": "the property maps are arbitrary functions, and the behaviour of a state is a set of words of any length", "anchors": ["src/pybgl/revuz_minimize.py:118-248"]}
{"id": "C119", "title": "The sets of states and symbols of an Nfa", "statement": "After any sequence of calls on an Nfa: is_initial(q) holds of the initial states and of no other, finals() lists once each the states that are final, is_epsilon_transition holds of the transitions whose symbol is epsilon; alphabet() is the set of the symbols, other than epsilon, of the transitions; sigma(q) is the set of the symbols, other than epsilon, of the transitions which start from q or from a state reached from q by epsilon-transitions.", "quantifier": "for all numbers of states, initial states, epsilon symbols and sequences of calls", "why_tests_cant": "a symbol must disappear after the right removals among all sequences of calls", "anchors": ["src/pybgl/nfa.py:113-133", "src/pybgl/nfa.py:213-226", "src/pybgl/nfa.py:252-264", "src/pybgl/nfa.py:380-401"]}
{"id": "C120", "title": "Inserting a trie in itself changes nothing", "statement": "t.insert(t) ends without exception and leaves t as it was: states, transitions, initial and final states, words and the number of the next vertex, although the visitor reads and modifies the same object.", "quantifier": "all automata in the place of the trie (also cyclic), all iteration orders of the sets of symbols", "why_tests_cant": "Aliased arguments are not in the tests; the search reads an object that its visitor modifies.", "anchors": ["src/pybgl/trie.py:35-113", "src/pybgl/parallel_breadth_first_search.py:246-288"]}
{"id": "C121", "title": "revuz_minimize on graphs with cycles", "statement": "revuz_height and revuz_minimize never end if and only if some state of a cycle leads to a leaf. Otherwise revuz_height sets exactly the heights of the vertices that lead to a leaf and returns the greatest one (-1 if there is none), and revuz_minimize keeps exactly the states without a smaller twin: a state from which the same words are accepted and readable, and the same words lead to each state that leads to no leaf. The states that lead to no leaf remain with their transitions.", "quantifier": "all incidence automata and node automata, with or without cycles, all words, all orders of iteration of the sets", "why_tests_cant": "The documentation requires an acyclic automaton; non termination cannot be observed by a test, and the states kept depend on all the words.", "anchors": ["src/pybgl/revuz_minimize.py: revuz_height", "src/pybgl/revuz_minimize.py: revuz_minimize"]}
{"id": "C122", "title": "Words that contain the epsilon symbol", "statement": "For every word, epsilon symbol included, delta_word(w) returns exactly the states reached from an initial state by a path in which each symbol of w, epsilon too, is read by a transition that carries it, epsilon-transitions being also taken freely; accepts(w) tells whether one of them is final. The automaton returned by moore_determination rejects every word that contains the epsilon symbol, so the two disagree on some words.", "quantifier": "all NFAs, all words, every iteration order", "why_tests_cant": "Unbounded; the tests only read epsilon-free words.", "anchors": ["src/pybgl/nfa.py: Nfa.accepts, Nfa.delta_word, Nfa.delta", "src/pybgl/moore_determination.py: moore_determination"]}
{"id": "C123", "title": "The callbacks of graph_copy and automaton_copy", "statement": "graph_copy and automaton_copy call callback_dup_vertex once for each vertex that they copy and callback_dup_edge once for each edge that they copy, with the copy, in the order of pmap_vertices and pmap_edges: the source first, each other vertex just before the first edge to it, an edge after its two ends; at each call g_dup holds exactly what has been told so far; the calls do not depend on the callbacks, an exception of a callback stops the copy, and the copy is the one made without callbacks.", "quantifier": "all graphs and automata, all relevance maps, all sources, all callbacks that do not modify g and g_dup", "why_tests_cant": "tests record the calls on one graph with one callback; the claim is on all graphs and for each moment of the search", "anchors": ["src/pybgl/graph_copy.py", "src/pybgl/automaton_copy.py"]}
{"id": "C124", "title": "Visitor calls of shunting_yard_postfix", "statement": "Whatever the output sink and the visitor, shunting_yard_postfix makes one fixed sequence of on_push_operator, on_pop_operator and on_push_output calls determined by the tokens and the operator table, stopping at the first call that raises. Pops are last-in first-out and everything pushed is popped; every popped token except a matched opening parenthesis is output right after, and each token appended to the output is told right after it was appended; an opening parenthesis and an operator are pushed once each, an operand is only output. For the infix form of an expression tree the sequence is given exactly, and its outputs are the postfix form. An unmatched closing parenthesis raises IndexError after all the stack was popped and output. A visitor that never raises does not change the result.", "quantifier": "All token lists, operator tables, sinks and visitors (including ones that raise).", "why_tests_cant": "Tests use the default visitor or print a trace; the order of the calls for arbitrary nesting, precedence and failing callbacks is not enumerable.", "anchors": ["src/pybgl/shunting_yard_postfix.py:254-283", "src/pybgl/shunting_yard_postfix.py:290-402"]}
{"id": "C125", "title": "Results do not depend on the iteration order of sets", "statement": "For any two iteration orders of the Python sets (two values of PYTHONHASHSEED), on the same arguments: deterministic_inclusion and trie_matching return the same value; deterministic_intersection, deterministic_union and Trie.insert of a trie give automata that accept the same words; moore_determination and hopcroft_minimize give the same automaton up to the numbers of the states; revuz_minimize and prune_incidence_automaton give the same automaton and revuz_minimize the same return value; make_shortest_path returns the same path. (False of deterministic_union, which may accept no word or every word according to the order, and of make_shortest_path, which may return another path or never end.)", "quantifier": "all pairs of valid iteration orders, all automata, NFAs and graphs that the theorems on each function cover", "why_tests_cant": "A test process runs with one hash seed, and the sets of small integers or short strings that tests use are iterated in few orders.", "anchors": ["src/pybgl/deterministic_union.py:58-79", "src/pybgl/product_mixin.py:32-60", "src/pybgl/parallel_breadth_first_search.py:267-288", "src/pybgl/moore_determination.py:55-72", "src/pybgl/hopcroft_minimize.py:13-124", "src/pybgl/revuz_minimize.py:118-248", "src/pybgl/dijkstra_shortest_paths.py:335-369"]}
{"id": "C126", "title": "hopcroft_minimize and revuz_minimize agree on acyclic automata", "statement": "On an acyclic IncidenceAutomaton with an initial state, hopcroft_minimize and revuz_minimize return the same automaton up to the numbers of the states. (False when revuz_minimize merges the initial state into an equivalent state with a smaller number, which leaves an automaton without its initial state, and when every state is final, where hopcroft_minimize raises.)", "quantifier": "all automata built by disciplined calls, all iteration orders of both functions", "why_tests_cant": "The tests compare each function with an expected result for one hand-written automaton and never with each other.", "anchors": ["src/pybgl/hopcroft_minimize.py:13-124", "src/pybgl/revuz_minimize.py:118-248"]}
{"id": "C127", "title": "Pruning and minimisation are idempotent", "statement": "Calling prune_incidence_automaton a second time removes nothing and changes no transition. The same holds of revuz_minimize on automata whose cycles lead to no leaf, and the second call returns the same height. Calling hopcroft_minimize on its own result returns the same automaton up to the numbers of the states.", "quantifier": "all automata built by disciplined calls, all iteration orders, different for the two calls", "why_tests_cant": "Tests call each function once; a second call on a result exercises states that the first call built, with other maps of incident edges.", "anchors": ["src/pybgl/prune_incidence_automaton.py:31-44", "src/pybgl/revuz_minimize.py:118-248", "src/pybgl/hopcroft_minimize.py:65-124"]}
{"id": "C128", "title": "read_graphviz hands every attribute to its visitor, and read_graphviz_dp stores them", "statement": "read_graphviz calls on_install_vertex_property and on_install_edge_property, in the order of the lines, once per attribute found in the options of the line, with the vertex or the edge made for that line; an attribute given twice is passed once, with its last value. The visitor does not change the graph that is read. read_graphviz_dp stores these attributes in the maps it is given. (The last sentence is false: read_graphviz_dp raises TypeError on every input.)", "quantifier": "all texts, all behaviours of the HTML parser, all visitors whose methods do not raise, directed and undirected graphs", "why_tests_cant": "Which text counts as options depends on the greedy regular expression and on brackets and semicolons inside values; the tests only read a few well-formed files, and none calls read_graphviz_dp.", "anchors": ["src/pybgl/graphviz.py:19-163", "src/pybgl/graphviz.py:170-215"]}
{"id": "C129", "title": "The graph algorithms agree with each other", "statement": "topological_sort(g) succeeds exactly when strong_components(g) finds as many components as vertices and no edge is a loop, and then the component numbers decrease strictly along the edges. With unit weights (and infty at least the number of vertices), breadth_first_search discovers exactly the vertices at a finite Dijkstra distance, in the order of these distances, each tree edge adds 1 to the distance, and the distance is the least number of edges from the source. On an incidence graph and on the same graph after reverse_graph: strong_components finds the same partition and the same number of components, topological_sort succeeds on both or on none and orders the edges oppositely, and the Dijkstra distance from s to t equals that from t to s after reverse_graph.", "quantifier": "for all histories of DirectedGraph, UndirectedGraph and IncidenceGraph calls whose edges stay among the vertices, all sources, all non-negative weights, all infty and absorbing values, all initial distance maps", "why_tests_cant": "each test looks at one algorithm on a few graphs; agreement of two independent algorithms on every graph is a relation over unboundedly many inputs", "anchors": ["src/pybgl/topological_sort.py:34-59", "src/pybgl/strong_components.py:100-147", "src/pybgl/breadth_first_search.py:130-198", "src/pybgl/dijkstra_shortest_paths.py:113-290", "src/pybgl/reverse.py:10-27"]}
{"id": "C130", "title": "Laws of the products of automata", "statement": "deterministic_inclusion says that deterministic_intersection(g1, g2) is included in g1 and in g2 and equal to deterministic_intersection(g2, g1); that deterministic_intersection(g, g) and deterministic_union(g, g) equal g; that deterministic_union(g1, g2) equals deterministic_union(g2, g1) and contains g1.", "quantifier": "all automata with an initial state, all iteration orders of the sets", "why_tests_cant": "the laws relate the results of several calls on unboundedly many automata; the exceptions (a state 0, an initial state that is reached again) are on particular shapes", "anchors": ["src/pybgl/deterministic_intersection.py:58-89", "src/pybgl/deterministic_union.py:57-79", "src/pybgl/deterministic_inclusion.py:83-110"]}
{"id": "C131", "title": "Cost of the edit distances", "statement": "compute(i, j) of the three edit distances executes its body at most once for each pair of positions, hence at most (len(x)+1)*(len(y)+1) times, and is called at most once plus 3 (Levenshtein), 2 (LCS) or 4 (Damerau) times per execution. max(1, len(x)+len(y)) nested calls suffice for any words; on two non-empty words without common letter exactly len(x)+len(y) nested calls are needed (with a smaller stack Python raises RecursionError); whatever the letters, more than min(len(x), len(y)) nested calls are needed, which is exact for two equal words; and every pair but possibly the last one is computed. Without memoization, damerau_levenshtein_distance_naive calls itself at least 3^n times on two words of n letters without common letter.", "quantifier": "all words x, y over any alphabet with equality, any size of the stack", "why_tests_cant": "Tests measure a few words; the bounds and the exact depth of the stack hold for all of them.", "anchors": ["src/pybgl/levenshtein_distance.py:53-79", "src/pybgl/lcs_distance.py:52-77", "src/pybgl/damerau_levenshtein_distance.py:7-98"]}
{"id": "C132", "title": "The states of a trie are the prefixes of its words", "statement": "In a trie obtained from Trie() by any insertions of words and of tries, the states are in bijection with the prefixes of the accepted words (and the empty word): every state is reached by exactly one word, no state is useless, there are at most 1 + total length states, and two tries with the same words are isomorphic whatever the order, repetition or kind of the insertions. The states of make_suffix_trie(w, max_len) are likewise the factors of w that fit max_len, at most n(n+1)/2+1 of them and at most n*max_len+1 under a bound.", "quantifier": "all alphabets, all sequences of insertions of words and tries, all iteration orders of sets, all words and max_len", "why_tests_cant": "Sharing of prefixes is invisible in the accepted language: a trie that duplicates a branch, or leaves a useless state, accepts the same words.", "anchors": ["src/pybgl/trie.py:35-74", "src/pybgl/automaton.py:425-441", "src/pybgl/suffix_trie.py:60-102"]}
{"id": "C133", "title": "catify cuts a regular expression into its operators and literals and inserts the concatenations", "statement": "The pattern of tokenizer_re matches at a position exactly when one of the documented operators (*+?.|(), repetition, class, escape sequence) stands there, and the match is unique. Every text has exactly one reading as operators and literals, which loses no character. catify(s, cat) outputs its pieces in order with cat exactly between a piece that ends an operand and a piece that begins one; with cat=None it outputs the operators and the runs of literals, whose concatenation is s.", "quantifier": "all texts, all concatenation operators", "why_tests_cant": "The regular expression of the repetition has optional parts and overlapping repetitions; only a proof shows that no backtracking choice matters, for all texts.", "anchors": ["src/pybgl/shunting_yard_postfix.py:136-246", "src/pybgl/tokenize.py:55-78"]}
{"id": "C134", "title": "Number of states of the automaton of a regular expression", "statement": "thompson_compile_nfa of a well-formed expression returns an NFA whose states are 0, 1, .., n-1, where n is computed from the expression: 2 for a character or a class, the sum for a concatenation, the sum plus 2 for |, 2 more for * and +, nothing for ?, and as many copies as the upper bound for {m,n} (one state more when m is 0 and n is not 1); there is one initial state and one final state, the two returned. Without {..} there are at most two states per character of the expression. The operand of {0} must be an expression whose automaton begins at the state 0. compile_dfa then returns an automaton of at least one and at most 2^n states, n being that number of states.", "quantifier": "all well-formed regular expressions, all alphabets, all iteration orders of the sets", "why_tests_cant": "The size depends on the whole structure of the expression; a duplicated copy, a lost state or a stale initial state in one combination of operators does not change the language of a tested example.", "anchors": ["src/pybgl/thompson_compile_nfa.py:44-363", "src/pybgl/thompson_compile_nfa.py:524-593", "src/pybgl/regexp.py:31-47"]}
{"id": "C135", "title": "tokenizer_alg tells the unary signs from the binary ones", "statement": "tokenizer_alg cuts any text, its white space removed, into operators, parentheses and the texts between them, in one way and without losing a character; it returns the value of each text between operators, and the operators in order, where a + or a - that does not follow an operand (a number or a closing parenthesis) is replaced by u+ or u-. It raises exactly when a text is not a number, or another operator stands where an operand is expected, and the exception is that of the first such piece.", "quantifier": "all texts, all ways of reading the numbers", "why_tests_cant": "The tokens depend on what precedes each sign at any distance from the beginning of the text; errors must be reported for the first bad piece in all combinations.", "anchors": ["src/pybgl/shunting_yard_postfix.py:57-129", "src/pybgl/tokenize.py:55-75"]}
{"id": "C136", "title": "States and transitions of the products of automata", "statement": "The states of deterministic_union(g1, g2) are, once each, the pairs of states reached by the words from the initial states as long as one of the automata has a state (none when no symbol is enabled at the beginning); each symbol enabled in one of the two states leads to the next pair; a state is final when one of its components is; the initial state, if any, contains an initial state; there are fewer than (n1+1)*(n2+1) states. The states of deterministic_intersection(g1, g2) are, once each, the pairs of two states reached by the words that do not go on after a pair with the state 0 other than the initial one; a state is final when both components are; the initial state is the pair of initial states; every state is reached from it; there are at most n1*n2 states. Two runs with different iteration orders of the sets of symbols return the same automata up to the names of the states (for the union, up to the initial state).", "quantifier": "all automata, all iteration orders of the sets of symbols", "why_tests_cant": "The tests look at a few accepted words of small products: a duplicated or unreachable state, or a wrong bound, does not change them.", "anchors": ["src/pybgl/product_mixin.py:32-143", "src/pybgl/deterministic_union.py:33-79", "src/pybgl/deterministic_intersection.py:33-89", "src/pybgl/parallel_breadth_first_search.py"]}
{"id": "C137", "title": "The algorithms called on a GraphView", "statement": "A GraphView (possibly a view of a view, or of a reversed graph) can be given to depth_first_search, breadth_first_search, topological_sort, strong_components and dijkstra_shortest_paths: they do on it what they do on the graph made of the selected vertices and of the selected edges with selected ends. The searches visit once each vertex reached through selected edges (by increasing distance for breadth_first_search); topological_sort sorts the selected vertices iff the selected edges make no cycle; strong_components numbers the classes of mutual reachability through selected edges; dijkstra_shortest_paths finds the least weights of the walks of selected edges, and raises KeyError when the source is not selected. A view of a view is the intersection of the two views, and reversing the graph or its view is the same. Searching a view from selected sources is searching the graph with the selection added to if_push, whatever the visitor; graph_copy and graph_extract of a view from a selected vertex do exactly what they do on the graph when the selection is given as property maps.", "quantifier": "all graphs, directed or not, with or without in_edges, whose edges join vertices of the graph; all selections; all sources, all non-negative weights", "why_tests_cant": "A view is never searched in the tests, and the result depends on every selection on every graph.", "anchors": ["src/pybgl/graph_view.py: GraphView", "src/pybgl/depth_first_search.py: depth_first_search", "src/pybgl/breadth_first_search.py: breadth_first_search", "src/pybgl/topological_sort.py: topological_sort", "src/pybgl/strong_components.py: strong_components", "src/pybgl/dijkstra_shortest_paths.py: dijkstra_shortest_paths", "src/pybgl/reverse.py: reverse_graph", "src/pybgl/graph_copy.py:115-178", "src/pybgl/graph_extract.py:101-147"]}
{"id": "C138", "title": "insert_automaton glues an automaton on another one along a dictionary", "statement": "insert_automaton(g1, g2, map21) returns a dictionary that extends map21 with one new distinct state per state of g2 that is not a key; g1 gets exactly these states and the images of the transitions of g2, keeps its initial states, and a new state is final when its origin is (the given states keep their status). A non-empty map21 is filled in place, an empty one is left empty. A transition to something that is neither a state of g2 nor a key raises KeyError. Gluing the initial state of a fragment on the final state of another one concatenates their languages when no transition leaves the latter or none enters the former. With the same automaton twice, insert_automaton, concatenation and alternation raise RuntimeError and leave one isolated state.", "quantifier": "all pairs of automata, all dictionaries, all fragments", "why_tests_cant": "the tests only call the function without dictionary, on two distinct automata", "anchors": ["src/pybgl/thompson_compile_nfa.py:64-97", "src/pybgl/thompson_compile_nfa.py:99-176"]}
{"id": "C139", "title": "The products of automata built in a given automaton", "statement": "deterministic_union(g1, g2, g12) and deterministic_intersection(g1, g2, g12) leave the states, the transitions and the final flags of g12 as they are and add beside them the product that they would build in a new automaton, its states numbered from the next number of g12; the initial state becomes that of the product; g12 then accepts the words of the product. (The last sentence is false when the product has no state, where g12 keeps its initial state and its words, and when g12 marks as final a number to come, as it may after clear.)", "quantifier": "all automata g1, g2 and g12 (another object), all iteration orders of the sets", "why_tests_cant": "Tests pass no g12 or an empty one; the claim is over all contents of g12, and the failures need a cleared automaton or a product without transition.", "anchors": ["src/pybgl/deterministic_intersection.py:58-89", "src/pybgl/deterministic_union.py:56-79", "src/pybgl/product_mixin.py:10-143"]}
{"id": "C140", "title": "graph_copy into a graph that has vertices, or into the copied graph itself", "statement": "graph_copy(s, g, g_dup) with a g_dup that already has vertices keeps them, keeps its edges, and adds a copy of the relevant part of g reachable from s, made of new vertices and new edges only (one vertex per vertex, one edge per relevant out-edge). The same holds when g_dup is g, although the graph then grows while it is explored, provided that s is a vertex of g and that the edges of g go to vertices of g. (With an edge to the number that the next vertex takes, the copy of g into itself never ends.)", "quantifier": "all DirectedGraph and UndirectedGraph histories, all filters, all sources", "why_tests_cant": "Tests copy into an empty graph; the search must be shown to be independent of the growth of the graph for every graph, and the case that never ends needs an edge to a missing vertex.", "anchors": ["src/pybgl/graph_copy.py:80-178", "src/pybgl/depth_first_search.py:107-189"]}
{"id": "C141", "title": "The products of automata built in their own operands", "statement": "deterministic_intersection(g1, g2, g12) and deterministic_union(g1, g2, g12) where g12 is g1, g2 or both build beside the content of g12 what they build when the operands are copies, and g12 then accepts the intersection or the union of the words that the operands accepted before. (For the union, the first part is false when a transition of g12 leads to its initial state, where the product in place is the better one, and the second part is false when a transition of the other operand leads to its initial state. With a transition to a number that add_vertex has not given, the construction may never end.)", "quantifier": "all automata g12 without dangling transition, all other operands, all iteration orders of the sets", "why_tests_cant": "No test gives the output automaton among the operands; the claim is about an exploration that reads the automaton while it grows, for all automata and orders.", "anchors": ["src/pybgl/deterministic_intersection.py:58-89", "src/pybgl/deterministic_union.py:56-79", "src/pybgl/product_mixin.py:10-143", "src/pybgl/parallel_breadth_first_search.py:246-288"]}
{"id": "C142", "title": "automaton_copy into an automaton that has states, or into the copied automaton itself", "statement": "automaton_copy(s, g, g_dup, ...) with given maps and a g_dup that already has states keeps its states, transitions, initial state and final states, and adds a copy of the relevant part of g reachable from s, made of new states and new transitions; started at the copy of s, g_dup accepts the words of the relevant paths from s to a state that the callback makes final (or whose copy has a number that was set final before). The same holds when g_dup is g, although the automaton then grows while it is explored and while the callback reads its final states, provided that s is a state and that the transitions go to states of g; the words read from the old states are unchanged. (With a transition to the number that the next state takes, the copy never ends.)", "quantifier": "all automata built by any histories of calls, all relevance maps, all sources, all callbacks that set final flags; for the copy into itself: no callback, or the one that copies the final states", "why_tests_cant": "automaton_copy has no test at all; the search must be shown to be independent of the growth of the automaton, for every automaton.", "anchors": ["src/pybgl/automaton_copy.py:23-120", "src/pybgl/graph_copy.py:80-112", "src/pybgl/depth_first_search.py:107-189"]}
{"id": "C143", "title": "revuz_minimize with labels on the states of a node automaton", "statement": "On an acyclic IncidenceNodeAutomaton, revuz_minimize with pmap_vlabel and pmap_elabel merges only states that cannot be told apart by reading words, labels and final flags; each state that remains keeps its symbol and its behaviour, every removed state has the behaviour of a smaller one that remains, and the states that remain are the smallest of each class of states with the same behaviour; the accepted words are preserved when the initial state remains, and the height is returned. (Needed: states with the same label have the same symbol; and for the minimality, labels of transitions that depend on their targets only. Without the first condition words are lost.)", "quantifier": "all acyclic node automata built by disciplined histories of calls, all label maps (functions), all iteration orders of the sets", "why_tests_cant": "the tests call revuz_minimize on a few fixed automata; the claim is about every automaton and every label map.", "anchors": ["src/pybgl/revuz_minimize.py:118-248", "src/pybgl/incidence_node_automaton.py:28-95"]}
{"id": "C144", "title": "The visitor of revuz_minimize is told exactly the merges that are made, on node automata too", "statement": "On any IncidenceNodeAutomaton built through its own methods, cyclic or not, for any set of leaves among its states and any labels given by pmap_vlabel and pmap_elabel, a call of revuz_minimize that terminates raises no exception, gives the same automaton and the same height with or without a visitor, and its visitor is called, for each merged pair q1 < q2 of states with the same symbol, the same label, the same finality and the same transitions, in the order merging_states (before any change), move_transition once per transition into q2 (just after it is moved to q1, with the new transition), remove_vertex (when no transition leads to q2 any more), states_merged (once q2 is removed). The states that remain are the states of the automaton minus the second arguments of states_merged, they accept the words they accepted, and two merged states were equivalent in the given automaton.", "quantifier": "for all node automata, all orders of iteration of the sets, all sets of leaves among the states, all property maps", "why_tests_cant": "a test observes the calls on one automaton, one order of the sets and one labelling", "anchors": ["src/pybgl/revuz_minimize.py:18-73", "src/pybgl/revuz_minimize.py:178-248", "src/pybgl/incidence_node_automaton.py:31-72"]}
