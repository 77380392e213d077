# Formal model of nokia/PyBGL in Rocq (Coq 8.16.1)

`properties.jsonl` lists the properties, `MANIFEST.json` maps each of them to its theorems (regenerated by
`tools/gen_manifest.py` from the `Theorem Cnn_...` statements and `tools/notes.json`), `seeded/LOG.jsonl` records the
mutation tests. Build: in `rocq/`, `coq_makefile -f _CoqProject -o Makefile && make -j4` (about two minutes).

## Trusted base

* Coq 8.16.1's kernel (with `vm_compute`, used in examples, in the witnesses of the `_refuted` theorems and in a few
  finite enumerations such as the list of HTML tags), and its standard library. No other library, no plugin.
* `Print Assumptions` follows every property theorem. All of them are **closed under the global context**: no axiom
  is used, neither ours nor the standard library's. (The seven `Coq.ssr.ssrunder.Under_rel.*` names that a
  whole-library check lists are abstract module parameters of a standard library file loaded by others; no theorem
  depends on them.)
* No `Admitted`, no `Axiom`, no `Parameter`, no section-less `Variable`, no functor or module type, no kernel check
  switched off.
* The correspondence between the model and the Python text: by reading. Each definition of the model cites the file
  and the lines it models. Nothing was run.
* The specifications (`*Spec.v`, and the statements in `T*.v`), to be read against the English properties.

## Layout

All sources are in `rocq/theories/`. For an area `X`:

* `X.v`         - the model: executable Gallina functions, one per Python function, no proofs;
* `XSpec.v`     - the independent specification: small relations and functions, about mathematical objects (paths,
                  languages, edit scripts, trees, ...), not about the data structures of the code;
* `XProofs*.v`  - lemmas;
* `TX.v`        - the property theorems, each followed by `Print Assumptions` and by a concrete `Example` that meets
                  its hypotheses.

| area | python files | properties |
|------|--------------|------------|
| `Graph` | graph.py, incidence_graph.py | C01-C07 |
| `View` | graph_view.py, reverse.py | C08, C09 |
| `Reverse` | reverse.py: reverse_graph on an object used afterwards (the four exchanged attributes), for IncidenceGraph, UndirectedGraph, DirectedGraph | C109, C110 |
| `EdgeDesc` | graph.py (EdgeDescriptor), the descriptors of each class, Graph.edge on an Nfa | C107, C108 |
| `Misc`, `HtmlColor` | algebra.py, color.py, property_map.py, aggregated_visitor.py, reverse_dict | C64-C68, C85 |
| `Automaton` | automaton.py, incidence_automaton.py, node_automaton.py, incidence_node_automaton.py | C10-C15 |
| `Trie` | trie.py, suffix_trie.py, digital_sequence.py | C16-C21, C132 |
| `SuffixInto` | suffix_trie.py: make_suffix_trie with its parameter g | C19, C132 |
| `Catify` | shunting_yard_postfix.py: catify with any cat | C133 |
| `PBFS` | parallel_breadth_first_search.py, product_mixin.py, deterministic_*.py, trie_matching.py, trie fusion | C18, C43-C46 |
| `ParBfs` | parallel_breadth_first_search.py with all the methods of the visitor and source_pairs | C91 |
| `Nfa`, `TMoore`, `TClear` | nfa.py, moore_determination.py | C22-C24, C71, C84, C111 (clear, also of Automaton) |
| `Thompson` | thompson_compile_nfa.py (constructions) | C25-C27, C134 |
| `Str`, `ShuntingYard`, `Alg` | tokenize.py, shunting_yard_postfix.py | C30-C32, C135 |
| `SYCalls` | shunting_yard_postfix with the calls to its visitor (shunting_yard_postfix.py:254-402) | C124 |
| `Regexp` | thompson_compile_nfa.py (parsers, compilation), regexp.py, tokenizer_re | C28, C29, C95 (with `Nfa`, `PBFS`) |
| `Search`, `Dfs`, `Bfs` (specification and proofs only) | depth_first_search.py, breadth_first_search.py, graph_traversal.py | C33, C34, C37, C38, C70, C86, C92 |
| `SearchUsers` | topological_sort.py, strong_components.py, cut.py, graph_copy.py, graph_extract.py | C35, C36, C39-C41 |
| `Prune` | prune_incidence_automaton.py | C42 |
| `Insert` | automaton.py automaton_insert_string on Automaton and IncidenceAutomaton | C89, C90 |
| `EditDistance`, `BKTree` | levenshtein, lcs, damerau_levenshtein, bk_tree.py | C56-C61, C87, C88 |
| `EditCost` | the calls made by the functions of `EditDistance` | C131 |
| `Heap`, `Dijkstra`, `DijkstraGen`, `DijkstraAny` | heap.py, heapq of the standard library, dijkstra_shortest_paths.py | C49-C55, C72, C75, C82, C83, C112 |
| `Revuz`, `RevuzNode`, `Hopcroft` | revuz_minimize.py (both classes), hopcroft_minimize.py | C47, C48, C69, C106 |
| `RevuzVis` | revuz_minimize.py on IncidenceAutomaton with a visitor which records its calls, and with given leaves | C117 |
| `RevuzLab` | revuz_minimize.py on IncidenceAutomaton with pmap_vlabel and pmap_elabel | C118 |
| `RevuzNodeLab` | revuz_minimize.py on IncidenceNodeAutomaton with pmap_vlabel and pmap_elabel | C143 |
| `RevuzNodeVis` | revuz_minimize.py on IncidenceNodeAutomaton with all its arguments: labels, given leaves, and a visitor which records its calls | C144 |
| `NfaSets` | nfa.py: is_initial, finals, alphabet, sigma, is_epsilon_transition | C119 |
| `Min` (specification and proofs only) | the results of `Revuz`, `Hopcroft` | C79, C80 |
| `Graphviz`, `ReadDot` | graphviz_impl.py, read_graphviz | C62, C63, C81 |
| `ReadVis` | read_graphviz with a visitor, GraphvizOptsParser, read_graphviz_dp | C128 |
| `MooreInc` (with `Nfa`, `Hopcroft`, `Regexp`) | moore_determination.py called with an IncidenceAutomaton | C96 |
| `AutRun` (with `Insert`) | Automaton.delta_best_effort, accepts_debug | C97 |
| `Graphviz` (again), read by the DOT reader of `DotSpec` | to_dot and the functions it calls | C98 |
| `AutDot` | automaton.py, nfa.py, node_automaton.py, graph_view.py: the to_dot methods (symbols given with their `str`; the maps do not raise; `vs` and `es` given to a view are sets) | C99, C100 |
| `TreeDot` | bk_tree.py, shunting_yard_postfix.py: the to_dot methods of BKTree and Ast (no element is None; no positional argument) | C113 |
| `Render` | graphviz.py:222-363 (run_graphviz, dot_to_svg, write_graphviz, dotstr_to_html, graph_to_html), html.py, ipynb.py except in_ipynb: the program dot is any function from its arguments and input to a status, an output and an error output; the notebook is the list of what it shows; files are texts, opening one never raises; the `%` operator and UTF-8 are modelled after CPython | C114, C115, C116 |
| `GraphDp`, `Json` (specification: a reader of JSON) | graph_dp.py, enrich_kwargs | C93, C94 |
| `Ast` | shunting_yard_ast, Ast | C73, C74 |
| `NodeAut` | node_automaton.py | C76, C77 |
| `IncNodeHist` | incidence_node_automaton.py (with clear, set_initial, set_final) | C14 |
| `AutCopy` | automaton_copy.py | C78 |
| `CopyCalls` | the callbacks of graph_copy.py and automaton_copy.py | C123 |
| `ReEscape` | shunting_yard_postfix.py (re_escape) | C101 |
| `IncMake` | incidence_automaton.py (make_incidence_automaton), incidence_node_automaton.py (make_incidence_node_automaton), automaton.py (make_automaton on any list) | C102, C103 |
| `GvStyle` | graphviz_impl.py (GraphvizStyle), graph_dp.py (__init__ after color changes), singleton.py | C104, C105 |
| `FusionSelf` | trie.py, parallel_breadth_first_search.py: trie_deterministic_fusion(t, t), one object | C120 |
| `NfaWord` | no model of its own: delta_word, accepts and moore_determination (`Nfa`) on words that contain epsilon | C122 |
| `RevuzCycle`, `RevuzNodeCycle` | no model of their own: revuz_height and revuz_minimize (`Revuz`, `RevuzNode`) on graphs with cycles | C121 |
| `Order` | no model of its own: the functions that iterate sets, run with two orders of iteration (`OrderSpec` says which results are the same) | C125 |
| `Agree` | no model of its own: the minimisation and pruning functions compared with each other and applied twice | C126 C127 |
| `TCross` | no model of its own: topological_sort, strong_components, breadth_first_search, dijkstra_shortest_paths and reverse_graph compared with each other | C129 |
| `TProductLaws` | no model of its own: the laws of deterministic_intersection and deterministic_union | C130 |
| `TProductStates` | no model of its own: the states and transitions of deterministic_intersection and deterministic_union | C136 |
| `TViewSearch`, `TViewCopy` (and `view_api` in `View`) | no model of its own: the searches, topological_sort, strong_components and dijkstra_shortest_paths on a GraphView, views of views, reversed views | C137 |
| `InsertMap`, `TInsertMap` | insert_automaton with a dictionary; insert_automaton, concatenation and alternation with the same object twice (the size of a dictionary checked by each step of its iteration) | C138 |
| `ProductInto`, `TProductInto` | deterministic_intersection and deterministic_union with g12 given by the caller | C139 |
| `SelfCopy`, `TSelfCopy` | graph_copy with g_dup equal to g: depth_first_search on a graph that the visitor changes | C140 |
| `AutSelfCopy`, `TAutSelfCopy` | automaton_copy into an automaton that has states, and with g_dup equal to g | C142 |
| `ProductSelf`, `TProductSelf` | deterministic_intersection and deterministic_union with g12 among the operands: parallel_breadth_first_search on automata that the visitor changes | C141 |
| `Agg` | aggregated_visitor.py: visitors with a state, given to the searches of `Search` | C67 |
| `PMap` | property_map.py: maps of all kinds that may share a dictionary | C66 |

## Modelling conventions

* Python `int` vertex descriptors are `nat`; `None`/`BOTTOM` is `option`. Labels, elements and names are of any type
  with a decidable equality (class `EqDec`).
* `dict` is an association list in insertion order (`Base.v`), `set` is a duplicate-free list.
* A mutating method is a function `state -> state * res out`; a raised exception is the value `Raise e`, returned
  *together with* the state reached when it was raised, so that partial updates are visible.
* A `while` loop is a recursion on fuel returning `None` when exhausted; every theorem about such a loop gives an
  explicit bound on the fuel under which the result is `Some`, hence termination.
* Python iterates `set`s in an unspecified order. Where it matters, the loop takes an oracle
  `ord : nat -> list A -> list A` (indexed by the iteration) that returns an arbitrary permutation, and the theorems
  quantify over every oracle. Graph traversals take the graph through its API (`out_edges : V -> list E`,
  `target : E -> V`), hence hold for every enumeration order.
* A generator is the list of its elements at the time of the call.
* Visitors are records of callbacks on a user state; the searches are shown to produce one sequence of calls,
  whatever the visitor.
* Strings are lists of code points (`Str.v`); a regular expression of the module `re` is a hand-written recogniser
  with a comment on greediness and backtracking. The class `\d` is restricted to ASCII digits.
* Numbers: exact integers (ClosedOperator, the default weights of Dijkstra; C82 and C83 hold of weights of any type) or rationals (colors) instead of IEEE floats; in
  `shunting_yard_compute`, parsing of numbers and arithmetic are parameters that may raise.

## Status

*proved*: the theorems cover the property as stated. *partial*: the property is false of the code in some case; then a
`_refuted` theorem exhibits a concrete witness, checked by computation, and the other theorems give the strongest
true statement found (often an exact characterisation).

## Not modelled

* in_ipynb, and the `HTMLParser` under GraphvizOptsParser (an arbitrary function here);
* `__str__`, `__repr__`, `__hash__` and the free functions that only forward to a method (`graph.py:610-`...);
* a Singleton constructor that calls its own class; the type dispatch of AggregatedVisitor by class name is reduced to a list of visitors;
* visitors of revuz_minimize that modify the automaton; property maps that raise or depend on the automaton;
* aliasing other than `t.insert(t)` (C120), the Thompson constructions on the same automaton twice (C138), a graph or an automaton copied into itself (C140, C142) and the products built in their operands (C141): elsewhere the arguments are separate values;
* a visitor that modifies the graph or the property maps during a traversal (except the copies of C140 and C142 and the products of C141);
* recursion depth (except that of the edit distances, C131, and the nested calls of C110), memory limits, hash collisions;
* heapq is the Python text of the standard library; the C version visits the nodes in another order when it heapifies more than 2500 elements.

## Findings (defects of the code shown by the proofs)

* C05: UndirectedGraph.add_edge and IncidenceGraph.add_edge leave a half-added edge when they raise.
* C08: `v1 - v2` on views selects wrong edges (operator precedence in `__sub__`).
* C10, C13: the test `if not self.delta(u, a)` treats a transition to vertex 0 as missing: it is overwritten, and
  `in_edges` keeps the old edge. C13, C14: `remove_edge` with a wrong target removes another transition.
  After such calls `remove_vertex` may delete other edges and `clear` may raise, and then `add_vertex` returns an existing vertex.
* C26, C28: `(ba*)?` accepts "a"; C27, C28: `(a|b){0,2}` rejects "ab", `a*{2}` rejects "a"; a class containing the
  character used for epsilon accepts the empty word. "a{2 3}" raises RuntimeError, "a.b" raises IndexError.
* C101: `re_escape` escapes `^`, `$` and the backslash, but `compile_nfa` raises IndexError on these escapes.
* C31: a unary plus always raises (`+3`: ValueError; the test on "u-" is duplicated); `2^-3` raises IndexError; "()+((" returns the string "((";
  "1e-5" is cut as "1e" and raises ValueError; `tokenize=False` raises UnboundLocalError.
* C38: `breadth_first_search(s, g)` without a visitor raises AttributeError; `breadth_first_search_graph` with
  `sources=None` raises TypeError.
* C35: `topological_sort` ignores an empty deque given by the caller (truth value).
* C40, C41: on an UndirectedGraph each edge is copied (called back) twice.
* C42: without final state, prune_incidence_automaton keeps all the reachable states (an empty set of sources means
  all the vertices).
* C44: states numbered 0 are falsy in `if_push`, so the intersection misses words; C45: pairs that contain one
  initial state are made initial; both lose the empty word when there is no transition. Without an initial state in one of the
  automata the intersection raises AttributeError and the union makes every pair initial.
* C47: hopcroft_minimize raises TypeError when all (or no) states are final and there is a transition; dead states
  are not merged; an empty group yields an extra state; AssertionError when the initial state has been removed. C48: revuz_minimize does not update the initial state when it
  is merged; dead states are not merged. C106: the same on a node automaton, where accepts then raises KeyError.
  C118: with a pmap_elabel that does not give the symbol, a moved transition gets its label as symbol, and words are lost.
* C130: `deterministic_intersection(g, g)` may be strictly below g (a word through a state 0), `deterministic_union(g, g)` too (the empty word without transition), and `deterministic_union(g1, g2)` and `deterministic_union(g2, g1)` may differ.
* C139: a product built in an automaton given by the caller keeps its words when the product has no state, and inherits the final flags that `clear` keeps.
* C140: `graph_copy(s, g, g)` never ends when g has an edge to the number that the next vertex takes (`add_edge` accepts it); else it adds a copy beside g.
* C142: `automaton_copy(s, g, g)` never ends when g has a transition to the number that the next state takes; else it adds a copy beside g.
* C143: on a node automaton, with a pmap_vlabel that gives one label to states with different symbols, words are lost: a moved transition gets the symbol of its new target.
* C144: in the same situation the visitor receives None as the new transition in move_transition, and the transition is lost.
* C141: `deterministic_intersection(g, g, g)` may never end when g has a transition to the number that the next state takes; `deterministic_union(g1, g2, g1)` keeps the first pair initial where the union of copies moves the initial state to a pair that contains the initial state of g1.
* C126: hopcroft_minimize and revuz_minimize disagree on `0 -7-> 2 <-7- 1` with initial state 1: revuz_minimize removes the initial state, and its result rejects the word 7.
* C125: deterministic_union depends on the hash seed: the pair made initial is the last created one that contains an initial state,
  and its place depends on the order of iteration of the symbols. On the witness one order accepts no word, another one every word.
* C121: revuz_height, and so revuz_minimize, run for ever when a leaf can be reached from a cycle. Otherwise states of the same
  words are not merged when they lead to distinct states of cycles.
* C122: a symbol epsilon in a word consumes an epsilon-transition in `Nfa.accepts`, and is rejected after moore_determination.
* C119: `Nfa.alphabet()` and `Nfa.sigma(q)` keep the symbols of removed transitions.
* C109, C110: `add_edge(u, v)` on a reversed IncidenceGraph adds an arc from v to u. `reverse_graph` on an UndirectedGraph is
  accepted and makes `out_edges` call itself forever and `remove_edge` raise KeyError after removing one half of the edge.
* C107, C108: the descriptors of `Nfa.edges()` contain a set, so they cannot be hashed: `Nfa.edge(u, v)` raises TypeError when
  there is an edge, and the descriptor returned by `Nfa.add_edge` is never one of `edges()`.
* C53: make_shortest_path may loop for ever on cycles of weight 0. C52, C54: edges of weight INFINITY are recorded as
  predecessors of unreachable vertices; distances of infty or more count as unreachable.
* C59: damerau_levenshtein_distance is the optimal string alignment distance, not a metric; C60: a BKTree using it
  misses words. C87: BKTree.insert(w, u) from a node that is not on the way of w makes w unreachable for search.
* C89: automaton_insert_string adds other words than the one given when several words lead to the state where reading stops, or when
  set_final was called in advance on a vertex to come.
* C91: parallel_breadth_first_search does not color its sources: a source which is a successor of itself, or of a
  source before it, is discovered and examined twice; finish_vertex receives g2 in the place of g1; a pair discovered
  through edges that if_push rejects is never pushed afterwards.
* C92: a loop calls gray_target on the examined vertex, which is not in the queue, against the documentation of
  gray_target.
* C93: GraphDp.to_json escapes nothing: a quote in a label breaks the JSON text or adds members, even vertices.
* C96: `a*` has no minimal automaton: hopcroft_minimize after moore_determination raises TypeError (as for every NFA that accepts all or none of the words on its alphabet).
* C97: after set_final(BOTTOM) (which automaton_insert_string("") does when the initial state is BOTTOM), accepts_debug returns True for words that accepts rejects.
* C98: to_dot copies the attribute values between quotes without escaping them, so a quote in a value can add a vertex to the text, and a final backslash leaves the string open; in a label, `<b <>` is taken for a tag and leaves the HTML string open.
* C99: the texts of Automaton.to_dot and Nfa.to_dot do not show the initial states, so automata with different languages have the same text; in NodeAutomaton.to_dot a state with the symbol `^` looks like the initial state.
* C102: make_automaton with two targets for one (source, symbol) keeps the first one, except that the state of the first name in the sorted order is replaced by the next target; make_incidence_automaton then keeps the replaced transition in `in_edges`.
* C100: GraphView.to_dot with `vs` given by the caller keeps the edges that leave `vs`, so Graphviz draws vertices that are not asked for.
* C95: comparing `(ba*)?` with `a|(ba*)` returns -1 (contains), although the first has not the word "a".
* C94: GraphDp.to_dot raises AttributeError when the GraphDp has an extra_style; GraphDp.get_dpe always raises.
* C104: a color on several lines (set_bg_color("\n7 ;\n")) adds a vertex to every text written by to_dot.
* C62: read_graphviz ignores `--`: undirected graphs lose their edges.
* C63: U+007F-U+009F are not escaped; a newline and the two characters backslash n have the same translation.
* C64: ClosedPlus is not monotone when a finite sum exceeds the absorbing value.
* C74: `Ast.to_expr` subscripts a generator (TypeError) on a unary operator; shunting_yard_ast never sets the root.
* C76: NodeAutomaton.remove_edge of a missing edge removes another one; `clear` keeps symbols and final flags;
  `alphabet` is that of the states, not that of the transitions. C77: make_node_automaton reads `pmap_vfinal[u]` with
  the new vertex instead of the name; its default `pmap_vlabel` raises TypeError.
* C78: automaton_copy with its default arguments raises TypeError, and does not copy the final states.
* C83: make_shortest_path and dijkstra_shortest_path may loop for ever on the widest paths (GreaterThan, ClosedMin):
  any cycle of large capacities is a cycle of predecessors.
* C84: after `Nfa.remove_edge` an empty inner dictionary stays, so moore_determination builds a trash state although
  `complete=False`. C85: html_color_to_graphviz raises ValueError on hsla(...), decimals, and colors without commas,
  and drops the last character of the lightness when the closing parenthesis is missing.
* C111: `clear` of an Automaton or an Nfa keeps the initial states and the final flags: the cleared automaton may accept the empty word, and vertices created afterwards may be final.
* C112: dijkstra_shortest_paths always ends, also with negative cycles (the distances are then those of some walks); a loop of negative weight on the source makes it examined twice.
* C114: write_graphviz with its default format svg empties the file and raises AttributeError (`.decode` on a string); when dot fails the file is emptied too.
* C115: a background color with a percent sign, such as `hsl(120,50%,50%)`, makes ipynb_display_graph, display_svg and display_body raise ValueError, or show another color; display_svg has then already written the file and shown the link.
* C79: hopcroft_minimize turns the one-state automaton of the empty word into two states.
* C128: read_graphviz_dp always raises TypeError (the constructor of ReadGraphvizVisitor takes no argument); the methods of its visitor would store nothing in the empty dicts asked for by the documentation.
* Seen while reading, not in a theorem: `Nfa.initials()` cannot be called, an attribute has this name.
* C104: once a string is appended to GraphvizStyle.extra_style, the GraphDp objects created later cannot be exported.
* C131: the edit distances recurse; two words without common letter need len(x) + len(y) nested calls, so that words of about
  500 letters exceed the default limit of Python (1000).

## Tests of the model

`RepoTests1.v`, `RepoTests2.v` and `RepoTests3.v` replay on the model, by `vm_compute`, the assertions of the project's own
tests (`/repo/tests`). They are tests, not theorems: no claim rests on them. They check that the model gives the answers that
the project expects from the code, e.g. the 15 states and 279 transitions of the DFA of the IPv6 pattern
(`tests/test_regexp.py`) or the order of the vertices of `tests/test_topological_sort.py`. All of them agree. Not replayed:
the tests that only check that a rendering function returns a string, and those of the types of Python objects. The
mutation tool ignores these files, so that they never reject a mutant.

## Mutation testing

`tools/mutate.py` applies random small edits to the model files in a scratch copy and rebuilds; hand-written edits
complete it. `seeded/LOG.jsonl` has one line per attempt; the surviving edits were analysed one by one, and either the
theorem was tightened or the edit was shown to be equivalent or outside of the claim.

How to read the log. `failed_lemmas` names the first error of each file, as `coqc` stops there. `failed` lists the theorems that
the build no longer accepts: those stated at or after this error, and those of the files that need a broken file. Some of them
might still be provable with the edited model; they were not tried one by one. For the edits made by `tools/mutate.py` the field
`claim` is derived from `failed`; for the hand-written ones it is the English claim. Until 17 November the field `failed` also
listed the theorems stated before the error, which the build had accepted; `tools/fix_log.py` removed them. A few edits were
noticed only by an Example of a theorem file; those lines have an empty `failed`. Two of these gaps are open: no theorem says
which exception `make_assoc_property_map` raises on an object that is not a defaultdict, nor what a reversed DirectedGraph
answers (C110 has an Example of it only).
