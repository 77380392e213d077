{
 "Graph:264:KeyError->RuntimeError": {
  "claim": "none: the branch is unreachable, the vertex was found just before"
 },
 "Graphviz:224:false->true": {
  "claim": "C81 (a line without semicolon is not a vertex line)",
  "tightened": [
   "C81_read_directed",
   "C81_read_undirected"
  ]
 },
 "Graphviz:192:rev ->(fun x => x) ": {
  "claim": "C81 (the last line without boundary is read as written)",
  "tightened": [
   "C81_read_directed",
   "C81_read_undirected"
  ]
 },
 "Ast:30:KeyError->RuntimeError": {
  "claim": "none: no property is about the symbol of an unknown vertex"
 },
 "Hopcroft:52:Some (Raise KeyError)->None": {
  "claim": "none: the branch is unreachable, the loop runs while the list is not empty"
 },
 "Revuz:70:Ok tt->Raise KeyError": {
  "claim": "none: the branch is unreachable, a group of at least two states is not empty once sorted"
 },
 "Dijkstra:151:Some (Raise IndexError)->None": {
  "claim": "none: C53 is about targets with a path, whose predecessors are never empty"
 },
 "Dijkstra:176:Some (Raise x)->None": {
  "claim": "none: unreachable after a search that has met the target"
 },
 "Dijkstra:172:Some (Raise x)->None": {
  "claim": "none: C55 assumes that every edge has a weight"
 },
 "Dijkstra:118:Some (st, Error KeyError)->None": {
  "claim": "none: the branch is unreachable, the distance of s was just set"
 },
 "Dijkstra:152:source->target": {
  "claim": "none: both are parameters of the section, the theorems instantiate the one that is used by the map of the edges to their sources"
 },
 "Dijkstra:115:0->1": {
  "claim": "none: this heap is replaced before use"
 },
 "Dijkstra:135:source->target": {
  "claim": "none: both are parameters of the section, the theorems instantiate the one that is used by the map of the edges to their sources"
 },
 "Dijkstra:121:Some r->None": {
  "claim": "none: the default visitor never stops the initialisation"
 },
 "Heap:133:1->2": {
  "claim": "none: the indices stay increasing, the order of the elements is the same"
 },
 "BKTree:83:Some (Raise x)->None": {
  "claim": "none: no exception on trees built by insert (C60)"
 },
 "BKTree:51:Some (t, Raise x)->None": {
  "claim": "none: no exception on trees built by insert (C60)"
 },
 "BKTree:26:Some (t, Raise KeyError)->None": {
  "claim": "none: no exception on trees built by insert (C60)"
 },
 "BKTree:66:KeyError->RuntimeError": {
  "claim": "none: no exception on trees built by insert (C60)"
 },
 "Regexp:13:1->2": {
  "claim": "none: the cardinality of the operators is not read by the compilation of regular expressions"
 },
 "Regexp:13:1->0": {
  "claim": "none: the cardinality of the operators is not read by the compilation of regular expressions"
 },
 "Regexp:136:&&->||": {
  "claim": "C29 (what is not between brackets is rejected)",
  "tightened": [
   "C29_not_a_class"
  ]
 },
 "Alg:30:if mem d (lit \"+-\") then->if negb (mem d (lit \"+-\")) then": {
  "claim": "none: the expressions of C31 do not contain the letter u"
 },
 "Nfa:99:1->2": {
  "claim": "C71 (the parallel copies of a transition are numbered from 1)",
  "tightened": [
   "C71_nfa_results"
  ]
 },
 "Nfa:99:+->-": {
  "claim": "C71 (the parallel copies of a transition get different numbers)",
  "tightened": [
   "C71_nfa_results"
  ]
 },
 "Nfa:179:target->source": {
  "claim": "C71 (add_edge returns the new edge)",
  "tightened": [
   "C71_nfa_results"
  ]
 },
 "Misc:90:0->1": {
  "claim": "C65 (black has saturation 0)",
  "tightened": [
   "C65_black_white"
  ]
 },
 "AutCopy:27:KeyError->RuntimeError": {
  "claim": "none: the lookup always succeeds, as the traversal examines the edges of discovered vertices only (C78 proves that no exception is raised)",
  "tightened": []
 },
 "Misc:57:if eqb (key_of v) key then->if negb (eqb (key_of v) key) then": {
  "claim": "C67: get returns the visitor of the given key",
  "tightened": [
   "C67_aggregated_get"
  ]
 },
 "Misc:57:Some v->None": {
  "claim": "C67: get returns the visitor of the given key",
  "tightened": [
   "C67_aggregated_get"
  ]
 },
 "Misc:74:<?-><=?": {
  "claim": "C64: Less is the strict order",
  "tightened": [
   "C64_relations"
  ]
 },
 "HtmlColor:44:false->true": {
  "claim": "C85: the texts that int() accepts",
  "tightened": [
   "C85_int",
   "C85_exact"
  ]
 },
 "HtmlColor:45:0->1": {
  "claim": "C85: the texts that int() accepts and their value",
  "tightened": [
   "C85_int",
   "C85_exact"
  ]
 },
 "HtmlColor:64:-->+": {
  "claim": "C85: the part of the text that is read without closing parenthesis",
  "tightened": [
   "C85_exact"
  ]
 },
 "HtmlColor:64:1->0": {
  "claim": "C85: the part of the text that is read without closing parenthesis",
  "tightened": [
   "C85_exact"
  ]
 },
 "HtmlColor:64:1->2": {
  "claim": "C85: the part of the text that is read without closing parenthesis",
  "tightened": [
   "C85_exact"
  ]
 },
 "Insert:11:0->1": {
  "claim": "C97 (delta_best_effort from BOTTOM reads no symbol)",
  "tightened": [
   "C97_delta_best_effort"
  ]
 },
 "Insert:45:Ok tt->Raise KeyError": {
  "claim": "an automaton without initial state: the empty word is ignored, another word raises KeyError",
  "tightened": [
   "C89_no_initial_incidence (new)"
  ]
 },
 "Insert:20:KeyError->RuntimeError": {
  "claim": "an automaton without initial state: the empty word is ignored, another word raises KeyError",
  "tightened": [
   "C89_no_initial (new)"
  ]
 },
 "Insert:45:KeyError->RuntimeError": {
  "claim": "an automaton without initial state: the empty word is ignored, another word raises KeyError",
  "tightened": [
   "C89_no_initial_incidence (new)"
  ]
 },
 "Insert:20:Ok tt->Raise KeyError": {
  "claim": "an automaton without initial state: the empty word is ignored, another word raises KeyError",
  "tightened": [
   "C89_no_initial (new)"
  ]
 },
 "Dijkstra:70:target->source": {
  "claim": "none: both are parameters of the section, the theorems instantiate the one that is used by the map of the edges to their targets"
 },
 "Dijkstra:100:KeyError->RuntimeError": {
  "claim": "none: the branch is unreachable, a vertex in the heap has a distance"
 },
 "Trie:55:0->1": {
  "claim": "none: equivalent, 0 - 1 = 0 and for n = 1 both are 0"
 },
 "Nfa:245:Some (d, Raise KeyError)->None": {
  "claim": "none: the branch is unreachable, every unprocessed subset has a state"
 },
 "Thompson:48:KeyError->RuntimeError": {
  "claim": "none: the branch is unreachable, the map has every vertex of the copied automaton"
 },
 "Revuz:74:0->1": {
  "claim": "none: every state has a height"
 },
 "MooreInc:55:Some (d, Raise e)->None": {
  "claim": "none: the branch is unreachable, add_edge between existing states never raises"
 },
 "MooreInc:50:KeyError->RuntimeError": {
  "claim": "none: the branch is unreachable, every unprocessed subset has a state"
 },
 "MooreInc:31:Some (d, m, todo, Raise e)->None": {
  "claim": "none: the branch is unreachable, add_edge between existing states never raises"
 },
 "PMap:54:KeyError->RuntimeError": {
  "claim": "none: a reference to no object, excluded by made_on"
 },
 "PMap:36:KeyError->RuntimeError": {
  "claim": "none: a reference to no object, excluded by made_on"
 },
 "PMap:42:KeyError->RuntimeError": {
  "claim": "C66: the model confused a defaultdict without a factory with a plain dict, so the branch was unreachable; the model now has both and C66_shared fails under this edit",
  "tightened": [
   "C66_shared"
  ]
 },
 "RevuzNode:61:Some (g, Raise x)->None": {
  "claim": "none: merging never raises on a disciplined automaton (C106_revuz_node)"
 },
 "RevuzNode:58:Some (g, Raise x)->None": {
  "claim": "none: the signatures never raise on states of the automaton (C106_revuz_node)"
 },
 "RevuzNode:70:0->1": {
  "claim": "none: the out-degree is only taken on states of the automaton"
 },
 "RevuzNode:46:Ok tt->Raise KeyError": {
  "claim": "none: the branch is unreachable, a group of at least two states is not empty once sorted"
 },
 "Revuz:84:Some (g, Raise x)->None": {
  "claim": "none of the claims: a merge never raises on the automata of the theorems, which prove that the result is Ok"
 },
 "Trie:41:KeyError->RuntimeError": {
  "claim": "none of the claims: a Trie always has an initial state, the branch is never taken (the comment says so)"
 },
 "View:40:&&->||": {
  "claim": "C08: nested differences",
  "tightened": [
   "C08_view_expressions"
  ]
 },
 "View:40:negb (->(": {
  "claim": "C08: nested differences",
  "tightened": [
   "C08_view_expressions"
  ]
 },
 "View:73:source->target": {
  "claim": "C08: views of undirected graphs",
  "tightened": [
   "C08_undirected_view"
  ]
 },
 "Heap:133:+ 1->+ 2": {
  "claim": "none: the index only needs to grow, the order of the pops is unchanged"
 },
 "EdgeDesc:117:source->target": {
  "claim": "C108 did not say what the descriptor returned by add_edge holds",
  "tightened": [
   "C108_add_edge_descriptor"
  ]
 },
 "PMap:28:TypeError->ValueError": {
  "claim": "none: the branch is not reached, a Python reference always has its object"
 },
 "IncMake:13:KeyError->RuntimeError": {
  "claim": "none: the branch is not reached, the names of the states are those of the ends of the transitions"
 },
 "IncMake:12:match IA_add_edge g->match g IA_add_edge": {
  "claim": "none: the edited definition is ill typed"
 },
 "Alg:58:TypeError->ValueError": {
  "claim": "none: the class of the exception raised by arithmetic on a parenthesis is not claimed"
 },
 "BKTree:27:KeyError->RuntimeError": {
  "claim": "C87 did not say what happens at a vertex without element",
  "tightened": [
   "C87_missing"
  ]
 },
 "ShuntingYard:56:IndexError->ValueError": {
  "claim": "C30 did not cover unbalanced expressions",
  "tightened": [
   "C30_any_tokens"
  ]
 },
 "MooreInc:50:Some (d, Raise KeyError)->None": {
  "claim": "none: unreachable, every state is a key of the dictionary"
 },
 "MooreInc:67:Some (d, Raise e)->None": {
  "claim": "none: unreachable, the loop inside never raises"
 },
 "Render:25:-->+": {
  "claim": "none: widths in a format only occur when the colour has a percent sign, and then C115 only says that the result is not the documented one"
 },
 "Render:25:+->-": {
  "claim": "none: widths in a format only occur when the colour has a percent sign, and then C115 only says that the result is not the documented one"
 },
 "Render:29:s ++ fill->fill ++ s": {
  "claim": "none: widths in a format only occur when the colour has a percent sign, and then C115 only says that the result is not the documented one"
 },
 "Render:29:s ++ fill->s": {
  "claim": "none: widths in a format only occur when the colour has a percent sign, and then C115 only says that the result is not the documented one"
 },
 "Render:35:ch \"r\"->ch \"@\"": {
  "claim": "none: conversions other than s only occur when the colour has a percent sign, and then C115 only says that the result is not the documented one"
 },
 "Render:183:_ :: _->_": {
  "claim": "none: equivalent, the first pattern is tried before"
 },
 "Render:217:TypeError->ValueError": {
  "claim": "none: the branch is unreachable, run_graphviz returns a text for the format svg (C116_run_graphviz)"
 },
 "EdgeDesc:97:Some e->None": {
  "claim": "C107 (set on descriptors keeps one of the equal ones)",
  "tightened": [
   "C107_set"
  ]
 },
 "EdgeDesc:97:if existsb (fun x => E_eq x (Some e)) acc then->if negb (existsb (fun x => E_eq x (Some e)) acc) then": {
  "claim": "C107 (set on descriptors keeps one of the equal ones)",
  "tightened": [
   "C107_set"
  ]
 },
 "EdgeDesc:36:_ :: _->_": {
  "claim": "none: equivalent, the first pattern is tried before"
 },
 "EdgeDesc:105:source->target": {
  "claim": "C107 (the edges of a graph are compared by source, target, number)",
  "tightened": [
   "C107_graph_edges"
  ]
 },
 "EdgeDesc:105:target->source": {
  "claim": "C107 (the edges of a graph are compared by source, target, number)",
  "tightened": [
   "C107_graph_edges"
  ]
 },
 "EditDistance:18:false->true": {
  "claim": "none: equivalent, the indices are always in range"
 },
 "Misc:83:Definition INFINITY : Z := 9223372036854775807->Definition INFINITY : Z := 9223372036854775806": {
  "claim": "C64 (INFINITY is sys.maxsize)",
  "tightened": [
   "C64_nontrivial"
  ]
 },
 "Hopcroft:97:KeyError->RuntimeError": {
  "claim": "none: the branch is unreachable, both groups belong to the list"
 },
 "GraphDp:36:Ok (gdp_dg d)->Ok (gdp_dv d)": {
  "claim": "C94 (the getters return the styles)",
  "tightened": [
   "C94_getters"
  ]
 },
 "SearchUsers:30:target->source": {
  "claim": "none: equivalent, it renames the argument of the function after the end of the section"
 },
 "GraphDp:32:Ok (gdp_dpv d)->Ok []": {
  "claim": "C94 (the getters return the styles)",
  "tightened": [
   "C94_getters"
  ]
 },
 "GraphDp:40:Ok (gdp_de d)->Ok (gdp_dv d)": {
  "claim": "C94 (the getters return the styles)",
  "tightened": [
   "C94_getters"
  ]
 },
 "GraphDp:38:Ok (gdp_dv d)->Ok (gdp_de d)": {
  "claim": "C94 (the getters return the attributes they are named after)",
  "tightened": [
   "C94_getters"
  ]
 },
 "Trie:123:IndexError->ValueError": {
  "claim": "C21 (a state beyond the last one is refused with IndexError)",
  "tightened": [
   "C21_out_of_range"
  ]
 },
 "Heap:136:0->1": {
  "claim": "none: the indices only break ties, and only their order matters"
 },
 "PBFS:158:0->1": {
  "claim": "none: the default is unreachable, there are four counters and the position is at most 3"
 },
 "Regexp:178:Definition epsilon : char := 949%N->Definition epsilon : char := 948%N": {
  "claim": "C101 (the Greek letter epsilon cannot be escaped)",
  "tightened": [
   "C101_epsilon_refuted"
  ]
 },
 "Thompson:59:KeyError->RuntimeError": {
  "claim": "C25 (a fragment whose initial or final state is missing is refused with KeyError)",
  "tightened": [
   "C25_missing_state"
  ]
 },
 "Nfa:154:Definition N_is_initial (g : nfa) (q : nat) : bool := mem q (nf_init g)->Definition N_is_initial (g : nfa) (q : nat) : bool := match nf_init g with x :: _ => eqb q x | [] => false end": {
  "claim": "C119 (is_initial holds of every initial state)",
  "tightened": [
   "C119_states"
  ]
 },
 "Nfa:161:filter (N_is_final g) ->(fun x => x) ": {
  "claim": "C119 (finals lists the final states only)",
  "tightened": [
   "C119_states"
  ]
 },
 "Nfa:283:Some (d, Raise e)->None": {
  "claim": "none: the branch is unreachable, the first subset is new so it is added without exception"
 },
 "Automaton:166:Definition A_num_edges (g : aut) : nat := length (A_edges g)->Definition A_num_edges (g : aut) : nat := S (length (A_edges g))": {
  "claim": "C11 (num_edges counts the transitions)",
  "tightened": [
   "C11_counts"
  ]
 },
 "AutCopy:28:KeyError->RuntimeError": {
  "claim": "none: the branch is not reached, automaton_copy maps both ends of an edge before it copies the edge"
 },
 "Ast:31:KeyError->RuntimeError": {
  "claim": "none: no property is about symbol of a vertex that is not in the tree"
 },
 "PMap:40:KeyError->RuntimeError": {
  "claim": "none: the branch is not reached, a Python reference always has its object"
 },
 "PMap:58:KeyError->RuntimeError": {
  "claim": "none: the branch is not reached, a Python reference always has its object"
 },
 "FusionSelf:80:dset col1 (q1, q2) BLACK->col1": {
  "claim": "none: equivalent edit, the colour BLACK is only compared with WHITE and the pair is already GRAY"
 },
 "BKTree:36:Some (t, Raise x)->None": {
  "claim": "none: equivalent edit, add_vertex of an automaton never raises, so the branch is not reachable"
 },
 "Graphviz:33:_ :: _->_": {
  "claim": "none: the first line of the match has taken the empty pattern, the two patterns are equivalent there"
 },
 "SearchUsers:61:+ 1->+ 2": {
  "claim": "C36 (the discovery times are the ranks in the order of discovery)",
  "tightened": [
   "C36_visitor"
  ]
 },
 "Str:20:<=?-><?": {
  "claim": "C133 (the white space of a repetition: U+2000 is white space)",
  "tightened": [
   "C133_spaces"
  ]
 }
}