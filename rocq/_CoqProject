-Q theories Verif
theories/Base.v
theories/BaseProofs.v
theories/Graph.v
theories/GraphSpec.v
theories/GraphProofs.v
theories/GraphProofs2.v
theories/GraphProofs3.v
theories/TGraph.v
theories/View.v
theories/ViewProofs.v
theories/TView.v
theories/Misc.v
theories/MiscSpec.v
theories/MiscProofs.v
theories/TMisc.v
theories/Automaton.v
theories/AutomatonSpec.v
theories/AutomatonProofs.v
theories/AutomatonProofs2.v
theories/AutomatonProofs3.v
theories/TAutomaton.v
theories/Trie.v
theories/TrieSpec.v
theories/TrieProofs.v
theories/TrieProofs2.v
theories/TTrie.v
theories/PBFS.v
theories/PBFSProofs.v
theories/PBFSProofs2.v
theories/PBFSProofs3.v
theories/PBFSProofs4.v
theories/TPBFS.v
theories/Nfa.v
theories/NfaSpec.v
theories/NfaProofs.v
theories/NfaProofs2.v
theories/TNfa.v
theories/NfaWordSpec.v
theories/TNfaWords.v
theories/TClear.v
theories/Thompson.v
theories/ThompsonSpec.v
theories/ThompsonProofs.v
theories/ThompsonProofs2.v
theories/ThompsonProofs3.v
theories/ThompsonProofs4.v
theories/TThompson.v
theories/Str.v
theories/ShuntingYard.v
theories/SYSpec.v
theories/SYProofs.v
theories/Alg.v
theories/AlgSpec.v
theories/AlgProofs.v
theories/AlgProofs2.v
theories/TSY.v
theories/SYCalls.v
theories/SYCallsSpec.v
theories/SYCallsProofs.v
theories/TSYCalls.v
theories/OrderSpec.v
theories/OrderProofs.v
theories/TOrder.v
theories/TAgree.v
theories/Regexp.v
theories/RegexpSpec.v
theories/RegexpProofs.v
theories/RegexpProofs2.v
theories/RegexpProofs3.v
theories/RegexpProofs4.v
theories/TRegexp.v
theories/Search.v
theories/SearchSpec.v
theories/SearchProofs.v
theories/SearchProofs2.v
theories/TSearch.v
theories/SearchUsers.v
theories/SearchUsersSpec.v
theories/SearchUsersProofs.v
theories/CopyProofs.v
theories/CopyProofs2.v
theories/TarjanProofs.v
theories/TSearchUsers.v
theories/TTarjan.v
theories/BFSProofs.v
theories/TBFS.v
theories/TreeSpec.v
theories/TTree.v
theories/EditDistance.v
theories/EditSpec.v
theories/EditProofs.v
theories/EditCost.v
theories/EditCostSpec.v
theories/EditCostProofs.v
theories/TEdit.v
theories/TEditCost.v
theories/BKTree.v
theories/BKSpec.v
theories/BKProofs.v
theories/BKProofs2.v
theories/TBKTree.v
theories/Heap.v
theories/HeapProofs.v
theories/HeapSpec.v
theories/THeap.v
theories/Dijkstra.v
theories/DijkstraSpec.v
theories/DijkstraProofs.v
theories/TDijkstra.v
theories/Prune.v
theories/TPrune.v
theories/Revuz.v
theories/RevuzSpec.v
theories/RevuzProofs.v
theories/RevuzProofs2.v
theories/RevuzProofs3.v
theories/TRevuz.v
theories/Hopcroft.v
theories/HopcroftProofs.v
theories/HopcroftProofs2.v
theories/THopcroft.v
theories/THopcroftRest.v
theories/Graphviz.v
theories/GraphvizSpec.v
theories/GraphvizProofs.v
theories/GraphvizProofs2.v
theories/GraphvizProofs3.v
theories/TGraphviz.v
theories/Ast.v
theories/AstSpec.v
theories/AstProofs.v
theories/TAst.v
theories/DecreaseProofs.v
theories/TDecrease.v
theories/NodeAut.v
theories/NodeAutSpec.v
theories/NodeAutProofs.v
theories/NodeAutProofs2.v
theories/TNodeAut.v
theories/AutCopy.v
theories/AutCopyProofs.v
theories/TAutCopy.v
theories/CopyCalls.v
theories/CopyCallsSpec.v
theories/CopyCallsProofs.v
theories/TCopyCalls.v
theories/MinSpec.v
theories/MinProofs.v
theories/TMin.v
theories/ReadDotSpec.v
theories/ReadDotProofs.v
theories/TReadDot.v
theories/ReadVis.v
theories/ReadVisSpec.v
theories/ReadVisProofs.v
theories/TReadVis.v
theories/DijkstraAnySpec.v
theories/DijkstraAnyProofs.v
theories/DijkstraGenSpec.v
theories/DijkstraGenProofs.v
theories/TDijkstraAny.v
theories/TDijkstraGen.v
theories/TMoore.v
theories/HtmlColor.v
theories/HtmlColorSpec.v
theories/HtmlColorProofs.v
theories/THtmlColor.v
theories/DfsSpec.v
theories/DfsProofs.v
theories/TDfs.v
theories/TEdit2.v
theories/Insert.v
theories/InsertProofs.v
theories/TInsert.v
theories/ParBfs.v
theories/ParBfsSpec.v
theories/ParBfsProofs.v
theories/TParBfs.v
theories/ParBfsProofs2.v
theories/BfsSpec.v
theories/BfsCalls.v
theories/TBfsCalls.v
theories/GraphDp.v
theories/JsonSpec.v
theories/JsonProofs.v
theories/TGraphDp.v
theories/TRegexpEq.v
theories/MooreInc.v
theories/MooreIncProofs.v
theories/TMooreMin.v
theories/TRegexpMin.v
theories/AutRun.v
theories/TAutRun.v
theories/DotSpec.v
theories/DotProofs.v
theories/DotProofs2.v
theories/TDot.v
theories/AutDot.v
theories/TAutDot.v
theories/TreeDot.v
theories/TTreeDot.v
theories/TViewDot.v
theories/ThompsonProofs5.v
theories/ReEscape.v
theories/ReEscapeProofs.v
theories/TReEscape.v
theories/IncMake.v
theories/IncMakeSpec.v
theories/IncMakeProofs.v
theories/IncMakeProofs2.v
theories/TIncMake.v
theories/IncWeakProofs.v
theories/IncWeakProofs2.v
theories/TIncWeak.v
theories/IncNodeHist.v
theories/IncNodeHistSpec.v
theories/IncNodeHistProofs.v
theories/TIncNodeHist.v
theories/TrieSizeSpec.v
theories/TTrieSize.v
theories/SuffixInto.v
theories/TSuffixInto.v
theories/Catify.v
theories/CatifySpec.v
theories/CatifyProofs.v
theories/TCatify.v
theories/GvStyle.v
theories/GvStyleSpec.v
theories/TGvStyle.v
theories/PMap.v
theories/PMapSpec.v
theories/TPMap.v
theories/RevuzNode.v
theories/RevuzNodeProofs.v
theories/RevuzNodeSpec.v
theories/TRevuzNode.v
theories/EdgeDesc.v
theories/EdgeDescSpec.v
theories/EdgeDescProofs.v
theories/TEdgeDesc.v
theories/Reverse.v
theories/ReverseSpec.v
theories/ReverseProofs.v
theories/TReverse.v
theories/Render.v
theories/RenderSpec.v
theories/RenderProofs.v
theories/TRender.v
theories/RevuzVis.v
theories/RevuzVisSpec.v
theories/RevuzVisProofs.v
theories/TRevuzVis.v
theories/RevuzLab.v
theories/RevuzLabSpec.v
theories/RevuzLabProofs.v
theories/TRevuzLab.v
theories/NfaSets.v
theories/NfaSetsSpec.v
theories/NfaSetsProofs.v
theories/TNfaSets.v
theories/FusionSelf.v
theories/FusionSelfProofs.v
theories/TFusionSelf.v
theories/RevuzCycleSpec.v
theories/RevuzCycleProofs.v
theories/RevuzCycleProofs2.v
theories/TRevuzCycle.v
theories/RevuzNodeCycleProofs.v
theories/TRevuzNodeCycle.v
theories/RevuzNodeLab.v
theories/RevuzNodeLabSpec.v
theories/RevuzNodeLabProofs.v
theories/TRevuzNodeLab.v
theories/RevuzNodeVis.v
theories/RevuzNodeVisSpec.v
theories/RevuzNodeVisProofs.v
theories/TRevuzNodeVis.v
theories/TRevuzEnds.v
theories/TCross.v
theories/TViewSearch.v
theories/InsertMap.v
theories/TInsertMap.v
theories/ProductInto.v
theories/TProductInto.v
theories/ProductSelf.v
theories/TProductSelf.v
theories/TViewCopy.v
theories/SelfCopy.v
theories/TSelfCopy.v
theories/AutSelfCopy.v
theories/TAutSelfCopy.v
theories/ProductStatesSpec.v
theories/ProductStatesProofs.v
theories/TProductStates.v
theories/TProductLaws.v
theories/ThompsonSizeSpec.v
theories/ThompsonSizeProofs.v
theories/TThompsonSize.v
theories/AlgTokSpec.v
theories/AlgTokProofs.v
theories/TAlgTok.v
theories/Agg.v
theories/TAgg.v
theories/RepoTests1.v
theories/RepoTests2.v
theories/RepoTests3.v
