(** The assertions of the project's own tests (/repo/tests), replayed on the model: graphs, searches, heaps, shortest paths, views,
    tries, distances. As in RepoTests1.v, these are tests of the model, not theorems about it. *)
From Coq Require Import String ZArith QArith.
From Verif Require Import Str Graph Automaton Search SearchUsers View Heap Dijkstra Reverse Trie SuffixInto PBFS EditDistance BKTree RepoTests1 Base BaseProofs.
From Verif Require Misc.
Open Scope string_scope. Open Scope nat_scope. Open Scope list_scope.

(** a graph with given edges *)
Definition dg (n : nat) (l : list (nat * nat)) : graph := fold_left (fun g '(u, v) => fst (G_add_edge g u v)) l (G_init n).
Definition ug (n : nat) (l : list (nat * nat)) : graph := fold_left (fun g '(u, v) => fst (UG_add_edge g u v)) l (G_init n).
(** the number of vertices and edges *)
Definition dsize (g : graph) := (G_num_vertices g, DG_num_edges g).
Definition usize (g : graph) := (G_num_vertices g, UG_num_edges g).
Definition found (o : option gedge * bool) : gedge := match fst o with Some e => e | None => Edge 99 99 99 end.

(** tests/test_directed_graph.py:8-120 *)
Definition parallel := [(0, 1); (0, 1); (0, 2); (1, 2); (2, 2)].
Example test_directed_graph : let g := dg 3 parallel in let e1 := Edge 0 1 0 in let e2 := Edge 0 2 0 in
  snd (G_add_edge (G_init 3) 0 1) = Ok (e1, true) /\ G_edge (dg 3 [(0, 1)]) 0 1 = (Some e1, true) /\ snd (G_edge (dg 3 [(0, 1)]) 0 2) = false /\
  G_out_edges (dg 3 [(0, 1)]) 0 = [e1] /\ snd (G_add_edge (dg 3 [(0, 1)]) 0 2) = Ok (e2, true) /\ same (G_out_edges (dg 3 [(0, 1); (0, 2)]) 0) [e1; e2] = true /\
  dsize g = (3, 5) /\ dsize (fst (G_add_edge (fst (G_add_vertex g)) 1 3)) = (4, 6) /\
  dsize (fst (G_remove_edge g (found (G_edge g 1 2)))) = (3, 4) /\
  (let h := fst (G_remove_edge g (found (G_edge g 1 2))) in dsize (fst (G_remove_edge h (found (G_edge h 2 2)))) = (3, 3)) /\
  (let g1 := fst (DG_remove_vertex g 1) in let g2 := fst (DG_remove_vertex g1 2) in let g3 := fst (DG_remove_vertex g2 0) in
   map dsize [g1; g2; g3] = [(2, 2); (1, 0); (0, 0)]).
Proof. vm_compute. repeat split. Qed.

(** tests/test_undirected_graph.py:10-107 *)
Example test_undirected_graph : let g := ug 3 parallel in
  let '(_, r1) := UG_add_edge (G_init 3) 0 1 in let e1 := match r1 with Ok (e, _) => e | _ => Edge 99 99 99 end in
  G_edge (ug 3 [(0, 1)]) 0 1 = (Some e1, true) /\ snd (G_edge (ug 3 [(0, 1)]) 0 2) = false /\ G_out_edges (ug 3 [(0, 1)]) 0 = [e1] /\
  G_out_degree (ug 3 [(0, 1); (0, 2)]) 0 = 2 /\ usize (ug 3 [(0, 1); (0, 2)]) = (3, 2) /\
  usize g = (3, 5) /\ (let h := fst (UG_add_edge (fst (G_add_vertex g)) 1 3) in usize h = (4, 6) /\ G_out_degree h 1 = 4) /\
  (let h := fst (UG_remove_edge g (found (G_edge g 1 2))) in usize h = (3, 4) /\ usize (fst (UG_remove_edge h (found (G_edge h 2 2)))) = (3, 3)) /\
  (let g1 := fst (UG_remove_vertex g 1) in let g2 := fst (UG_remove_vertex g1 2) in let g3 := fst (UG_remove_vertex g2 0) in
   map usize [g1; g2; g3] = [(2, 2); (1, 0); (0, 0)]).
Proof. vm_compute. repeat split. Qed.
(** tests/test_undirected_graph.py:110-167 *)
Example test_undirected_graph2 : let add g u v := let '(g', r) := UG_add_edge g u v in (g', match r with Ok (e, _) => e | _ => Edge 99 99 99 end) in
  let '(g1, e_uv) := add (G_init 3) 0 1 in let '(g2, e_uv1) := add g1 1 0 in let '(g3, _) := add g2 0 2 in let '(g4, _) := add g3 1 2 in
  map usize [g1; g2; g3; g4] = [(3, 1); (3, 2); (3, 3); (3, 4)] /\
  map (fun u => (length (UG_in_edges g4 u), G_out_degree g4 u)) [0; 1; 2] = [(3, 3); (3, 3); (2, 2)] /\
  (let g5 := fst (UG_remove_edge g4 e_uv) in let g6 := fst (UG_remove_edge g5 e_uv1) in let g7 := fst (UG_remove_vertex g6 1) in
   map usize [g5; g6; g7] = [(3, 3); (3, 2); (2, 1)] /\ map (fun u => (length (UG_in_edges g7 u), G_out_degree g7 u)) [0; 2] = [(1, 1); (1, 1)]).
Proof. vm_compute. repeat split. Qed.

(** tests/test_incidence_graph.py:7-73 *)
Example test_incidence_graph : let add g u v := let '(g', r) := IG_add_edge g u v in (g', match r with Ok (e, _) => e | _ => Edge 99 99 99 end) in
  let '(g1, e1) := add (IG_init 2) 0 1 in let '(g2, e2) := add g1 0 1 in let g2' := fst (IG_add_vertex g2) in
  let '(g3, e3) := add g2' 0 2 in let '(g4, e4) := add g3 0 2 in let '(g5, e5) := add g4 2 1 in let '(g6, e6) := add g5 2 1 in
  let h := fst (IG_remove_edge g6 e1) in let k := fst (IG_remove_vertex h 0) in
  G_edge (ig_base g1) 0 1 = (Some e1, true) /\ IG_in_edges g1 1 = [e1] /\ IG_out_edges g1 0 = [e1] /\
  same (IG_in_edges g2 1) [e1; e2] = true /\ same (IG_out_edges g2 0) [e1; e2] = true /\ length (IG_edges g2) = 2 /\
  same (IG_out_edges g4 0) [e1; e2; e3; e4] = true /\ same (IG_in_edges g4 2) [e3; e4] = true /\ length (IG_edges g4) = 4 /\
  same (IG_out_edges g6 2) [e5; e6] = true /\ same (IG_in_edges g6 1) [e1; e2; e5; e6] = true /\ length (IG_edges g6) = 6 /\
  length (IG_edges h) = 5 /\ same (IG_out_edges h 0) [e2; e3; e4] = true /\ same (IG_in_edges h 1) [e2; e5; e6] = true /\ G_edge (ig_base h) 0 1 = (Some e2, true) /\
  length (IG_vertices k) = 2 /\ length (IG_edges k) = 2 /\ same (IG_out_edges k 2) [e5; e6] = true /\ same (IG_in_edges k 1) [e5; e6] = true.
Proof. vm_compute. repeat split. Qed.

(** tests/test_reverse.py:15-38 *)
Example test_reverse : View.reverse_dict [(1, ch "a"); (2, ch "b")] = [(ch "a", 1); (ch "b", 2)] /\ View.reverse_dict [(1, ch "a"); (2, ch "b"); (3, ch "b")] = [(ch "a", 1); (ch "b", 3)] /\
  (let g := fst (IG_add_edge (IG_init 2) 0 1) in let e := Edge 0 1 0 in let o := RObj g attrs_init in let o' := RObj g (attrs_reverse attrs_init) in
   (R_source o e, R_target o e, R_in_edges o 0, R_out_edges o 0, R_in_edges o 1, R_out_edges o 1) = (0, 1, [], [e], [e], []) /\
   (R_source o' e, R_target o' e, R_in_edges o' 1, R_out_edges o' 1, R_in_edges o' 0, R_out_edges o' 0) = (1, 0, [], [e], [e], [])).
Proof. vm_compute. repeat split. Qed.

(** the visitor of the tests: numbers of discovered vertices and examined edges, tests/test_breadth_first_search.py:14-32 *)
Definition counting (x : Search.event gedge) (st : list nat * list gedge) : res (list nat * list gedge) :=
  match x with Discover u => Ok (fst st ++ [u], snd st) | Examine e => Ok (fst st, snd st ++ [e]) | _ => Ok st end.
(** tests/test_breadth_first_search.py:35-85, test_depth_first_search.py:35-85 *)
Definition E1 := [(0, 1); (1, 2); (2, 3); (3, 1); (3, 4); (4, 5); (5, 6); (6, 4)].
Definition E2 := [(0, 1); (1, 2); (1, 3); (3, 0); (3, 2)].
Definition visited (vs : list nat) (o : option (res (Search.colors * (list nat * list gedge)))) : nat * nat * bool :=
  match o with
  | Some (Ok (c, (d, x))) => (length d, length x, forallb (fun u => match Search.color_of c u with Search.BLACK => true | _ => false end) vs)
  | _ => (99, 99, false)
  end.
Definition bfs (g : graph) := visited (G_vertices g) (breadth_first_search (G_out_edges g) target all_edges counting 200 (G_vertices g) 0 [] ([], [])).
Definition dfs (g : graph) := visited (G_vertices g) (depth_first_search (G_out_edges g) target all_edges counting 200 0 [] ([], [])).
Example test_bfs : map bfs [dg 7 E1; dg 4 E2; ug 7 E1; ug 4 E2] = [(7, 8, true); (4, 5, true); (7, 16, true); (4, 10, true)].
Proof. vm_compute. reflexivity. Qed.
Example test_dfs : map dfs [dg 7 E1; dg 4 E2; ug 7 E1; ug 4 E2] = [(7, 8, true); (4, 5, true); (7, 16, true); (4, 10, true)].
Proof. vm_compute. reflexivity. Qed.
(** tests/test_reverse.py:41-93 *)
Definition orders (o : robj) (res : option (res (Search.colors * (list nat * list gedge)))) : list nat * list (nat * nat) :=
  match res with Some (Ok (_, (d, x))) => (d, map (fun e => (R_source o e, R_target o e)) x) | _ => ([], []) end.
Example test_reverse_traversal : let g := fold_left (fun g '(u, v) => fst (IG_add_edge g u v)) [(0, 1); (1, 2); (2, 3)] (IG_init 4) in
  let o := RObj g attrs_init in let o' := RObj g (attrs_reverse attrs_init) in
  let b o s := breadth_first_search (R_out_edges o) (R_target o) all_edges counting 100 (IG_vertices g) s [] ([], []) in
  let d o s := depth_first_search (R_out_edges o) (R_target o) all_edges counting 100 s [] ([], []) in
  orders o (b o 0) = ([0; 1; 2; 3], [(0, 1); (1, 2); (2, 3)]) /\ orders o (d o 0) = ([0; 1; 2; 3], [(0, 1); (1, 2); (2, 3)]) /\
  orders o' (b o' 3) = ([3; 2; 1; 0], [(3, 2); (2, 1); (1, 0)]) /\ orders o' (d o' 3) = ([3; 2; 1; 0], [(3, 2); (2, 1); (1, 0)]) /\
  snd (orders o (b o' 3)) = [(2, 3); (1, 2); (0, 1)].
Proof. vm_compute. repeat split. Qed.
(** tests/test_tree_traversal.py:32-76: the order of the discoveries *)
Definition binary_tree := dg 10 (map (fun u => (Nat.div u 2, S u)) (seq 0 9)).
Definition discovered (o : option (res (list nat * list gedge))) : list nat := match o with Some (Ok (d, _)) => d | _ => [] end.
Example test_bfs_tree : discovered (bfs_tree (G_out_edges binary_tree) target counting 100 0 ([], [])) = [0; 1; 2; 3; 4; 5; 6; 7; 8; 9].
Proof. vm_compute. reflexivity. Qed.
Example test_dfs_tree : let l := discovered (dfs_tree (G_out_edges binary_tree) target counting 100 0 ([], [])) in
  map (fun i => nth i l 99) [0; 4; 1; 7; 5; 3; 2; 9; 8; 6] = [0; 1; 2; 3; 4; 5; 6; 7; 8; 9].
Proof. vm_compute. reflexivity. Qed.

(** tests/test_topological_sort.py:7-14 *)
Example test_topological_sort : let g := dg 6 [(0, 1); (2, 4); (2, 5); (0, 3); (1, 4); (4, 3)] in
  topological_sort (G_out_edges g) target (G_vertices g) 100 [] = Some (Ok [2; 5; 0; 1; 4; 3]).
Proof. vm_compute. reflexivity. Qed.
(** tests/test_strong_components.py:86-125 *)
Example test_strong_components : let g := dg 7 E1 in
  match strong_components (G_out_edges g) target (G_vertices g) 200 (fun _ => None) with
  | Some (Ok (f, n)) => map f (seq 0 7) = [Some 2; Some 1; Some 1; Some 1; Some 0; Some 0; Some 0] /\ n = 3
  | _ => False
  end.
Proof. vm_compute. repeat split. Qed.
(** tests/test_cut.py:7-66 *)
Definition cuts (g : graph) (p : gedge -> bool) (s : list nat) : bool :=
  match cut (G_out_edges g) source target p 200 0 with Some (Ok l) => same l s | _ => false end.
Definition among (l : list (nat * nat)) (e : gedge) : bool := mem (source e, target e) l.
Example test_cut : let g := dg 3 [(0, 1); (1, 2)] in let d := dg 4 [(0, 1); (0, 2); (1, 3); (2, 3)] in
  let t := dg 9 [(0, 1); (0, 2); (2, 3); (2, 4); (3, 5); (3, 6); (4, 7); (4, 8); (1, 9)] in
  cuts g (among [(0, 1)]) [1] = true /\ cuts g (among [(1, 2)]) [2] = true /\ cuts g (fun _ => false) [2] = true /\ cuts g (fun _ => true) [1] = true /\
  cuts d (among [(0, 1); (0, 2)]) [1; 2] = true /\ cuts d (among [(1, 3); (2, 3)]) [3] = true /\
  cuts t (among [(0, 1); (0, 2)]) [1; 2] = true /\ cuts t (fun _ => false) [5; 6; 7; 8; 9] = true /\
  cuts t (among [(0, 1); (2, 3); (2, 4)]) [1; 3; 4] = true /\ cuts t (among [(2, 3); (2, 4)]) [3; 4; 9] = true.
Proof. vm_compute. repeat split. Qed.
(** tests/test_graph_extract.py:17-97, test_graph_copy.py:15-142 *)
Definition weighted := [(0, 1, 83); (0, 2, 3); (0, 4, 78); (1, 2, 92); (2, 3, 7); (2, 4, 18); (4, 0, 51); (4, 4, 84)].
Definition weight (e : gedge) : nat := match find (fun '(u, v, _) => (u =? source e) && (v =? target e)) weighted with Some (_, w) => w | None => 0 end.
Definition wg := dg 5 (map fst weighted).
Example test_graph_extract : map (fun threshold => match graph_extract (G_out_edges wg) target (fun _ => true) (fun e => threshold <=? weight e) 200 0 with
    | Some (Ok l) => flat_map (fun c => match c with OnEdge e => [(source e, target e)] | _ => [] end) l | _ => [(99, 99)] end) [50; 101] =
  [[(0, 1); (1, 2); (0, 4); (4, 0); (4, 4)]; []] /\
  match graph_extract (G_out_edges wg) target (fun _ => true) (fun e => 0 <=? weight e) 200 0 with
  | Some (Ok l) => same (flat_map (fun c => match c with OnEdge e => [(source e, target e)] | _ => [] end) l) (map fst weighted) = true | _ => False end.
Proof. vm_compute. repeat split. Qed.
Example test_graph_copy : let copy threshold := graph_copy (G_out_edges wg) source target (fun _ => true) (fun e => threshold <=? weight e) G_add_vertex G_add_edge 200 0 (G_init 0) in
  map (fun threshold => match copy threshold with Some (Ok st) => DG_num_edges (cp_dup st) | _ => 99 end) [0; 50; 100] = [8; 5; 0] /\
  match copy 50 with
  | Some (Ok st) => same (cp_vertices st) [(0, 0); (1, 1); (2, 2); (4, 3)] = true /\
      forallb (fun '(e, e_dup) => eqb (dget (cp_vertices st) (source e)) (Some (source e_dup)) && eqb (dget (cp_vertices st) (target e)) (Some (target e_dup))) (cp_edges st) = true
  | _ => False
  end.
Proof. vm_compute. repeat split. Qed.

(** tests/test_graph_view.py:25-119 *)
Definition line := dg 10 (map (fun u => (u, S u)) (seq 0 9)).
Definition vw pv pe : view (E := gedge) := view_init (DG_api line) pv pe.
Definition vsize (w : view (E := gedge)) := (view_num_vertices w, view_num_edges w).
Example test_graph_view : let v p := vw (Some p) None in
  map (fun e => (source e, target e)) (firstn 1 (view_edges (vw None None))) = [(0, 1)] /\ same (view_edges (vw None None)) (G_edges line) = true /\
  view_out_edges (vw None None) 0 = G_out_edges line 0 /\
  vsize (v (fun u => negb (Nat.modulo u 3 =? 0))) = (6, 3) /\ vsize (vw None (Some (fun e => Nat.odd (source e)))) = (10, 4) /\
  vsize (view_or (v (fun u => u <? 5)) (v (fun u => 5 <? u))) = (9, 7) /\
  (let w := view_and (v (fun u => 2 <? u)) (v (fun u => u <? 6)) in vsize w = (3, 2) /\ view_out_edges w 2 <> G_out_edges line 2 /\
   view_out_edges w 3 = G_out_edges line 3 /\ view_out_edges w 4 = G_out_edges line 4 /\ view_out_edges w 5 <> G_out_edges line 5) /\
  vsize (view_sub (v (fun u => 2 <? u)) (v (fun u => 6 <? u))) = (4, 3).
Proof. vm_compute. repeat split; discriminate. Qed.

(** tests/test_heap.py:8-143 *)
Definition hp (le : nat -> nat -> bool) (l : list nat) := heap_init (comparable le) (fun u => u) l.
Definition hpush (le : nat -> nat -> bool) h x := heap_push (comparable le) (fun u => u) h x.
Definition ge (a b : nat) := b <=? a.
Example test_comparable : let c le := (C_ne le 1 2, C_lt le 1 2, C_gt le 2 1, C_eq le 1 1, C_lt le 1 1, C_gt le 1 1, C_ne le 1 1, C_ge le 2 1) in
  c Nat.leb = (true, true, true, true, false, false, false, true) /\ c ge = (true, false, false, true, false, false, false, false) /\ C_lt ge 2 1 = true /\ C_ge ge 1 2 = true.
Proof. vm_compute. repeat split. Qed.
Example test_heap : let steps le := let h0 := hp le [2; 1; 1; 3] in let h1 := hpush le h0 4 in let h2 := hpush le h1 0 in
    let '(h3, x) := heap_pop (comparable le) h2 in let '(h4, y) := heap_pop (comparable le) h3 in
    (map (fun h => heap_iter (comparable le) h) [h0; h1; h2; h4], x, y, heap_len h0, heap_bool h0) in
  steps Nat.leb = ([[1; 1; 2; 3]; [1; 1; 2; 3; 4]; [0; 1; 1; 2; 3; 4]; [1; 2; 3; 4]], Ok 0, Ok 1, 4, true) /\
  steps ge = ([[3; 2; 1; 1]; [4; 3; 2; 1; 1]; [4; 3; 2; 1; 1; 0]; [2; 1; 1; 0]], Ok 4, Ok 3, 4, true) /\
  heap_bool (hp Nat.leb []) = false /\ heap_iter (comparable ge) (hp ge [1; 3; 4; 1; 2]) = [4; 3; 2; 1; 1] /\
  heap_iter (comparable ge) (hpush ge (hp ge [1; 3; 4; 1; 2]) 2) = [4; 3; 2; 2; 1; 1].
Proof. vm_compute. repeat split. Qed.

(** weighted links *)
Definition zl (l : list (nat * nat * nat)) : list (nat * nat * Z) := map (fun '(u, v, w) => (u, v, Z.of_nat w)) l.
(** tests/test_dijkstra_shortest_path.py:42-56; the weights are multiplied by 100, as one of them is 3.99 *)
Definition LINKS : list (nat * nat * Z) := zl [(0, 1, 100); (1, 2, 100); (1, 3, 300); (3, 0, 100); (0, 4, 100); (0, 5, 100); (2, 5, 600); (5, 6, 800); (6, 7, 100); (6, 8, 100); (8, 2, 100); (8, 3, 399); (9, 2, 100)].
Definition both (l : list (nat * nat * Z)) := flat_map (fun '(u, v, w) => [(u, v, w); (v, u, w)]) l.
(** the weight of an edge: the number of the parallel edge selects the link, tests/test_dijkstra_shortest_path.py:59-90 *)
Definition wz (l : list (nat * nat * Z)) (e : gedge) : res Z :=
  match nth_error (filter (fun '(u, v, _) => (u =? source e) && (v =? target e)) l) (distinguisher e) with Some (_, w) => Ok w | None => Raise KeyError end.
Definition INF : Z := Misc.INFINITY.
Definition dij (n : nat) (l : list (nat * nat * Z)) := let g := dg n (map fst l) in
  dijkstra_shortest_paths (G_vertices g) (G_out_edges g) target (wz l) None (closed_plus INF) 0%Z INF no_stop 200 0 [] [] [].
(** distances and predecessors *)
Definition dvalues {S} (n : nat) (o : option (dstate gedge Z * S)) : list (option Z) * list (nat * list (nat * nat)) :=
  match o with Some (st, _) => (map (dget (d_dist st)) (seq 0 n), map (fun '(v, es) => (v, map (fun e => (source e, target e)) es)) (d_preds st)) | None => ([], []) end.
(** tests/test_dijkstra_shortest_path.py:93-115 *)
Example test_isolated_vertices : dvalues 10 (dij 10 []) = (Some 0%Z :: repeat (Some INF) 9, []).
Proof. vm_compute. reflexivity. Qed.
(** tests/test_dijkstra_shortest_path.py:118-182 *)
Example test_parallel_edges : dvalues 2 (dij 2 (zl [(0, 1, 1)])) = ([Some 0; Some 1]%Z, [(1, [(0, 1)])]) /\
  dvalues 2 (dij 2 (zl [(0, 1, 1); (0, 1, 1)])) = ([Some 0; Some 1]%Z, [(1, [(0, 1); (0, 1)])]).
Proof. vm_compute. repeat split. Qed.
(** tests/test_dijkstra_shortest_path.py:218-263, 300-343: the dictionaries of the tests have the same keys as the results *)
Definition sorted_preds (l : list (nat * list (nat * nat))) : list (list (nat * nat)) := map (fun v => match dget l v with Some es => es | None => [] end) (seq 0 10).
Example test_directed : let '(d, p) := dvalues 10 (dij 10 LINKS) in
  d = [Some 0; Some 100; Some 200; Some 400; Some 100; Some 100; Some 900; Some 1000; Some 1000; Some INF]%Z /\
  sorted_preds p = [[]; [(0, 1)]; [(1, 2)]; [(1, 3)]; [(0, 4)]; [(0, 5)]; [(5, 6)]; [(6, 7)]; [(6, 8)]; []] /\ same (map fst p) (seq 1 8) = true.
Proof. vm_compute. repeat split. Qed.
Example test_directed_symmetric : let '(d, p) := dvalues 10 (dij 10 (both LINKS)) in
  d = [Some 0; Some 100; Some 200; Some 100; Some 100; Some 100; Some 400; Some 500; Some 300; Some 300]%Z /\
  sorted_preds p = [[]; [(0, 1)]; [(1, 2)]; [(0, 3)]; [(0, 4)]; [(0, 5)]; [(8, 6)]; [(6, 7)]; [(2, 8)]; [(2, 9)]] /\ same (map fst p) (seq 1 9) = true.
Proof. vm_compute. repeat split. Qed.
(** tests/test_dijkstra_shortest_path.py:266-297 *)
Example test_decrease_key : dvalues 3 (dij 3 (zl [(0, 1, 9); (0, 2, 1); (2, 1, 1)])) = ([Some 0; Some 2; Some 1]%Z, [(1, [(2, 1)]); (2, [(0, 2)])]).
Proof. vm_compute. reflexivity. Qed.
(** tests/test_dijkstra_shortest_path.py:346-378 *)
Example test_dijkstra_shortest_path : let g := dg 10 (map fst LINKS) in
  match dijkstra_shortest_path (G_vertices g) (G_out_edges g) source target (wz LINKS) None (closed_plus INF) 0%Z INF 200 idord 0 8 [] [] [] with
  | Some (Ok (Some path)) => map (fun e => (source e, target e)) path = [(0, 5); (5, 6); (6, 8)] | _ => False end.
Proof. vm_compute. reflexivity. Qed.
(** tests/test_dijkstra_shortest_path.py:381-415 *)
Definition BW : list (nat * nat * Z) := zl [(0, 1, 100); (1, 2, 80); (1, 2, 70); (1, 3, 30); (3, 0, 10)].
Example test_bandwidth : let g := dg 4 (map fst BW) in
  fst (dvalues 4 (dijkstra_shortest_paths (G_vertices g) (G_out_edges g) target (wz BW) (Some Z.geb) Z.min INF 0%Z no_stop 200 0 [] [] [])) = [Some INF; Some 100; Some 80; Some 30]%Z.
Proof. vm_compute. reflexivity. Qed.
(** tests/test_dijkstra_shortest_path.py:434-479 *)
Example test_make_shortest_path : match dij 10 LINKS with
  | Some (st, _) => match make_shortest_path source 50 idord 0 8 (d_preds st) with Some (Ok p) => map (fun e => (source e, target e)) p = [(0, 5); (5, 6); (6, 8)] | _ => False end
  | None => False end.
Proof. vm_compute. reflexivity. Qed.
Example test_make_shortest_paths_dag : match dij 5 (zl [(0, 1, 5); (1, 3, 15); (0, 2, 10); (2, 3, 10); (3, 4, 1); (0, 4, 100)]) with
  | Some (st, _) => match make_shortest_paths_dag source 50 idord 4 (d_preds st) false with
      | Some p => same (map (fun e => (source e, target e)) p) [(0, 1); (1, 3); (3, 4); (0, 2); (2, 3)] = true | _ => False end
  | None => False end.
Proof. vm_compute. reflexivity. Qed.

(** tests/test_trie.py:7-56 *)
Definition trie (ws : list string) : aut char := fst (T_inserts T_init (map lit ws)).
Example test_trie : let t1 := trie ["boxeur"; "bougie"; "ananas"] in let t2 := trie ["bonjour"; "bonsoir"] in
  A_num_vertices t1 = 17 /\ A_num_vertices t2 = 12 /\ match T_fusion t2 idord 200 t1 with Some (g, Ok _) => A_num_vertices g = 26 | _ => False end /\
  map (fun ws => A_finals (trie ws)) [["aaa"]; ["aaa"; "aa"]; ["aaa"; "aa"; ""]] = [[3]; [2; 3]; [0; 2; 3]].
Proof. vm_compute. repeat split. Qed.
(** tests/test_trie_matching.py:13-36 *)
Example test_matching_tries : match trie_matching (trie ["an"; "banana"; "ananas"; "x"; "y"; "z"]) (trie ["an"; "banana"; "bananas"; "bank"; "t"]) idord 200 with
  | Some (c, Ok _) => skipn 1 c = [4; 3; 2] | _ => False end.
Proof. vm_compute. reflexivity. Qed.
(** tests/test_suffix_trie.py:15-58 *)
Example test_suffix_trie : same (sof (factors (lit "") None)) (map lit [""]) = true /\ same (sof (factors (lit "ab") None)) (map lit [""; "a"; "b"; "ab"]) = true /\
  same (sof (factors (lit "ananas") None)) (map lit [""; "a"; "n"; "s"; "an"; "na"; "as"; "ana"; "nan"; "nas"; "anan"; "nana"; "anas"; "anana"; "nanas"; "ananas"]) = true /\
  map (fun m => let t := fst (make_suffix_trie (lit "ananas") m) in (A_num_vertices t, forallb (A_is_final t) (A_vertices t))) [None; Some 3] = [(16, true); (10, true)] /\
  A_num_vertices (fst (make_suffix_trie_into (T_init : aut char) (lit "ananas") None)) = 16.
Proof. vm_compute. repeat split. Qed.
(** tests/test_digital_sequence.py:7-42 *)
Example test_digital_sequence : let len {X} (r : res (list X)) := match r with Ok l => length l | Raise _ => 99 end in
  forallb (fun w => (DS_num_vertices w =? length w + 1) && (DS_num_edges w =? length w) &&
    forallb (fun q => (len (DS_in_edges w q) =? (if DS_is_initial w q then 0 else 1)) && (len (DS_out_edges w q) =? (if DS_is_final w q then 0 else 1))) (DS_vertices w)) (map lit [""; "a"; "hello"]) = true /\
  map (fun q => DS_sigma (lit "hello") (Some q)) (DS_vertices (lit "hello")) = map (fun x => Ok [x]) (lit "hello") ++ [Ok []].
Proof. vm_compute. repeat split. Qed.

(** tests/test_levenshtein_distance.py:10-57, test_lcs_distance.py:8-53, test_damerau_levenshtein_distance.py:10-50 *)
Definition WORDS := map lit ["book"; "books"; "cake"; "boo"; "boon"; "cook"; "cake"; "cape"; "cart"].
Definition all_pairs (f g : str -> str -> option nat) : bool := forallb (fun x => forallb (fun y => eqb (f x y) (g x y)) WORDS) WORDS.
Definition symmetric (f : str -> str -> option nat) : bool :=
  let w1 := lit "abcd" in let w2 := lit "ebgce" in
  eqb (f w1 []) (f [] w1) && eqb (f w2 []) (f [] w2) && eqb (f w1 w2) (f w2 w1) && eqb (f [] []) (Some 0) && eqb (f (lit "abc") (lit "abc")) (Some 0).
Definition from_books (f : str -> str -> option nat) : list (option nat) := map (fun w => f (lit "books") (lit w)) ["book"; "books"; "cake"; "boo"; "boon"; "cook"; "cake"; "cape"].
Example test_levenshtein : symmetric levenshtein_distance = true /\ all_pairs levenshtein_distance levenshtein_distance_naive = true /\
  from_books levenshtein_distance = map Some [1; 0; 4; 2; 2; 2; 4; 5].
Proof. vm_compute. repeat split. Qed.
Example test_lcs : symmetric lcs_distance = true /\ all_pairs lcs_distance lcs_distance_naive = true /\ from_books lcs_distance = map Some [1; 0; 7; 2; 3; 3; 7; 9].
Proof. vm_compute. repeat split. Qed.
Example test_damerau : symmetric damerau_levenshtein_distance = true /\ all_pairs damerau_levenshtein_distance damerau_levenshtein_distance_naive = true /\
  map (fun '(x, y) => damerau_levenshtein_distance (lit x) (lit y)) [("ab", "ba"); ("ba", "abc"); ("fee", "deed")] = [Some 1; Some 2; Some 2].
Proof. vm_compute. repeat split. Qed.
(** tests/test_bk_tree.py:7-61 *)
Definition lev (x y : str) : nat := match levenshtein_distance x y with Some d => d | None => 99 end.
Definition tree : bktree str := match make_bk_tree lev 50 WORDS with Some (t, _) => t | None => bk_init end.
Example test_bk_tree : let search w m := bk_search lev 50 tree (lit w) m None in
  same (sof WORDS) (map snd (bk_element tree)) = true /\
  forallb (fun e => match dget (bk_element tree) (source e), dget (bk_element tree) (target e) with Some x, Some y => distinguisher e =? lev x y | _, _ => false end) (A_edges (bk_aut tree)) = true /\
  forallb (fun w => match bk_search lev 50 tree w 1000 None with Some (Ok (Some (w', _))) => eqb w w' | _ => false end) WORDS = true /\
  search "boy" 1000 = Some (Ok (Some (lit "boo", 1))) /\ search "card" 1000 = Some (Ok (Some (lit "cart", 1))) /\ search "curry" 1000 = Some (Ok (Some (lit "cart", 3))) /\
  search "boy" 2 = Some (Ok (Some (lit "boo", 1))) /\ search "boy" 1 = Some (Ok (Some (lit "boo", 1))) /\ search "curry" 2 = Some (Ok None) /\
  forallb (fun w => match bk_insert lev 50 tree w None with Some (t, Ok _) => A_num_vertices (bk_aut t) =? A_num_vertices (bk_aut tree) | _ => false end) WORDS = true.
Proof. vm_compute. repeat split. Qed.
