(** The assertions of the project's own tests (/repo/tests), replayed on the model: automata and NFAs. These are tests of the
    model, not theorems about it: they check that the model gives the answers that the project expects from the code. Each
    example cites the test whose assertions it replays; the iteration order of sets is the identity order. *)
From Coq Require Import String ZArith.
From Verif Require Import Str Graph Automaton NodeAut IncMake Nfa Prune Hopcroft Revuz RevuzNode PBFS Base BaseProofs.
Open Scope string_scope. Open Scope nat_scope. Open Scope list_scope.

(** the order of the elements of a list of the tests, already sorted *)
Definition idord {X : Type} : set_order X := fun _ l => l.
(** [sorted], automaton.py:794, on the integer names of the tests: insertion sort *)
Fixpoint insort (x : nat) (l : list nat) : list nat := match l with [] => [x] | y :: l' => if x <=? y then x :: l else y :: insort x l' end.
(** [sorted], automaton.py:794 *)
Definition sort_names (l : list nat) : list nat := fold_right insort [] l.
(** equality of the sets of the tests *)
Definition same {X} `{EqDec X} (s t : list X) : bool := forallb (fun x => mem x t) s && forallb (fun x => mem x s) t && (length s =? length t).
(** the value of a result that is expected *)
Definition get {X} (r : res X) (d : X) : X := match r with Ok x => x | Raise _ => d end.

(** a transition of the tests *)
Definition tr (q r : nat) (s : string) : nat * nat * char := (q, r, ch s).
(** make_automaton with the final states of a list, tests/test_automaton.py:12-49 *)
Definition mk (ts : list (nat * nat * char)) (finals : list nat) : aut char :=
  get (make_automaton sort_names ts 0 (fun q => mem q finals)) (A_init 0).

(** tests/test_automaton.py:12-49, G1 to G5 *)
Definition G1 := mk [tr 0 0 "a"; tr 0 1 "b"; tr 1 2 "a"; tr 1 1 "b"; tr 2 1 "a"; tr 2 1 "b"] [1].
Definition G2 := mk [tr 0 0 "a"; tr 0 1 "b"] [1].
Definition G3 := mk [tr 0 0 "a"; tr 0 1 "b"] [].
Definition G4 := mk [tr 0 0 "a"; tr 0 1 "b"; tr 1 1 "b"; tr 1 0 "a"] [1].
Definition G5 := mk [tr 0 0 "a"; tr 0 1 "b"; tr 1 1 "b"; tr 1 0 "a"] [].

(** tests/test_automaton.py:52-113 *)
Example test_automaton_reads : A_initial G1 = Some 0 /\ A_finals G1 = [1] /\
  map A_is_complete [G1; G2; G3; G4; G5] = [true; false; false; true; true] /\
  map (A_accepts G1) (map lit [""; "aaab"; "aaaba"; "aaabaa"; "aaabaabb"]) = [false; true; false; true; true] /\
  same (A_sigma G1 (Some 0)) (lit "ab") = true /\ A_sigma G3 (Some 1) = [] /\ A_sigma G1 None = [] /\
  map (fun g => same (A_alphabet g) (lit "ab")) [G1; G2; G3] = [true; true; true].
Proof. vm_compute. repeat split. Qed.

(** tests/test_automaton.py:60-78: set_initial and set_final *)
Example test_automaton_set : let g := fst (A_add_vertex (A_init 0 : aut char)) in
  map (fun g => A_is_initial g 0) [g; A_set_initial g (Some 0) true; A_set_initial g (Some 0) false] = [true; true; false] /\
  map (fun g => A_is_final g 0) [g; A_set_final g 0 true; A_set_final (A_set_final g 0 true) 0 false] = [false; true; false].
Proof. vm_compute. repeat split. Qed.

(** tests/test_automaton.py:116-166: add_vertex and add_edge *)
Example test_automaton_add_vertex : let g := A_init 2 : aut char in let '(g', r) := A_add_vertex g in
  (A_num_vertices g, A_num_edges g, r, A_num_vertices g', A_num_edges g') = (2, 0, Ok 2, 3, 0).
Proof. vm_compute. reflexivity. Qed.
Example test_automaton_add_edge : let g0 := A_init 3 : aut char in
  let '(g1, r1) := A_add_edge g0 0 1 (ch "a") in let '(g2, r2) := A_add_edge g1 0 1 (ch "b") in let '(g3, r3) := A_add_edge g2 0 2 (ch "c") in
  let deltas g := map (A_delta g 0) (lit "abc") in
  (r1, r2, r3) = (Ok (Some (Edge 0 1 (ch "a")), true), Ok (Some (Edge 0 1 (ch "b")), true), Ok (Some (Edge 0 2 (ch "c")), true)) /\
  map A_num_edges [g0; g1; g2; g3] = [0; 1; 2; 3] /\
  map deltas [g0; g1; g2; g3] = [[None; None; None]; [Some 1; None; None]; [Some 1; Some 1; None]; [Some 1; Some 1; Some 2]].
Proof. vm_compute. repeat split. Qed.

(** tests/test_automaton.py:169-189: remove_edge *)
Fixpoint remove_all (g : aut char) (l : list (nat * nat * char)) : list (bool * nat) :=
  match l with
  | [] => []
  | (u, v, a) :: l' => match A_edge g u v a with
                       | (Some e, b) => let g' := fst (A_remove_edge g e) in (b && (source e =? u) && (target e =? v), A_num_edges g') :: remove_all g' l'
                       | (None, b) => [(b, 99)]
                       end
  end.
Example test_automaton_remove_edge : A_num_edges G1 = 6 /\
  remove_all G1 [tr 0 0 "a"; tr 0 1 "b"; tr 1 2 "a"; tr 1 1 "b"; tr 2 1 "a"; tr 2 1 "b"] =
  [(true, 5); (true, 4); (true, 3); (true, 2); (true, 1); (true, 0)].
Proof. vm_compute. repeat split. Qed.

(** tests/test_automaton.py:192-217: remove_vertex *)
Definition loops := [tr 0 0 "a"; tr 0 1 "b"; tr 1 2 "a"; tr 1 1 "b"; tr 2 1 "a"; tr 2 1 "b"; tr 0 0 "c"; tr 1 0 "c"; tr 2 2 "c"].
Example test_automaton_remove_vertex : let g0 := mk loops [1] in
  let g1 := fst (A_remove_vertex g0 0) in let g2 := fst (A_remove_vertex g1 2) in let g3 := fst (A_remove_vertex g2 1) in
  map (fun g => (A_num_vertices g, A_num_edges g)) [g0; g1; g2; g3] = [(3, 9); (2, 5); (1, 1); (0, 0)].
Proof. vm_compute. reflexivity. Qed.

(** make_incidence_automaton, tests/test_incidence_automaton.py:12-56 *)
Definition imk (ts : list (nat * nat * char)) (finals : list nat) : iaut char :=
  get (make_incidence_automaton sort_names ts 0 (fun q => mem q finals)) (IA_init 0).
(** tests/test_incidence_automaton.py:182-214 *)
Example test_incidence_automaton_remove_vertex : let g0 := imk loops [1] in
  let g1 := fst (IA_remove_vertex g0 0) in let g2 := fst (IA_remove_vertex g1 2) in let g3 := fst (IA_remove_vertex g2 1) in
  map (fun g => (length (IA_vertices g), length (IA_edges g))) [g0; g1; g2; g3] = [(3, 9); (2, 5); (1, 1); (0, 0)].
Proof. vm_compute. reflexivity. Qed.
(** tests/test_incidence_automaton.py:153-179: the degrees decrease by one *)
Fixpoint iremove_all (g : iaut char) (l : list (nat * nat * char)) : list (bool * nat) :=
  match l with
  | [] => []
  | (u, v, a) :: l' => match A_edge (ia_base g) u v a with
                       | (Some e, b) => let g' := fst (IA_remove_edge g e) in
                           (b && (S (length (IA_out_edges g' u)) =? length (IA_out_edges g u)) && (S (length (IA_in_edges g' v)) =? length (IA_in_edges g v)),
                            length (IA_edges g')) :: iremove_all g' l'
                       | (None, b) => [(b, 99)]
                       end
  end.
Definition six := [tr 0 0 "a"; tr 0 1 "b"; tr 1 2 "a"; tr 1 1 "b"; tr 2 1 "a"; tr 2 1 "b"].
Example test_incidence_automaton_remove_edge : iremove_all (imk six [1]) six = [(true, 5); (true, 4); (true, 3); (true, 2); (true, 1); (true, 0)].
Proof. vm_compute. reflexivity. Qed.
(** tests/test_incidence_automaton.py:221-300 *)
Example test_incidence_automaton : let e1 := Edge 0 1 (ch "a") in let e2 := Edge 0 1 (ch "b") in let e3 := Edge 0 2 (ch "c") in let e4 := Edge 0 2 (ch "d") in
  let e5 := Edge 2 1 (ch "a") in let e6 := Edge 2 1 (ch "b") in
  let add (g : iaut char) (e : edge char) := fst (IA_add_edge g (source e) (target e) (distinguisher e)) in
  let g2 := add (add (IA_init 2) e1) e2 in
  let g4 := add (add (fst (IA_add_vertex g2)) e3) e4 in
  let g6 := add (add g4 e5) e6 in
  let h := fst (IA_remove_edge g6 e1) in
  let k := fst (IA_remove_vertex h 0) in
  same (IA_in_edges g2 1) [e1; e2] = true /\ same (IA_out_edges g2 0) [e1; e2] = true /\
  same (IA_out_edges g4 0) [e1; e2; e3; e4] = true /\ same (IA_in_edges g4 2) [e3; e4] = true /\ length (IA_edges g4) = 4 /\
  same (IA_out_edges g6 2) [e5; e6] = true /\ same (IA_in_edges g6 1) [e1; e2; e5; e6] = true /\ length (IA_edges g6) = 6 /\
  same (IA_out_edges h 0) [e2; e3; e4] = true /\ same (IA_in_edges h 1) [e2; e5; e6] = true /\ length (IA_edges h) = 5 /\
  A_edge (ia_base h) 0 1 (ch "a") = (None, false) /\ A_edge (ia_base h) 0 1 (ch "b") = (Some e2, true) /\
  length (IA_vertices k) = 2 /\ length (IA_edges k) = 2 /\ same (IA_out_edges k 2) [e5; e6] = true /\ same (IA_in_edges k 1) [e5; e6] = true.
Proof. vm_compute. repeat split. Qed.

(** tests/test_prune_incidence_automaton.py:8-29 *)
Definition P1 := imk [tr 0 0 "a"; tr 0 1 "b"; tr 1 2 "a"; tr 1 1 "b"; tr 2 1 "a"; tr 2 1 "b"; tr 3 4 "a"; tr 5 1 "b"; tr 1 6 "a"] [1].
Example test_prune_incidence_automaton : length (IA_edges P1) = 8 /\
  match prune_incidence_automaton 50 idord P1 with
  | Some (g, Ok _) => same (IA_vertices g) [0; 1; 2] = true /\ same (sof (map (fun e => (source e, target e)) (IA_edges g))) [(0, 1); (1, 2); (0, 0); (2, 1); (1, 1)] = true
  | _ => False
  end.
Proof. vm_compute. repeat split. Qed.

(** tests/test_hopcroft_minimize.py:8-82 *)
Definition chain (last : nat) : list (nat * nat * char) := map (fun k => tr k (S k) "a") (seq 0 12) ++ [tr 12 last "a"].
Definition G6 := imk [tr 0 1 "a"; tr 0 2 "b"; tr 1 1 "a"; tr 1 3 "b"; tr 2 1 "a"; tr 2 2 "b"; tr 3 1 "a"; tr 3 4 "b"; tr 4 1 "a"; tr 4 2 "b"] [4].
Definition G7 := imk [tr 0 1 "a"; tr 0 2 "b"; tr 1 0 "a"; tr 1 3 "b"; tr 2 4 "a"; tr 2 5 "b"; tr 3 4 "a"; tr 3 5 "b"; tr 4 4 "a"; tr 4 5 "b"; tr 5 5 "a"; tr 5 5 "b"] [2; 3; 4].
Definition G8 := imk (chain 11) [0; 2; 4; 6; 8; 10; 12].
Definition G9 := imk (chain 12) [0; 2; 4; 6; 8; 10; 12].
Example test_hopcroft_minimize : map (fun g => match hopcroft_minimize 200 g idord (fun _ => idord) idord idord (fun b => b) with
    | Some (h, Ok _) => (length (IA_vertices h), length (IA_edges h)) | _ => (99, 99) end) [G6; G7; G8; G9] = [(4, 8); (3, 6); (2, 2); (13, 13)].
Proof. vm_compute. reflexivity. Qed.

(** tests/test_node_automaton.py:17-182 *)
Definition N1 : naut char := fst (NA_add_vertex (fst (NA_add_vertex (fst (NA_add_vertex NA_init None)) (Some (ch "a")))) (Some (ch "b"))).
Definition nadd (g : naut char) (u v : nat) : naut char := fst (NA_add_edge g u v).
Definition N2 : naut char := nadd (nadd (nadd N1 0 1) 0 2) 1 2.
Example test_node_automaton : let a := Some (ch "a") in let b := Some (ch "b") in
  same (NA_alphabet N1) [a; b] = true /\ same (NA_alphabet N2) [a; b] = true /\
  same (NA_sigma N2 (Some 0)) [a; b] = true /\ NA_sigma N2 (Some 1) = [b] /\ NA_sigma N2 (Some 2) = [] /\
  snd (NA_add_edge N1 0 1) = Ok (Some (Edge 0 1 a), true) /\ NA_label (nadd N1 0 1) (Edge 0 1 a) = a /\
  length (NA_vertices N2) = 3 /\ length (NA_edges N2) = 3 /\ map (na_symbol N1) [0; 1; 2] = [None; a; b] /\
  NA_edge (nadd N1 0 1) 0 1 = (Some (Edge 0 1 a), true) /\ NA_edge (nadd N1 0 1) 0 2 = (None, false) /\
  NA_out_edges (nadd (nadd N1 0 1) 0 2) 0 = Ok [Edge 0 1 a; Edge 0 2 b] /\
  map (fun q => (NA_delta N2 q a, NA_delta N2 q b)) [0; 1; 2] = [(Ok (Some 1), Ok (Some 2)); (Ok None, Ok (Some 2)); (Ok None, Ok None)] /\
  (let g := NA_remove_edge N2 (Edge 1 2 b) in length (NA_edges g) = 2 /\ NA_delta g 0 a = Ok (Some 1) /\ NA_delta g 0 b = Ok (Some 2) /\ NA_delta g 1 b = Ok None) /\
  (let g := fst (NA_remove_vertex N2 1) in length (NA_vertices g) = 2 /\ length (NA_edges g) = 1 /\ NA_delta g 0 a = Ok None /\ NA_delta g 0 b = Ok (Some 2)).
Proof. vm_compute. repeat split. Qed.

(** tests/test_node_automaton.py:191-257 *)
Definition assoc (l : list (nat * string)) (u : nat) : option char := option_map ch (dget l u).
Definition six_labels := [(1, "c"); (2, "b"); (3, "a"); (4, "b"); (5, "a")].
Example test_make_node_automaton : match make_node_automaton sort_names [(0, 1); (2, 1); (3, 1); (4, 1); (0, 5)] (Some (assoc six_labels)) 0 (fun _ => false) with
  | Ok g => map (na_symbol g) (NA_vertices g) = map (assoc six_labels) [0; 1; 2; 3; 4; 5] /\
      same (map (fun e => (source e, target e)) (NA_edges g)) [(0, 1); (2, 1); (3, 1); (4, 1); (0, 5)] = true
  | Raise _ => False
  end.
Proof. vm_compute. repeat split. Qed.
Example test_make_incidence_node_automaton_finals : match make_node_automaton sort_names [(0, 1); (0, 2); (1, 2)] (Some (assoc [(1, "a"); (2, "b")])) 0
    (fun k => match k with ByDescriptor u => mem u [0; 2] | ByName u => mem u [0; 2] end) with
  | Ok g => length (NA_vertices g) = 3 /\ length (NA_edges g) = 3 /\ map (NA_is_initial g) [0; 1; 2] = [true; false; false] /\
      map (na_final g) [0; 1; 2] = [true; false; true] /\ map (na_symbol g) [0; 1; 2] = [None; Some (ch "a"); Some (ch "b")]
  | Raise _ => False
  end.
Proof. vm_compute. repeat split. Qed.

(** tests/test_revuz_minimize.py:67-95: heights *)
Definition nmk (ts : list (nat * nat)) (labels : list (nat * string)) (finals : option (list nat)) : naut char :=
  get (make_incidence_node_automaton sort_names ts (Some (assoc labels)) 0
    (fun k => match finals, k with None, _ => false | Some l, ByDescriptor u => mem u l | Some l, ByName u => mem u l end)) NA_init.
(** the edges of a minimized automaton, tests/test_revuz_minimize.py:41-48 *)
Definition pairs {D} (l : list (edge D)) : list (nat * nat) := map (fun e => (source e, target e)) l.
(** tests/test_revuz_minimize.py:98-115 *)
Example test_revuz_minimize_elabel : match revuz_minimize 100 idord idord []
    (imk [tr 0 1 "a"; tr 0 2 "b"; tr 1 4 "a"; tr 2 3 "c"; tr 3 5 "b"; tr 4 6 "b"; tr 5 7 "b"; tr 6 8 "c"; tr 7 9 "d"] []) with
  | Some (g, Ok _) => same (pairs (IA_edges g)) [(0, 1); (1, 4); (4, 6); (6, 8); (0, 2); (2, 3); (3, 5); (5, 7); (7, 8)] = true
  | _ => False
  end.
Proof. vm_compute. reflexivity. Qed.
(** tests/test_revuz_minimize.py:118-140 *)
Example test_revuz_minimize_vlabel : match node_revuz_minimize 100 idord idord []
    (nmk [(0, 1); (0, 2); (2, 3); (1, 4); (3, 5); (4, 6); (5, 7); (6, 8); (7, 9)]
       [(1, "a"); (2, "b"); (3, "a"); (4, "a"); (5, "b"); (6, "c"); (7, "c"); (8, "d"); (9, "d")] None) with
  | Some (g, Ok _) => same (pairs (NA_edges g)) [(0, 1); (0, 2); (1, 4); (2, 3); (3, 5); (4, 6); (5, 6); (6, 8)] = true
  | _ => False
  end.
Proof. vm_compute. reflexivity. Qed.
(** tests/test_revuz_minimize.py:143-165 *)
Example test_revuz_minimize_final :
  match node_revuz_minimize 100 idord idord [] (nmk [(0, 1); (0, 2); (2, 3)] [(1, "a"); (2, "b"); (3, "a")] None) with
  | Some (g, Ok _) => same (pairs (NA_edges g)) [(0, 1); (0, 2); (2, 1)] = true | _ => False end /\
  match node_revuz_minimize 100 idord idord [] (nmk [(0, 1); (0, 2); (2, 3)] [(1, "a"); (2, "b"); (3, "a")] (Some [1])) with
  | Some (g, Ok _) => same (pairs (NA_edges g)) [(0, 1); (0, 2); (2, 3)] = true | _ => False end.
Proof. vm_compute. repeat split. Qed.

(** tests/test_deterministic_inclusion.py:16-52 *)
Definition cats := [tr 0 1 "c"; tr 1 2 "a"; tr 2 3 "t"; tr 3 4 "s"].
Definition dafsa1 := mk (cats ++ [tr 0 5 "b"; tr 5 2 "a"]) [4].
Definition dafsa2 := mk cats [4].
Definition fda1 := mk (cats ++ [tr 0 5 "b"; tr 5 5 "b"; tr 5 2 "a"]) [4].
Definition fda2 := mk [tr 0 1 "x"; tr 1 1 "y"] [1].
(** tests/test_deterministic_inclusion.py:55-102 *)
Example test_deterministic_inclusion : map (fun '(g1, g2) => deterministic_inclusion g1 g2 idord 100)
    [(dafsa1, dafsa2); (dafsa2, dafsa1); (dafsa1, dafsa1); (dafsa2, dafsa2);
     (dafsa1, fda1); (fda1, dafsa1); (fda1, fda1); (dafsa1, fda2); (fda2, dafsa1); (fda1, fda2); (fda2, fda1)] =
  [Some (Some (-1)%Z); Some (Some 1%Z); Some (Some 0%Z); Some (Some 0%Z);
   Some (Some 1%Z); Some (Some (-1)%Z); Some (Some 0%Z); Some None; Some None; Some None; Some None].
Proof. vm_compute. reflexivity. Qed.
(** tests/test_deterministic_intersection.py:12-52 and test_deterministic_union.py:12-53 *)
Definition dafsa3 := mk (cats ++ [tr 2 5 "l"; tr 5 3 "l"]) [4].
Example test_deterministic_products :
  match deterministic_intersection dafsa1 dafsa3 idord 100 with Some (g, Ok _) => (A_num_vertices g, A_num_edges g) = (5, 4) | _ => False end /\
  match deterministic_union dafsa1 dafsa3 idord 100 with Some (g, Ok _) => (A_num_vertices g, A_num_edges g) = (12, 11) | _ => False end.
Proof. vm_compute. repeat split. Qed.

(** tests/test_nfa.py:7-38 *)
Definition eps : char := 949%N.
Definition nadds (g : nfa char) (l : list (nat * nat * char)) : nfa char := fold_left (fun g '(q, r, a) => fst (N_add_edge g q r a)) l g.
Definition nfa1 : nfa char := N_set_final (N_set_final (nadds (N_init 4 [] eps)
  [tr 0 1 "a"; tr 0 2 "a"; tr 0 2 "b"; tr 0 2 "a"; tr 2 1 "a"; (0, 3, eps); tr 3 3 "c"]) 1 true) 3 true.
Definition nfa2 : nfa char := N_set_final (N_set_final (nadds (N_init 3 [] eps)
  [tr 0 1 "a"; tr 0 1 "a"; (0, 3, eps); (1, 1, eps); (1, 2, eps); (2, 2, eps); tr 0 3 "a"; (3, 3, eps)]) 1 true) 3 true.
Definition sames {X} `{EqDec X} (o : option (list X)) (s : list X) : bool := match o with Some l => same l s | None => false end.
(** tests/test_nfa.py:41-124 *)
Example test_nfa : N_vertices nfa1 = [0; 1; 2; 3] /\ N_num_edges nfa1 = 6 /\ same (N_alphabet nfa1) (lit "abc") = true /\
  sames (N_sigma nfa1 0) (lit "abc") = true /\ sames (N_sigma nfa1 1) [] = true /\ sames (N_sigma nfa1 2) (lit "a") = true /\ sames (N_sigma nfa1 3) (lit "c") = true /\
  map (N_accepts nfa1) (map lit ["a"; "aa"; "b"; "ba"; "c"; "cc"; ""]) = [Some true; Some true; Some false; Some true; Some true; Some true; Some true] /\
  N_finals nfa1 = [1; 3] /\ nf_init nfa1 = [0] /\
  forallb (fun '(q, a, s) => sames (N_delta nfa1 q (ch a)) s) [(0, "a", [1; 2]); (0, "b", [2]); (0, "c", [3]); (1, "a", []); (1, "b", []); (1, "c", []);
    (2, "a", [1]); (2, "b", []); (2, "c", []); (3, "a", []); (3, "b", []); (3, "c", [3])] = true /\
  map (fun '(w, s) => sames (N_delta_word nfa1 (lit w)) s) [("a", [1; 2]); ("aa", [1]); ("z", []); ("ccc", [3])] = [true; true; true; true].
Proof. vm_compute. repeat split. Qed.
(** tests/test_nfa.py:110-116: the assertion reads [(qs == set()) if q != 0 else {1, 3}], so it says nothing of state 0 *)
Example test_nfa_delta2 : forallb (fun q => sames (N_delta nfa2 q (ch "a")) (if q =? 0 then [1; 2; 3] else [])) (N_vertices nfa2) = true.
Proof. vm_compute. reflexivity. Qed.
(** tests/test_nfa.py:127-137 *)
Example test_nfa_set_initials : let g := N_set_initial nfa1 2 true in let h := N_set_initial g 0 false in
  map (N_accepts g) (map lit ["a"; "aa"; "ccc"]) = [Some true; Some true; Some true] /\ map (N_accepts h) (map lit ["a"; "aa"; "ccc"]) = [Some true; Some false; Some false].
Proof. vm_compute. repeat split. Qed.
