(** Model of the whole function parallel_breadth_first_search (src/pybgl/parallel_breadth_first_search.py:208-288): all
    the methods of the visitor, source_pairs, the color map. The visitor does not modify the automata; the users of the
    library, one of which does, are modelled in PBFS.v, where only the methods they override appear. *)
From Verif Require Import Base Graph Automaton PBFS.

(** which of the two automata is passed to the visitor (parallel_breadth_first_search.py:256-288) *)
Inductive which := First | Second.
(** start_vertex, examine_vertex, discover_vertex, finish_vertex, parallel_breadth_first_search.py:20-79 *)
Inductive vertex_hook := HStart | HExamine | HDiscover | HFinish.
(** examine_edge, tree_edge, gray_target, black_target, parallel_breadth_first_search.py:104-205 *)
Inductive edge_hook := HEdge | HTree | HGray | HBlack.

Section ParBfs.
  Context {A : Type} `{EqDec A}.
  (** A call of a method of the visitor with its arguments: (q1, g1, q2, g2), (q1, g1, q2, g2, a) or (e1, g1, e2, g2, a). *)
  Inductive pevent :=
  | Vertex (h : vertex_hook) (q1 : option nat) (x1 : which) (q2 : option nat) (x2 : which)
  | Symbol (q1 : option nat) (x1 : which) (q2 : option nat) (x2 : which) (a : A)
  | Edges (h : edge_hook) (e1 : medge) (x1 : which) (e2 : medge) (x2 : which) (a : A).

  Section Run.
    Context {St : Type}.
    Variables g1 g2 : aut A.
    (** the order of iteration of the sets g1.sigma(q1) | g2.sigma(q2) *)
    Variable ord : set_order A.
    (** if_push, which receives the pair of edges; their label is passed apart, as it is not a part of [medge] *)
    Variable if_push : medge -> medge -> A -> bool.
    (** the methods of the visitor, whose state is [St] *)
    Variable vis : pevent -> St -> res St.

    (** successive calls of methods (parallel_breadth_first_search.py:267-288) *)
    Fixpoint pcalls (l : list pevent) (st : St) : res St :=
      match l with [] => Ok st | x :: l' => rbind (vis x st) (pcalls l') end.

    (** the loop on the symbols, parallel_breadth_first_search.py:270-286 *)
    Fixpoint par_symbols (q1 q2 : option nat) (syms : list A) (stack : list qpair) (col : dict qpair color) (st : St)
        : res (list qpair * dict qpair color * St) :=
      match syms with
      | [] => Ok (stack, col, st)
      | a :: syms' =>
          let r1 := odelta g1 q1 a in
          let r2 := odelta g2 q2 a in
          rbind (vis (Symbol q1 First q2 Second a) st) (fun st =>
          let e1 := get_edge g1 q1 a in
          let e2 := get_edge g2 q2 a in
          rbind (vis (Edges HEdge e1 First e2 Second a) st) (fun st =>
          match color_of col (r1, r2) with
          | WHITE =>
              rbind (vis (Edges HTree e1 First e2 Second a) st) (fun st =>
              let col := dset col (r1, r2) GRAY in
              rbind (vis (Vertex HDiscover r1 First r2 Second) st) (fun st =>
              par_symbols q1 q2 syms' (if if_push e1 e2 a then stack ++ [(r1, r2)] else stack) col st))
          | GRAY => rbind (vis (Edges HGray e1 First e2 Second a) st) (par_symbols q1 q2 syms' stack col)
          | BLACK => rbind (vis (Edges HBlack e1 First e2 Second a) st) (par_symbols q1 q2 syms' stack col)
          end))
      end.

    (** the main loop, 267-288: appendleft and pop make the deque a queue, whose head is the next pair; finish_vertex is
        called with g2 in the place of g1 (288). [n] numbers the iterated sets. *)
    Fixpoint par_loop (fuel n : nat) (stack : list qpair) (col : dict qpair color) (st : St) : option (res (dict qpair color * St)) :=
      match stack with
      | [] => Some (Ok (col, st))
      | (q1, q2) :: stack =>
          match fuel with
          | 0 => None
          | S fuel =>
              match rbind (vis (Vertex HExamine q1 First q2 Second) st)
                      (par_symbols q1 q2 (ord n (sunion (A_sigma g1 q1) (A_sigma g2 q2))) stack col) with
              | Raise x => Some (Raise x)
              | Ok (stack, col, st) =>
                  let col := dset col (q1, q2) BLACK in
                  match vis (Vertex HFinish q1 Second q2 Second) st with
                  | Raise x => Some (Raise x)
                  | Ok st => par_loop fuel (S n) stack col st
                  end
              end
          end
      end.

    (** the sources, 250-258 *)
    Fixpoint par_sources (pairs : list qpair) (stack : list qpair) (st : St) : res (list qpair * St) :=
      match pairs with
      | [] => Ok (stack, st)
      | (s1, s2) :: pairs' => rbind (vis (Vertex HStart s1 First s2 Second) st) (par_sources pairs' (stack ++ [(s1, s2)]))
      end.

    (** parallel_breadth_first_search, 208-288; [source_pairs = None] stands for the pair of initial states. [col]: the
        color map, in which a missing pair is WHITE (make_assoc_property_map of a defaultdict(int)). *)
    Definition parallel_breadth_first_search (fuel : nat) (source_pairs : option (list qpair)) (col : dict qpair color) (st : St)
        : option (res (dict qpair color * St)) :=
      let pairs := match source_pairs with None => [(A_initial g1, A_initial g2)] | Some l => l end in
      match par_sources pairs [] st with
      | Raise x => Some (Raise x)
      | Ok (stack, st) => par_loop fuel 0 stack col st
      end.
  End Run.
End ParBfs.
Arguments pevent : clear implicits.
