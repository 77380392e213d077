(** Model of src/pybgl/parallel_breadth_first_search.py and of its five users in the library:
    trie.py (fusion), trie_matching.py, deterministic_inclusion.py, deterministic_intersection.py,
    deterministic_union.py (with product_mixin.py). *)
From Coq Require Export ZArith.
From Verif Require Import Base Graph Automaton Trie.

(** WHITE, GRAY, BLACK: graph_traversal.py:13-15; a missing key reads WHITE (defaultdict(int)). *)
Inductive color := WHITE | GRAY | BLACK.
(** [color == WHITE], parallel_breadth_first_search.py:277. *)
Definition is_white (c : color) : bool := match c with WHITE => true | _ => false end.
(** [pmap_vcolor[k]], parallel_breadth_first_search.py:276. *)
Definition color_of {K} `{EqDec K} (m : dict K color) (k : K) : color :=
  match dget m k with Some c => c | None => WHITE end.

(** a pair of states, None being BOTTOM *)
Notation qpair := (option nat * option nat)%type.
(** the EdgeDescriptor (q, r, a) without its label, or None when q is BOTTOM
    (parallel_breadth_first_search.py:236-244, 273-274; [r] is always [g.delta(q, a)]). *)
Notation medge := (option (nat * option nat))%type.

Section PBFS.
  Context {A : Type} `{EqDec A}.

  (** delta and sigma on a state that may be BOTTOM (automaton.py:57-71, 169-183). *)
  Definition odelta (g : aut A) (q : option nat) (a : A) : option nat :=
    match q with None => None | Some q => A_delta g q a end.
  (** get_edge, parallel_breadth_first_search.py:236-244. *)
  Definition get_edge (g : aut A) (q : option nat) (a : A) : medge :=
    match q with None => None | Some q => Some (q, A_delta g q a) end.

  Section Run.
    Context {St : Type}.
    (** The visitor state [St] contains the first automaton, which the fusion visitor mutates. The
        other hooks of ParallelBreadthFirstSearchVisitor (examine_vertex, examine_symbol, tree_edge,
        gray_target, black_target, finish_vertex) do nothing in every visitor of the library and are
        not modelled here; they are in ParBfs.v. *)
    Variable get1 : St -> aut A.
    Variable g2 : aut A.
    Variable ord : set_order A.
    Variable examine_edge : St -> medge -> medge -> A -> St * res unit.
    Variable discover_vertex : St -> option nat -> option nat -> St * res unit.
    Variable if_push : medge -> medge -> bool.

    (** the loop on symbols, parallel_breadth_first_search.py:270-286. *)
    Fixpoint symbols (q1 q2 : option nat) (syms : list A) (s : St) (stack : list qpair)
        (col : dict qpair color) : St * list qpair * dict qpair color * res unit :=
      match syms with
      | [] => (s, stack, col, Ok tt)
      | a :: syms' =>
          let r1 := odelta (get1 s) q1 a in
          let r2 := odelta g2 q2 a in
          let e1 := get_edge (get1 s) q1 a in
          let e2 := get_edge g2 q2 a in
          match examine_edge s e1 e2 a with
          | (s1, Raise e) => (s1, stack, col, Raise e)
          | (s1, Ok _) =>
              if is_white (color_of col (r1, r2)) then
                match discover_vertex s1 r1 r2 with
                | (s2, Raise e) => (s2, stack, dset col (r1, r2) GRAY, Raise e)
                | (s2, Ok _) =>
                    symbols q1 q2 syms' s2
                      (if if_push e1 e2 then stack ++ [(r1, r2)] else stack)
                      (dset col (r1, r2) GRAY)
                end
              else symbols q1 q2 syms' s1 stack col
          end
      end.

    (** the main loop, parallel_breadth_first_search.py:267-288; the deque is used as a FIFO queue,
        its head is the next popped pair. [n] numbers the iterated sets. *)
    Fixpoint pbfs_loop (fuel n : nat) (s : St) (stack : list qpair) (col : dict qpair color)
        : option (St * res unit) :=
      match fuel with
      | 0 => None
      | S fuel' =>
          match stack with
          | [] => Some (s, Ok tt)
          | (q1, q2) :: stack' =>
              match symbols q1 q2 (ord n (sunion (A_sigma (get1 s) q1) (A_sigma g2 q2))) s stack' col with
              | (s', _, _, Raise e) => Some (s', Raise e)
              | (s', stack1, col1, Ok _) => pbfs_loop fuel' (S n) s' stack1 (dset col1 (q1, q2) BLACK)
              end
          end
      end.
  End Run.

  (** parallel_breadth_first_search with [source_pairs = None] (250-254) and an empty colour map. *)
  Definition pbfs {St} (get1 : St -> aut A) (g2 : aut A) (ord : set_order A)
      (start : St -> option nat -> option nat -> St * res unit)
      (examine_edge : St -> medge -> medge -> A -> St * res unit)
      (discover : St -> option nat -> option nat -> St * res unit)
      (if_push : medge -> medge -> bool) (fuel : nat) (s : St) : option (St * res unit) :=
    let q01 := A_initial (get1 s) in
    let q02 := A_initial g2 in
    match start s q01 q02 with
    | (s', Raise e) => Some (s', Raise e)
    | (s', Ok _) => pbfs_loop get1 g2 ord examine_edge discover if_push fuel 0 s' [(q01, q02)] []
    end.

  (** default hooks and default [if_push] (264-265). *)
  Definition no_vertex {St} (s : St) (q1 q2 : option nat) : St * res unit := (s, Ok tt).
  (** The default examine_edge, parallel_breadth_first_search.py:104-126. *)
  Definition no_edge {St} (s : St) (e1 e2 : medge) (a : A) : St * res unit := (s, Ok tt).
  (** The default if_push, parallel_breadth_first_search.py:264-265. *)
  Definition always_push (e1 e2 : medge) : bool := true.

  (** ** Trie fusion, trie.py:53-113: the state is (g1, map_q2_q1). *)
  Definition fusion_start (g2 : aut A) (s : aut A * dict (option nat) (option nat)) (q01 q02 : option nat) :=
    let '(g1, m) := s in
    let g1' := match q01 with
               | Some q => if A_is_final_opt g2 q02 then A_set_final g1 q true else g1
               | None => g1
               end in
    ((g1', dset m q02 q01), Ok tt).

  (** TrieDeterministicFusion.examine_edge, trie.py:70-95. *)
  Definition fusion_edge (g2 : aut A) (s : aut A * dict (option nat) (option nat)) (e1 e2 : medge) (a : A)
      : (aut A * dict (option nat) (option nat)) * res unit :=
    let '(g1, m) := s in
    let r2 := match e2 with Some (_, r2) => r2 | None => None end in
    let finish (g1 : aut A) m (r1 : nat) :=
      ((if A_is_final_opt g2 r2 then A_set_final g1 r1 true else g1, m), Ok tt) in
    let create (q1 : nat) :=
      match A_add_vertex g1 with
      | (g1', Raise e) => ((g1', m), Raise e)
      | (g1', Ok r1) =>
          let m' := dset m r2 (Some r1) in
          match A_add_edge g1' q1 r1 a with
          | (g1'', Raise e) => ((g1'', m'), Raise e)
          | (g1'', Ok _) => finish g1'' m' r1
          end
      end in
    match e1 with
    | None =>
        match e2 with
        | None => (s, Raise AttributeError) (* g2.source(None) *)
        | Some (q2, _) =>
            match dget m (Some q2) with
            | None => (s, Raise KeyError)
            | Some None => (s, Raise AssertionError)
            | Some (Some q1) => create q1
            end
        end
    | Some (q1, None) => create q1
    | Some (_, Some r1) => finish g1 m r1
    end.

  (** trie_deterministic_fusion, trie.py:98-113, called by Trie.insert on a Trie (trie.py:43-44). *)
  Definition fusion_push (e1 e2 : medge) : bool := match e2 with None => false | Some _ => true end.
  (** trie_deterministic_fusion, trie.py:98-113. *)
  Definition T_fusion (g2 : aut A) (ord : set_order A) (fuel : nat) (g1 : aut A) : option (aut A * res unit) :=
    match pbfs fst g2 ord (fusion_start g2) (fusion_edge g2) no_vertex fusion_push fuel (g1, []) with
    | None => None
    | Some ((g1', _), r) => Some (g1', r)
    end.

  (** ** trie_matching, trie_matching.py:13-63: the state is the list of four counters. *)
  Definition bump (i : nat) (c : list nat) : list nat := firstn i c ++ S (nth i c 0) :: skipn (S i) c.
  (** TrieMatchingVisitor.update, start_vertex and discover_vertex, trie_matching.py:29-42. *)
  Definition matching_update (g1 g2 : aut A) (c : list nat) (q1 q2 : option nat) : list nat * res unit :=
    (bump ((if A_is_final_opt g1 q1 then 1 else 0) + 2 * (if A_is_final_opt g2 q2 then 1 else 0)) c, Ok tt).
  (** trie_matching, trie_matching.py:45-63. *)
  Definition trie_matching (g1 g2 : aut A) (ord : set_order A) (fuel : nat) : option (list nat * res unit) :=
    pbfs (fun _ => g1) g2 ord (matching_update g1 g2) no_edge (matching_update g1 g2) always_push fuel [0; 0; 0; 0].

  (** ** deterministic_inclusion, deterministic_inclusion.py:14-110: the state is [ret]. The exception
      ContradictionException (a RuntimeError) is turned into None. *)
  Definition inclusion_update (g1 g2 : aut A) (ret : Z) (q1 q2 : option nat) : Z * res unit :=
    let f1 := A_is_final_opt g1 q1 in
    let f2 := A_is_final_opt g2 q2 in
    if xorb f1 f2 then
      let r := if f2 then 1%Z else (-1)%Z in
      if Z.eqb ret 0 then (r, Ok tt)
      else if Z.eqb ret r then (ret, Ok tt)
      else (ret, Raise RuntimeError)
    else (ret, Ok tt).
  (** deterministic_inclusion, deterministic_inclusion.py:83-110. *)
  Definition deterministic_inclusion (g1 g2 : aut A) (ord : set_order A) (fuel : nat) : option (option Z) :=
    match pbfs (fun _ => g1) g2 ord (inclusion_update g1 g2) no_edge (inclusion_update g1 g2) always_push fuel 0%Z with
    | None => None
    | Some (ret, Ok _) => Some (Some ret)
    | Some (_, Raise _) => Some None
    end.

  (** ** ProductMixin, product_mixin.py:10-143: the state is (g12, map_product_vertices). *)
  Notation pstate := (aut A * dict qpair nat)%type.
  (** Automaton.is_initial, automaton.py:239-251, on a state or BOTTOM (product_mixin.py:55). *)
  Definition A_is_initial_opt (g : aut A) (q : option nat) : bool := eqb (A_initial g) q.

  (** add_product_vertex, product_mixin.py:32-60. *)
  Definition add_product_vertex (op : bool -> bool -> bool) (g1 g2 : aut A) (s : pstate) (q1 q2 : option nat)
      : pstate * res nat :=
    let '(g12, m) := s in
    match A_add_vertex g12 with
    | (g, Raise e) => ((g, m), Raise e)
    | (g, Ok q12) =>
        let g := if op (A_is_initial_opt g1 q1) (A_is_initial_opt g2 q2) then A_set_initial g (Some q12) true else g in
        let g := if op (A_is_final_opt g1 q1) (A_is_final_opt g2 q2) then A_set_final g q12 true else g in
        ((g, dset m (q1, q2) q12), Ok q12)
    end.

  (** get_or_create_product_vertex, product_mixin.py:117-143. *)
  Definition get_or_create (op : bool -> bool -> bool) (g1 g2 : aut A) (s : pstate) (q1 q2 : option nat)
      : pstate * res nat :=
    match q1, q2 with
    | None, None => (s, Raise RuntimeError)
    | _, _ => match dget (snd s) (q1, q2) with
              | Some q12 => (s, Ok q12)
              | None => add_product_vertex op g1 g2 s q1 q2
              end
    end.

  (** add_product_edge, product_mixin.py:62-99. *)
  Definition medge_source (e : medge) : option nat := match e with Some (q, _) => Some q | None => None end.
  (** g.target(e), or BOTTOM if e is None, product_mixin.py:83-95. *)
  Definition medge_target (e : medge) : option nat := match e with Some (_, r) => r | None => None end.
  (** add_product_edge, product_mixin.py:62-99. *)
  Definition add_product_edge (op : bool -> bool -> bool) (g1 g2 : aut A) (s : pstate) (e1 e2 : medge) (a : A)
      : pstate * res unit :=
    match get_or_create op g1 g2 s (medge_source e1) (medge_source e2) with
    | (s1, Raise e) => (s1, Raise e)
    | (s1, Ok q12) =>
        match get_or_create op g1 g2 s1 (medge_target e1) (medge_target e2) with
        | (s2, Raise e) => (s2, Raise e)
        | (s2, Ok r12) =>
            match A_add_edge (fst s2) q12 r12 a with
            | (g, Raise e) => ((g, snd s2), Raise e)
            | (g, Ok _) => ((g, snd s2), Ok tt)
            end
        end
    end.

  (** deterministic_intersection.py:33-55, 58-89; [g1.target(e1)] raises on None. *)
  Definition inter_edge (g1 g2 : aut A) (s : pstate) (e1 e2 : medge) (a : A) : pstate * res unit :=
    match e1 with
    | None => (s, Raise AttributeError)
    | Some (_, None) => (s, Ok tt)
    | Some (_, Some _) =>
        match e2 with
        | None => (s, Raise AttributeError)
        | Some (_, None) => (s, Ok tt)
        | Some (_, Some _) => add_product_edge andb g1 g2 s e1 e2 a
        end
    end.
  (** the truth value of [e is not None and g.target(e)]: state 0 is falsy. *)
  Definition truthy_target (e : medge) : bool :=
    match e with Some (_, Some (S _)) => true | _ => false end.
  (** The argument if_push, deterministic_intersection.py:82-87. *)
  Definition inter_push (e1 e2 : medge) : bool := truthy_target e1 && truthy_target e2.
  (** deterministic_intersection, deterministic_intersection.py:58-89. *)
  Definition deterministic_intersection (g1 g2 : aut A) (ord : set_order A) (fuel : nat) : option (aut A * res unit) :=
    match pbfs (fun _ => g1) g2 ord no_vertex (inter_edge g1 g2) no_vertex inter_push fuel (A_init 0, []) with
    | None => None
    | Some ((g12, _), r) => Some (g12, r)
    end.

  (** deterministic_union.py:33-79. *)
  Definition deterministic_union (g1 g2 : aut A) (ord : set_order A) (fuel : nat) : option (aut A * res unit) :=
    match pbfs (fun _ => g1) g2 ord no_vertex (add_product_edge orb g1 g2) no_vertex always_push fuel (A_init 0, []) with
    | None => None
    | Some ((g12, _), r) => Some (g12, r)
    end.
End PBFS.
