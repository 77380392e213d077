(** Model of the remaining methods of src/pybgl/node_automaton.py (NodeAutomaton; its records and add_vertex, add_edge,
    out_edges, edges, remove_edge are in Automaton.v), and of make_node_automaton. *)
From Verif Require Import Base Graph Automaton.

Section NA.
  Context {A : Type} {EA : EqDec A}.
  Local Notation tedge := (edge (option A)).

  (** NodeAutomaton.__init__, node_automaton.py:23-47, with num_vertices: Graph.__init__ calls add_vertex() *)
  Fixpoint NA_add_vertices (n : nat) (g : naut A) : naut A :=
    match n with O => g | S n' => NA_add_vertices n' (fst (NA_add_vertex g None)) end.
  (** NodeAutomaton(num_vertices), node_automaton.py:23-47 *)
  Definition NA_init_n (num_vertices : nat) : naut A := NA_add_vertices num_vertices NA_init.

  (** delta, node_automaton.py:55-68: [self.adjacencies[q]] raises KeyError on an unknown vertex. *)
  Definition NA_delta (g : naut A) (q : nat) (a : option A) : res (option nat) :=
    match dget (na_adj g) q with
    | None => Raise KeyError
    | Some d => Ok (dget d a)
    end.
  (** edge, node_automaton.py:96-118 *)
  Definition NA_edge (g : naut A) (q r : nat) : option tedge * bool :=
    match dget (na_adj g) q with
    | None => (None, false)
    | Some d =>
        match find (fun '(_, r') => r =? r') d with
        | Some (a, _) => (Some (Edge q r a), true)
        | None => (None, false)
        end
    end.
  (** sigma, node_automaton.py:167-181 *)
  Definition NA_sigma (g : naut A) (q : option nat) : list (option A) :=
    match q with
    | None => []
    | Some q => match dget (na_adj g) q with None => [] | Some d => sof (dkeys d) end
    end.
  (** Automaton.is_initial, automaton.py:239-251 *)
  Definition NA_is_initial (g : naut A) (q : nat) : bool := eqb (na_q0 g) (Some q).
  (** alphabet, node_automaton.py:183-195 *)
  Definition NA_alphabet (g : naut A) : list (option A) :=
    sof (map (na_symbol g) (filter (fun q => negb (NA_is_initial g q)) (NA_vertices g))).
  (** label, node_automaton.py:211-224 *)
  Definition NA_label (g : naut A) (e : tedge) : option A := na_symbol g (target e).

  (** Graph.remove_vertex, graph.py:177-197, with the methods of NodeAutomaton; out_edges raises KeyError on an unknown
      vertex. *)
  Definition NA_remove_vertex (g : naut A) (u : nat) : naut A * res unit :=
    let g1 := fold_left (fun g (e : tedge) => if u =? target e then NA_remove_edge g e else g) (NA_edges g) g in
    match NA_out_edges g1 u with
    | Raise ex => (g1, Raise ex)
    | Ok es =>
        let g2 := fold_left NA_remove_edge es g1 in
        if dmem (na_adj g2) u then (na_with_adj g2 (ddel (na_adj g2) u), Ok tt) else (g2, Raise KeyError)
    end.
  (** Graph.clear, graph.py:199-206: the symbols, the initial and the final states are left as they are. *)
  Definition NA_clear (g : naut A) : naut A * res unit :=
    let g0 := mkNAut 0 (na_adj g) (na_q0 g) (na_final g) (na_symbol g) (na_pred g) in
    foreach NA_remove_vertex g0 (NA_vertices g0).
  (** Automaton.set_initial, automaton.py:213-226, and set_final, automaton.py:267-277 *)
  Definition NA_set_initial (g : naut A) (q : option nat) (b : bool) : naut A :=
    let q0 := if b then q else if eqb (na_q0 g) q then None else na_q0 g in
    mkNAut (na_last g) (na_adj g) q0 (na_final g) (na_symbol g) (na_pred g).
  (** Automaton.set_final, automaton.py:267-277 *)
  Definition NA_set_final (g : naut A) (q : nat) (b : bool) : naut A :=
    mkNAut (na_last g) (na_adj g) (na_q0 g) (fun x => if eqb x q then b else na_final g x) (na_symbol g) (na_pred g).

  (** Automaton.delta_word, automaton.py:328-346, with NodeAutomaton.delta *)
  Fixpoint NA_delta_word (g : naut A) (q : option nat) (w : list A) : res (option nat) :=
    match w with
    | [] => Ok q
    | a :: w' =>
        match q with
        | None => Ok None
        | Some q' =>
            match NA_delta g q' (Some a) with
            | Raise ex => Raise ex
            | Ok r => NA_delta_word g r w'
            end
        end
    end.
  (** Automaton.accepts, automaton.py:348-363 *)
  Definition NA_accepts (g : naut A) (w : list A) : res bool :=
    match NA_delta_word g (na_q0 g) w with
    | Raise ex => Raise ex
    | Ok None => Ok false
    | Ok (Some q) => Ok (na_final g q)
    end.

  (** the calls of a history (node_automaton.py:49-53, 70-94, 151-165; automaton.py:213-226, 267-277; graph.py:177-206) *)
  Inductive nvop := VAddVertex (a : option A) | VAddEdge (q r : nat) | VRemoveEdge (e : tedge) | VRemoveVertex (u : nat)
    | VSetInitial (q : option nat) (b : bool) | VSetFinal (q : nat) (b : bool) | VClear.
  (** one call of these methods, node_automaton.py:49-165, automaton.py:213-277, graph.py:177-206 *)
  Definition NA_call (g : naut A) (op : nvop) : naut A * aout (option A) :=
    match op with
    | VAddVertex a => let '(g', r) := NA_add_vertex g a in (g', aout_vertex r)
    | VAddEdge q r => let '(g', x) := NA_add_edge g q r in (g', aout_edge x)
    | VRemoveEdge e => (NA_remove_edge g e, AOutUnit)
    | VRemoveVertex u => let '(g', r) := NA_remove_vertex g u in (g', aout_unit r)
    | VSetInitial q b => (NA_set_initial g q b, AOutUnit)
    | VSetFinal q b => (NA_set_final g q b, AOutUnit)
    | VClear => let '(g', r) := NA_clear g in (g', aout_unit r)
    end.
End NA.
Arguments nvop : clear implicits.

(** ** make_node_automaton, node_automaton.py:262-339 *)
Section MakeNode.
  Context {A N : Type} {EA : EqDec A} {EN : EqDec N}.
  (** The keys at which a property map may be read: a name of the transitions, or a vertex descriptor (node_automaton.py:325, 327). *)
  Inductive key := ByName (qn : N) | ByDescriptor (q : nat).

  (** node_automaton.py:313-318 *)
  Definition node_names (sorted : list N -> list N) (transitions : list (N * N)) : list N :=
    sorted (sunion (sof (map fst transitions)) (map snd transitions)).
  (** the loop node_automaton.py:324-328: [pmap_vlabel] is read at the name, [pmap_vfinal] at the descriptor. A missing
      [pmap_vlabel] (None, the default value) raises TypeError. *)
  Definition make_node_vertices (pmap_vlabel : option (N -> option A)) (pmap_vfinal : key -> bool) (g : naut A) (names : list N) : naut A * res unit :=
    foreach (fun g vertex_name =>
      match pmap_vlabel with
      | None => (g, Raise TypeError)
      | Some label =>
          match NA_add_vertex g (label vertex_name) with
          | (g, Ok u) => (if pmap_vfinal (ByDescriptor u) then NA_set_final g u true else g, Ok tt)
          | (g, Raise ex) => (g, Raise ex)
          end
      end) g names.
  (** the loop node_automaton.py:329-332 *)
  Definition make_node_edges (names : list N) (g : naut A) (transitions : list (N * N)) : naut A * res unit :=
    foreach (fun g '(qn, rn) =>
      match index_of names qn, index_of names rn with
      | Some q, Some r => match NA_add_edge g q r with (g', Ok _) => (g', Ok tt) | (g', Raise ex) => (g', Raise ex) end
      | _, _ => (g, Raise KeyError)
      end) g transitions.
  (** make_node_automaton, node_automaton.py:262-339 *)
  Definition make_node_automaton (sorted : list N -> list N) (transitions : list (N * N)) (pmap_vlabel : option (N -> option A)) (q0n : N)
      (pmap_vfinal : key -> bool) : res (naut A) :=
    let names := node_names sorted transitions in
    match make_node_vertices pmap_vlabel pmap_vfinal NA_init names with
    | (_, Raise ex) => Raise ex
    | (g, Ok _) =>
        match make_node_edges names g transitions with
        | (_, Raise ex) => Raise ex
        | (g, Ok _) =>
            match NA_vertices g with
            | [] => Ok g
            | _ => match index_of names q0n with
                   | None => Raise KeyError
                   | Some q0 => Ok (NA_set_initial g (Some q0) true)
                   end
            end
        end
    end.
End MakeNode.
Arguments key : clear implicits.
Arguments ByName {N}. Arguments ByDescriptor {N}.
