(** Model of insert_automaton called with a dictionary, and of the constructions called with the same automaton twice,
    src/pybgl/thompson_compile_nfa.py:64-176. *)
From Verif Require Import Base Graph Automaton Nfa Thompson.

Section InsertMap.
  Context {A : Type} `{EqDec A}.
  (** (nfa, q0, f), the result of the constructions, thompson_compile_nfa.py:99-176 *)
  Notation frag := (nfa A * nat * nat)%type.

  (** insert_automaton, thompson_compile_nfa.py:64-97, called with a map21: an empty one is replaced by a new
      dictionary (lines 80-81), any other one is filled in place and returned. The result is the automaton, the
      returned dictionary and the argument of the caller afterwards. *)
  Definition insert_automaton_map (g1 g2 : nfa A) (arg : option (dict nat nat)) : res (nfa A * dict nat nat * option (dict nat nat)) :=
    let map21 := match arg with Some d => d | None => [] end in
    let '(g1, map21) := insert_vertices g2 (N_vertices g2) g1 map21 in
    rbind (insert_edges (N_edges g2) g1 map21) (fun g1 =>
      Ok (g1, map21, match arg with Some (_ :: _) => Some map21 | _ => arg end)).

  (** The first loop of insert_automaton when g1 and g2 are the same object, thompson_compile_nfa.py:82-88: vertices()
      is the live view of the dictionary which add_vertex grows (graph.py:155-165, 208-216), and Python compares the size of
      the dictionary with [n], its size when the loop starts, each time it asks for a key. *)
  Fixpoint insert_vertices_same (n : nat) (qs : list nat) (g : nfa A) (map21 : dict nat nat) : nfa A * res (dict nat nat) :=
    if length (N_vertices g) =? n then
      match qs with
      | [] => (g, Ok map21)
      | q2 :: qs' =>
          if dmem map21 q2 then insert_vertices_same n qs' g map21
          else
            let '(g', q1) := add_vertex g in
            let g' := if N_is_final g' q2 then N_set_final g' q1 true else g' in
            insert_vertices_same n qs' g' (dset map21 q2 q1)
      end
    else (g, Raise RuntimeError).
  (** insert_automaton(g, g), thompson_compile_nfa.py:64-97; the second loop is only reached when g has no state. *)
  Definition insert_automaton_same (g : nfa A) : nfa A * res (dict nat nat) :=
    match insert_vertices_same (length (N_vertices g)) (N_vertices g) g [] with
    | (g, Raise x) => (g, Raise x)
    | (g, Ok map21) =>
        match insert_edges (N_edges g) g map21 with
        | Raise x => (g, Raise x)
        | Ok g => (g, Ok map21)
        end
    end.
  (** concatenation(nfa, q01, f1, nfa, q02, f2) with the same object twice, thompson_compile_nfa.py:99-133. *)
  Definition concatenation_same (g : nfa A) (q01 f1 q02 f2 : nat) : nfa A * res frag :=
    match insert_automaton_same g with
    | (g, Raise x) => (g, Raise x)
    | (g, Ok map21) =>
        match lookup map21 q02 with
        | Raise x => (g, Raise x)
        | Ok r =>
            let g := add_edge g f1 r (nf_eps g) in
            let g := N_set_initials g [q01] in
            let g := N_set_final g f1 false in
            (g, rbind (lookup map21 f2) (fun f => Ok (g, q01, f)))
        end
    end.
  (** alternation(nfa, q01, f1, nfa, q02, f2) with the same object twice, thompson_compile_nfa.py:136-176. *)
  Definition alternation_same (g : nfa A) (q01 f1 q02 f2 : nat) : nfa A * res frag :=
    let eps1 := nf_eps g in
    match insert_automaton_same g with
    | (g, Raise x) => (g, Raise x)
    | (g, Ok map21) =>
        let '(g, q0) := add_vertex g in
        let g := add_edge g q0 q01 eps1 in
        match lookup map21 q02 with
        | Raise x => (g, Raise x)
        | Ok r =>
            let g := add_edge g q0 r eps1 in
            let g := N_set_initials g [q0] in
            let '(g, f) := add_vertex g in
            let g := add_edge g f1 f eps1 in
            match lookup map21 f2 with
            | Raise x => (g, Raise x)
            | Ok f21 =>
                let g := add_edge g f21 f eps1 in
                let g := N_set_final g f1 false in
                let g := N_set_final g f21 false in
                let g := N_set_final g f true in
                (g, Ok (g, q0, f))
            end
        end
    end.
End InsertMap.
