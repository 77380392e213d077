(** Model of Automaton.automaton_insert_string (src/pybgl/automaton.py) on any Automaton and on any IncidenceAutomaton. *)
From Verif Require Import Base Graph Automaton Trie.

Section Insert.
  Context {A : Type} `{EqDec A}.

  (** delta_best_effort, automaton.py:402-423; [None]: the initial state is BOTTOM, then no symbol is read
      (adjacencies has no key BOTTOM). *)
  Definition A_delta_best_effort (g : aut A) (w : list A) : option nat * nat :=
    match A_initial g with
    | None => (None, 0)
    | Some q0 => let '(q, i) := best_effort g q0 0 w in (Some q, i)
    end.

  (** automaton_insert_string, automaton.py:425-441 and 836-848. From BOTTOM: the empty word sets the final flag of
      BOTTOM, which no function reads here; another word adds a vertex, then [adjacencies[None]] raises KeyError in add_edge.
      The method has no return statement: it returns None. *)
  Definition A_insert_string (g : aut A) (w : list A) : aut A * res unit :=
    match A_delta_best_effort g w with
    | (None, _) => match w with [] => (g, Ok tt) | _ => (fst (A_add_vertex g), Raise KeyError) end
    | (Some q, i) =>
        match insert_loop g q (skipn i w) with
        | (g1, Raise e) => (g1, Raise e)
        | (g1, Ok q1) => (A_set_final g1 q1 true, Ok tt)
        end
    end.

  (** The same method of an IncidenceAutomaton: add_vertex and add_edge are those of incidence_automaton.py:29-45;
      delta, initial and set_final are inherited. *)
  Fixpoint IA_insert_loop (g : iaut A) (q : nat) (w : list A) : iaut A * res nat :=
    match w with
    | [] => (g, Ok q)
    | a :: w' =>
        match IA_add_vertex g with
        | (g1, Raise e) => (g1, Raise e)
        | (g1, Ok r) =>
            match IA_add_edge g1 q r a with
            | (g2, Raise e) => (g2, Raise e)
            | (g2, Ok _) => IA_insert_loop g2 r w'
            end
        end
    end.
  (** automaton_insert_string on an IncidenceAutomaton, automaton.py:425-441 and 836-848 *)
  Definition IA_insert_string (g : iaut A) (w : list A) : iaut A * res unit :=
    match A_delta_best_effort (ia_base g) w with
    | (None, _) => match w with [] => (g, Ok tt) | _ => (fst (IA_add_vertex g), Raise KeyError) end
    | (Some q, i) =>
        match IA_insert_loop g q (skipn i w) with
        | (g1, Raise e) => (g1, Raise e)
        | (g1, Ok q1) => (mkIAut (A_set_final (ia_base g1) q1 true) (ia_in g1), Ok tt)
        end
    end.
  (** successive calls (of automaton.py:836-848; no counterpart in /repo) *)
  Definition IA_insert_strings (g : iaut A) (ws : list (list A)) : iaut A * res unit := foreach IA_insert_string g ws.
End Insert.
