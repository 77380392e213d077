(** Model of src/pybgl/automaton_copy.py when g_dup is g itself: the automaton grows while depth_first_search explores it. *)
From Verif Require Import Base Graph Automaton Search SearchUsers AutCopy SelfCopy.

Section AutSelfCopy.
  Context {A : Type} {EA : EqDec A}.
  Variables (vrelevant : nat -> bool) (erelevant : edge A -> bool).
  (** [callback_dup_vertex], automaton_copy.py:65 and graph_copy.py:91-92: absent, or the callback
      [if g.is_final(u): g_dup.set_final(u_dup)]. [g] is read when the callback is called: it is the automaton [h] that
      receives the copy. *)
  Definition live_finals (with_finals : bool) : option (nat -> nat -> aut A -> aut A) :=
    if with_finals then Some (fun u u_dup h => if A_is_final h u then A_set_final h u_dup true else h) else None.
  (** automaton_copy(s, g, g, pmap_vrelevant, pmap_erelevant, pmap_vertices, pmap_edges), automaton_copy.py:57-120, with
      empty maps [pmap_vertices], [pmap_edges] given by the caller: the transitions explored are those of the automaton that
      receives the copy *)
  Definition automaton_copy_self (with_finals : bool) (fuel : nat) (s : nat) (g : aut A) : option (res (acopying A)) :=
    result (fun x => x) (live_depth_first_search (fun st u => A_out_edges (ac_dup st) u) target (fun e => erelevant e && vrelevant (target e))
      (A_copy_visitor vrelevant erelevant (live_finals with_finals)) fuel s [] (ACopying g [] [] [])).
End AutSelfCopy.
