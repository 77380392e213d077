(** Property C14 on the histories that also call clear, set_initial and set_final. *)
From Verif Require Import Graph GraphProofs Automaton AutomatonSpec AutomatonProofs AutomatonProofs2 AutomatonProofs3 NodeAut IncNodeHist IncNodeHistSpec IncNodeHistProofs Base BaseProofs.

(** Under the same discipline as C14_incidence_node_automaton_partial, which is not asked of clear, set_initial and
    set_final: the results of the calls, the states, the transitions, the in-edges, the symbols, the initial state and the
    final states. Missing for the full C14: the calls outside of the discipline (C14_remove_edge_refuted,
    C14_dangling_refuted). *)
Theorem C14_history_partial : forall (A : Type) (EA : EqDec A) (ops : list (nvop A)),
  vdisciplined vs_init ops ->
  let '(g, outs) := runs INA_vcall NA_init ops in
  let '(s, outs') := runs vs_step vs_init ops in
  outs = outs' /\ NA_vertices g = ns_V (vs_graph s) /\ Permutation (NA_edges g) (ns_T (vs_graph s)) /\
  (forall r, Permutation (INA_in_edges g r) (filter (fun e => target e =? r) (NA_edges g))) /\
  (forall q, na_symbol g q = ns_sym (vs_graph s) q) /\ na_q0 g = vs_q0 s /\ (forall q, na_final g q = vs_final s q).
Proof.
  intros A EA ops D. destruct (vrep_runs ops _ _ vrep_init D) as [R O].
  destruct (runs INA_vcall NA_init ops) as [g outs], (runs vs_step vs_init ops) as [s outs']. cbn [fst snd] in *. destruct R as (R & Q & F).
  split; [exact O|]. split; [apply R|]. split; [apply trep_perm; apply R|]. split; [|split; [|split; assumption]].
  - intros r. eapply NA_in_edges_perm. exact R.
  - intros q. apply R.
Qed.
Print Assumptions C14_history_partial.
Example C14_history_nontrivial :
  let ops := [VAddVertex None; VAddVertex (Some 7); VAddVertex (Some 8); VAddEdge 0 1; VAddEdge 1 1; VAddEdge 1 2; VAddEdge 2 1; VSetFinal 2 true; VSetInitial (Some 1) true;
              VRemoveVertex 1; VClear; VAddVertex None; VAddVertex None; VAddVertex (Some 9); VAddEdge 0 1; VAddEdge 2 1; VAddEdge 1 2; VSetInitial (Some 1) false] in
  vdisciplined vs_init ops /\
  let g := fst (runs INA_vcall NA_init ops) in
  INA_in_edges g 1 = [Edge 0 1 (Some 7); Edge 2 1 (Some 7)] /\ NA_edges g = [Edge 0 1 (Some 7); Edge 1 2 (Some 9); Edge 2 1 (Some 7)] /\
  na_q0 g = None /\ na_final g 2 = true.
Proof. vm_compute. intuition auto. Qed.
