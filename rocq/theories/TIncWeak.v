(** Properties C13, C14: what always holds of [in_edges], including after calls outside of the discipline of
    C13_incidence_automaton_partial and C14_incidence_node_automaton_partial. *)
From Verif Require Import Graph GraphProofs Automaton AutomatonSpec AutomatonProofs AutomatonProofs2 AutomatonProofs3 IncWeakProofs IncWeakProofs2 Base BaseProofs.

(** An edge can be missing from [in_edges]: add_edge towards a vertex that does not exist stores the edge, then raises. *)
Theorem C13_missing_refuted : exists (ops : list (aop nat)) e,
  let g := fst (runs IA_call (IA_init 3) ops) in
  In e (IA_edges g) /\ In (target e) (IA_vertices g) /\ ~ In e (IA_in_edges g (target e)).
Proof. exists [AAddEdge 0 3 7; AAddVertex], (Edge 0 3 7). vm_compute. split; [auto|]. split; [auto|]. intros []. Qed.
Print Assumptions C13_missing_refuted.
(** clear() can raise, and leaves vertices that add_vertex returns again. *)
Theorem C13_clear_refuted : exists (ops : list (aop nat)),
  snd (runs IA_call (IA_init 3) (ops ++ [AClear; AAddVertex])) =
    snd (runs IA_call (IA_init 3) ops) ++ [AOutRaise KeyError; AOutVertex 0] /\
  In 0 (IA_vertices (fst (runs IA_call (IA_init 3) (ops ++ [AClear])))).
Proof. exists [AAddEdge 1 0 7; AAddEdge 1 2 7; ARemoveEdge (Edge 1 2 7)]. vm_compute. auto. Qed.
Print Assumptions C13_clear_refuted.
(** Away from these two cases, whatever transitions are overwritten and whatever edges remove_edge names: every edge is an
    in-edge of its target, which is a vertex; only stale in-edges can be in excess. *)
Theorem C13_no_missing_partial : forall (A : Type) (EA : EqDec A) n (ops : list (aop A)),
  safe_calls (IA_init n) ops ->
  let g := fst (runs IA_call (IA_init n) ops) in
  (forall e, In e (IA_edges g) -> In e (IA_in_edges g (target e)) /\ In (target e) (IA_vertices g) /\ In (source e) (IA_vertices g)) /\
  (forall r, NoDup (IA_in_edges g r)).
Proof.
  intros A EA n ops S g. destruct (winv_init (A := A) n) as [I0 L0]. destruct (winv_runs ops _ I0 L0 S) as [(W & K & WI & H) _]. fold g in W, K, WI, H. split.
  - intros [q r a] I. change (IA_edges g) with (tedges (au_adj (ia_base g))) in I. apply (In_tedges _ _ _ _ W) in I. cbn [source target].
    pose proof (H _ _ _ I) as J. split; [apply In_in_edges; auto|]. split; [unfold IA_vertices, A_vertices; rewrite <- K; eapply lab_key; exact J|].
    unfold tr in I. destruct (dget (au_adj (ia_base g)) q) as [d|] eqn:D; [|discriminate]. eapply dget_Some_key. exact D.
  - intros r. apply NoDup_in_edges. exact WI.
Qed.
Print Assumptions C13_no_missing_partial.
Example C13_no_missing_nontrivial :
  let ops := [AAddEdge 1 0 7; AAddEdge 1 2 7; AAddEdge 2 1 8; ARemoveEdge (Edge 2 0 8); AAddEdge 2 2 8; ARemoveVertex 1; AAddVertex; AAddEdge 2 3 7] in
  safe_calls (IA_init 3) ops /\
  let g := fst (runs IA_call (IA_init 3) ops) in
  IA_edges g = [Edge 2 3 7] /\ IA_in_edges g 3 = [Edge 2 3 7] /\ IA_in_edges g 2 = [Edge 2 2 8] /\ IA_in_edges g 0 = [Edge 1 0 7].
Proof. vm_compute. intuition auto. Qed.

Theorem C14_no_missing_partial : forall (A : Type) (EA : EqDec A) (ops : list (nop A)),
  nsafe_calls NA_init ops ->
  let g := fst (runs INA_call NA_init ops) in
  (forall e, In e (NA_edges g) -> In e (INA_in_edges g (target e)) /\ distinguisher e = na_symbol g (target e) /\ In (target e) (NA_vertices g)) /\
  (forall r, NoDup (INA_in_edges g r)).
Proof.
  intros A EA ops S g. destruct (wninv_runs ops _ wninv_init S) as (W & K & D & H & _). fold g in W, K, D, H. split.
  - intros [q r a] I. change (NA_edges g) with (tedges (na_adj g)) in I. apply (In_tedges _ _ _ _ W) in I. cbn [target distinguisher]. destruct (H _ _ _ I) as (H1 & H2 & H3).
    split; [|split; assumption]. unfold INA_in_edges. apply in_map_iff. exists q. rewrite H1. auto.
  - intros r. unfold INA_in_edges. apply NoDup_map_inj_in; [apply D|]. intros x y _ _ [= ->]. reflexivity.
Qed.
Print Assumptions C14_no_missing_partial.
Example C14_no_missing_nontrivial :
  let ops := [NAddVertex None; NAddVertex (Some 7); NAddVertex (Some 7); NAddEdge 0 1; NRemoveEdge (Edge 0 2 (Some 7)); NAddEdge 0 2; NAddEdge 1 2; NRemoveVertex 0; NAddVertex (Some 9); NAddEdge 3 1] in
  nsafe_calls NA_init ops /\
  let g := fst (runs INA_call NA_init ops) in
  NA_edges g = [Edge 1 2 (Some 7); Edge 3 1 (Some 7)] /\ INA_in_edges g 1 = [Edge 0 1 (Some 7); Edge 3 1 (Some 7)] /\ INA_in_edges g 2 = [Edge 1 2 (Some 7)].
Proof. vm_compute. intuition auto. Qed.
