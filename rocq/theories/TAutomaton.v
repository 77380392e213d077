(** Properties C10-C15: Automaton, IncidenceAutomaton, IncidenceNodeAutomaton, make_automaton. *)
From Verif Require Import Base BaseProofs Graph GraphProofs Automaton AutomatonSpec AutomatonProofs AutomatonProofs2 AutomatonProofs3.

(** C10 as stated is false: an existing transition to state 0 is replaced. *)
Theorem C10_add_edge_no_overwrite_refuted : exists n (ops : list (aop nat)) q r a,
  let g := fst (runs A_call (A_init n) ops) in
  exists r0, A_delta g q a = Some r0 /\ r <> r0 /\
    snd (A_add_edge g q r a) = Ok (Some (Edge q r a), true) /\
    A_delta (fst (A_add_edge g q r a)) q a = Some r.
Proof. exists 3, [AAddEdge 1 0 7], 1, 2, 7. vm_compute. exists 0. repeat split. discriminate. Qed.
Print Assumptions C10_add_edge_no_overwrite_refuted.

(** What add_edge does on every reachable automaton: it refuses when the transition leads to a state
    other than 0, and otherwise leaves exactly one transition (q, a), the new one. *)
Theorem C10_add_edge_partial : forall (A : Type) (EA : EqDec A) n (ops : list (aop A)) q r a,
  let g := fst (runs A_call (A_init n) ops) in
  let '(g', out) := A_add_edge g q r a in
  A_vertices g' = A_vertices g /\ A_initial g' = A_initial g /\ (forall x, A_is_final g' x = A_is_final g x) /\
  ((exists r0, A_delta g q a = Some r0 /\ r0 <> 0 /\ g' = g /\ out = Ok (None, false)) \/
   ((A_delta g q a = None \/ A_delta g q a = Some 0) /\ In q (A_vertices g) /\
    out = Ok (Some (Edge q r a), true) /\
    Permutation (A_edges g')
      (Edge q r a :: filter (fun e => negb ((source e =? q) && eqb (distinguisher e) a)) (A_edges g))) \/
   (~ In q (A_vertices g) /\ A_delta g q a = None /\ g' = g /\ out = Raise KeyError)).
Proof.
  intros A EA n ops q r a g. destruct (arep_runs n ops) as [R _].
  change (fst (runs A_call (A_init n) ops)) with g in R. set (s := fst (runs aa_step (aa_init n) ops)) in *.
  clearbody g s. destruct (A_step _ _ (AAddEdge q r a) R) as [R' O].
  assert (HV : In q (A_vertices g) \/ ~ In q (A_vertices g)) by (destruct (in_dec' q (A_vertices g)); tauto).
  pose proof (obs_delta _ _ R q a) as D. pose proof (obs_edges _ _ R) as PE.
  destruct s as [k V T q0 f]. cbn [A_call aa_step] in R', O. unfold A_add_edge in *. cbn [aa_T] in D, PE.
  rewrite D in *. destruct (dget (au_adj g) q) as [d|] eqn:G.
  - assert (Iq : In q (A_vertices g)) by (eapply dget_Some_key; exact G).
    assert (M : mem q V = true).
    { apply mem_spec. replace V with (A_vertices g) by apply R. exact Iq. }
    destruct (lookup T q a) as [[|x]|] eqn:L; cbn [negb] in *; rewrite ?M in *; cbn [fst snd] in *.
    + split; [|split; [|split; [|right; left]]]; try reflexivity.
      * unfold A_vertices; cbn [au_adj]. rewrite dkeys_dset_old by exact Iq. reflexivity.
      * split; [auto|]. split; [exact Iq|]. split; [reflexivity|].
        rewrite (obs_edges _ _ R'). cbn. rewrite <- Permutation_cons_append. constructor.
        apply filter_perm. symmetry. exact PE.
    + split; [|split; [|split; [|left]]]; try reflexivity. exists (S x). auto.
    + split; [|split; [|split; [|right; left]]]; try reflexivity.
      * unfold A_vertices; cbn [au_adj]. rewrite dkeys_dset_old by exact Iq. reflexivity.
      * split; [auto|]. split; [exact Iq|]. split; [reflexivity|].
        rewrite (obs_edges _ _ R'). cbn. rewrite <- Permutation_cons_append. constructor.
        apply filter_perm. symmetry. exact PE.
  - assert (Nq : ~ In q (A_vertices g)) by (apply dget_None; exact G).
    assert (L : lookup T q a = None) by (rewrite <- D; unfold A_delta; rewrite G; reflexivity).
    rewrite L in *. cbn. split; [|split; [|split; [|right; right]]]; auto.
Qed.
Print Assumptions C10_add_edge_partial.
Example C10_nontrivial :
  let g := fst (runs A_call (A_init 3) [AAddEdge 0 1 7; AAddEdge 0 1 8]) in
  snd (A_add_edge g 0 2 7) = Ok (None, false) /\ snd (A_add_edge g 1 0 7) = Ok (Some (Edge 1 0 7), true).
Proof. vm_compute. auto. Qed.

(** C11: every program on an Automaton behaves as the finite map of [aa_step] (whose [AAddEdge]
    records the replacement of C10), including failing calls and dangling targets. *)
Theorem C11_automaton_refinement : forall (A : Type) (EA : EqDec A) n (ops : list (aop A)),
  let '(g, outs) := runs A_call (A_init n) ops in
  let '(s, outs') := runs aa_step (aa_init n) ops in
  outs = outs' /\
  A_vertices g = aa_V s /\
  Permutation (A_edges g) (aa_T s) /\
  (forall q, Permutation (A_out_edges g q) (filter (fun e => source e =? q) (aa_T s))) /\
  (forall q a, A_delta g q a = lookup (aa_T s) q a) /\
  (forall q r a, A_edge g q r a = if mem (Edge q r a) (aa_T s) then (Some (Edge q r a), true) else (None, false)) /\
  (forall q, NoDup (A_sigma g q)) /\
  (forall q a, In a (A_sigma g (Some q)) <-> exists r, In (Edge q r a) (aa_T s)) /\
  NoDup (A_alphabet g) /\
  (forall a, In a (A_alphabet g) <-> exists q r, In (Edge q r a) (aa_T s)) /\
  A_initial g = aa_q0 s /\
  (forall q, A_is_final g q = aa_final s q) /\
  A_finals g = filter (aa_final s) (aa_V s) /\
  (A_is_complete g = true <->
   forall q a, In q (aa_V s) -> (exists p r, In (Edge p r a) (aa_T s)) -> exists r, In (Edge q r a) (aa_T s)) /\
  (forall e e', In e (aa_T s) -> In e' (aa_T s) -> source e = source e' -> distinguisher e = distinguisher e' -> e = e').
Proof.
  intros A EA n ops. destruct (arep_runs n ops) as [R O].
  destruct (runs A_call (A_init n) ops) as [g outs], (runs aa_step (aa_init n) ops) as [s outs']. cbn [fst snd] in *.
  split; [exact O|]. split; [apply R|]. split; [apply obs_edges; exact R|].
  split; [intros; apply obs_out; exact R|]. split; [intros; apply obs_delta; exact R|].
  split; [intros; apply obs_edge; exact R|]. split; [intros; apply obs_sigma_nodup|].
  split; [intros; apply obs_sigma; exact R|]. split; [apply obs_alphabet_nodup|].
  split; [intros; apply obs_alphabet; exact R|]. split; [apply R|]. split; [apply R|].
  split; [apply obs_finals; exact R|]. split; [apply obs_complete; exact R|].
  apply (keys_same_key _ (au_adj g)). apply R.
Qed.
Print Assumptions C11_automaton_refinement.
(** The counts, of the vertices and of the transitions. *)
Theorem C11_counts : forall (A : Type) (EA : EqDec A) n (ops : list (aop A)),
  let g := fst (runs A_call (A_init n) ops) in let s := fst (runs aa_step (aa_init n) ops) in
  A_num_vertices g = length (aa_V s) /\ A_num_edges g = length (aa_T s) /\ NoDup (aa_V s) /\ NoDup (aa_T s).
Proof.
  intros A EA n ops g s. destruct (arep_runs n ops) as [R _]. fold g s in R. pose proof (obs_edges _ _ R) as PE. pose proof (obs_vertices _ _ R) as EV.
  unfold A_num_vertices, A_num_edges. rewrite EV, (Permutation_length PE). split; [reflexivity|]. split; [reflexivity|]. split.
  - rewrite <- EV. apply R.
  - apply R.
Qed.
Print Assumptions C11_counts.
Example C11_nontrivial :
  let ops := [AAddEdge 0 1 7; AAddEdge 0 2 7; AAddEdge 1 0 8; AAddEdge 1 2 8; AAddEdge 9 0 1; AAddEdge 0 5 9;
              ASetFinal 2 true; ASetInitial (Some 1) true; AAddVertex; ARemoveEdge (Edge 0 4 7); ARemoveVertex 0] in
  snd (runs A_call (A_init 3) ops) =
  [AOutEdge (Some (Edge 0 1 7)) true; AOutEdge None false; AOutEdge (Some (Edge 1 0 8)) true;
   AOutEdge (Some (Edge 1 2 8)) true; AOutRaise KeyError; AOutEdge (Some (Edge 0 5 9)) true;
   AOutUnit; AOutUnit; AOutVertex 3; AOutUnit; AOutUnit].
Proof. vm_compute. reflexivity. Qed.

(** C12: acceptance is the existence of a path spelled [w] from the initial state to a final state;
    [delta_word] is the end of that path, which is unique. *)
Theorem C12_accepts_is_path : forall (A : Type) (EA : EqDec A) n (ops : list (aop A)) w,
  let g := fst (runs A_call (A_init n) ops) in
  (A_accepts g w = true <->
   exists q0 r, A_initial g = Some q0 /\ path (A_edges g) q0 w r /\ A_is_final g r = true) /\
  (forall q r, A_delta_word g (Some q) w = Some r <-> path (A_edges g) q w r) /\
  (forall q r r', path (A_edges g) q w r -> path (A_edges g) q w r' -> r = r').
Proof.
  intros A EA n ops w g. destruct (arep_runs n ops) as [R _]. fold g in R.
  split; [eapply accepts_path; exact R|]. split; [intros; eapply delta_word_path; exact R|].
  intros q r r' P P'. apply (delta_word_path _ _ R) in P, P'. congruence.
Qed.
Print Assumptions C12_accepts_is_path.
Example C12_nontrivial :
  let g := fst (runs A_call (A_init 3) [AAddEdge 0 1 7; AAddEdge 1 2 8; AAddEdge 2 1 7; ASetFinal 2 true]) in
  map (A_accepts g) [[7; 8]; [7; 8; 7; 8]; [7]; []; [8]] = [true; true; false; false; false].
Proof. vm_compute. reflexivity. Qed.

(** C13 as stated is false: replacing a transition to state 0 leaves a stale in-edge ... *)
Theorem C13_incidence_automaton_refuted : exists (ops : list (aop nat)) e,
  let g := fst (runs IA_call (IA_init 3) ops) in
  In e (IA_in_edges g (target e)) /\ ~ In e (IA_edges g).
Proof.
  exists [AAddEdge 1 0 7; AAddEdge 1 2 7], (Edge 1 0 7). vm_compute. split; [auto|]. intros [X|[]]. discriminate X.
Qed.
Print Assumptions C13_incidence_automaton_refuted.
(** ... and so does [remove_edge] with the wrong target. *)
Theorem C13_remove_edge_refuted : exists (ops : list (aop nat)) e,
  let g := fst (runs IA_call (IA_init 3) ops) in
  In e (IA_in_edges g (target e)) /\ ~ In e (IA_edges g).
Proof. exists [AAddEdge 0 1 7; ARemoveEdge (Edge 0 2 7)], (Edge 0 1 7). vm_compute. split; [auto|]. intros []. Qed.
Print Assumptions C13_remove_edge_refuted.

(** Away from these two cases ([disciplined]), [in_edges] is the transpose of [edges] after any
    history, and results and edges are those of the abstract machine. *)
Theorem C13_incidence_automaton_partial : forall (A : Type) (EA : EqDec A) n (ops : list (aop A)),
  disciplined (aa_init n) ops ->
  let '(g, outs) := runs IA_call (IA_init n) ops in
  let '(s, outs') := runs ia_step (aa_init n) ops in
  outs = outs' /\ IA_vertices g = aa_V s /\ Permutation (IA_edges g) (aa_T s) /\
  forall r, Permutation (IA_in_edges g r) (filter (fun e => target e =? r) (IA_edges g)).
Proof.
  intros A EA n ops D. destruct (iarep_runs ops _ _ (iarep_init n) D) as [R O].
  destruct (runs IA_call (IA_init n) ops) as [g outs], (runs ia_step (aa_init n) ops) as [s outs']. cbn [fst snd] in *.
  split; [exact O|]. pose proof R as (R1 & _). split; [apply R1|]. split; [apply (obs_edges _ _ R1)|].
  intros r. eapply iarep_in_edges. exact R.
Qed.
Print Assumptions C13_incidence_automaton_partial.
Example C13_nontrivial :
  let ops := [AAddEdge 0 1 7; AAddEdge 0 1 8; AAddEdge 1 1 7; AAddEdge 2 1 7; AAddEdge 1 2 9; ARemoveEdge (Edge 0 1 7);
              ARemoveEdge (Edge 2 0 3); AAddVertex; AAddEdge 3 1 7; ARemoveVertex 2] in
  disciplined (aa_init 3) ops /\
  IA_in_edges (fst (runs IA_call (IA_init 3) ops)) 1 = [Edge 0 1 8; Edge 1 1 7; Edge 3 1 7].
Proof. vm_compute. intuition (congruence || auto 10). Qed.

(** C14 as stated is false in the same ways: removing an edge to another vertex with the same symbol
    deletes the existing transition but not its predecessor entry; an edge to a vertex that does not
    exist yet records a stale symbol. *)
Theorem C14_remove_edge_refuted : exists (ops : list (nop nat)) e,
  let g := fst (runs INA_call NA_init ops) in
  In e (INA_in_edges g (target e)) /\ ~ In e (NA_edges g).
Proof.
  exists [NAddVertex None; NAddVertex (Some 7); NAddVertex (Some 7); NAddEdge 0 1; NRemoveEdge (Edge 0 2 (Some 7))],
    (Edge 0 1 (Some 7)). vm_compute. split; [auto|]. intros [].
Qed.
Print Assumptions C14_remove_edge_refuted.
Theorem C14_dangling_refuted : exists (ops : list (nop nat)) e,
  let g := fst (runs INA_call NA_init ops) in
  In e (INA_in_edges g (target e)) /\ ~ In e (NA_edges g).
Proof.
  exists [NAddVertex None; NAddEdge 0 1; NAddVertex (Some 7)], (Edge 0 1 (Some 7)).
  vm_compute. split; [auto|]. intros [X|[]]. discriminate X.
Qed.
Print Assumptions C14_dangling_refuted.
Theorem C14_incidence_node_automaton_partial : forall (A : Type) (EA : EqDec A) (ops : list (nop A)),
  ndisciplined ns_init ops ->
  let '(g, outs) := runs INA_call NA_init ops in
  let '(s, outs') := runs ns_step ns_init ops in
  outs = outs' /\ NA_vertices g = ns_V s /\ Permutation (NA_edges g) (ns_T s) /\
  forall r, Permutation (INA_in_edges g r) (filter (fun e => target e =? r) (NA_edges g)).
Proof.
  intros A EA ops D. destruct (nrep_runs ops _ _ nrep_init D) as [R O].
  destruct (runs INA_call NA_init ops) as [g outs], (runs ns_step ns_init ops) as [s outs']. cbn [fst snd] in *.
  split; [exact O|]. split; [apply R|]. split; [apply trep_perm; apply R|].
  intros r. eapply NA_in_edges_perm. exact R.
Qed.
Print Assumptions C14_incidence_node_automaton_partial.
Example C14_nontrivial :
  let ops := [NAddVertex None; NAddVertex (Some 7); NAddVertex (Some 8); NAddEdge 0 1; NAddEdge 1 1; NAddEdge 2 1;
              NAddEdge 1 2; NRemoveEdge (Edge 1 1 None); NAddVertex (Some 9); NAddEdge 3 1; NRemoveVertex 2] in
  ndisciplined ns_init ops /\
  INA_in_edges (fst (runs INA_call NA_init ops)) 1 = [Edge 0 1 (Some 7); Edge 3 1 (Some 7)].
Proof.
  vm_compute. intuition auto. left. exists (Edge 1 1 (Some 7)). vm_compute. auto.
Qed.

(** C15: one state per name, exactly the listed transitions, the named initial state and final states. *)
Theorem C15_make_automaton : forall (A N : Type) (EA : EqDec A) (EN : EqDec N) sorted (tr : list (N * N * A)) q0n fin,
  (forall l, Permutation (sorted l) l) ->
  (forall q r r' a, In (q, r, a) tr -> In (q, r', a) tr -> r = r') ->
  let names := vertex_names sorted tr in
  NoDup names /\ (forall x, In x names <-> exists y a, In (x, y, a) tr \/ In (y, x, a) tr) /\
  (tr = [] \/ In q0n names ->
   exists g, make_automaton sorted tr q0n fin = Ok g /\
    A_vertices g = seq 0 (length names) /\ NoDup (A_edges g) /\
    (forall q r a, In (Edge q r a) (A_edges g) <->
       exists qn rn, In (qn, rn, a) tr /\ nth_error names q = Some qn /\ nth_error names r = Some rn) /\
    (tr <> [] -> exists q0, A_initial g = Some q0 /\ nth_error names q0 = Some q0n) /\
    (forall q, A_is_final g q = match nth_error names q with Some qn => fin qn | None => false end)) /\
  (tr <> [] -> ~ In q0n names -> make_automaton sorted tr q0n fin = Raise KeyError).
Proof.
  intros A N EA EN sorted tr q0n fin HP HD names.
  destruct (make_automaton_spec sorted tr q0n fin HP HD) as (H1 & H2 & H3 & H4).
  split; [exact H1|]. split; [exact H2|]. split; [|exact H4]. intros Hq.
  destruct (H3 Hq) as (g & E & V & ND & I & Q & F & _). exists g. auto 10.
Qed.
Print Assumptions C15_make_automaton.

(** Its language, in terms of the names only. *)
Theorem C15_make_automaton_language : forall (A N : Type) (EA : EqDec A) (EN : EqDec N) sorted (tr : list (N * N * A)) q0n fin g w,
  (forall l, Permutation (sorted l) l) ->
  (forall q r r' a, In (q, r, a) tr -> In (q, r', a) tr -> r = r') ->
  tr <> [] -> make_automaton sorted tr q0n fin = Ok g ->
  (A_accepts g w = true <-> exists rn, npath tr q0n w rn /\ fin rn = true).
Proof.
  intros A N EA EN sorted tr q0n fin g w HP HD Ht E.
  destruct (make_automaton_spec sorted tr q0n fin HP HD) as (H1 & H2 & H3 & H4).
  destruct (in_dec' q0n (vertex_names sorted tr)) as [Iq|Nq]; [|rewrite H4 in E; [discriminate|assumption|assumption]].
  destruct (H3 (or_intror Iq)) as (g' & E' & V & ND & HI & HQ & F & s & R).
  assert (g' = g) by congruence. subst g'. destruct (HQ Ht) as (q0 & Q0 & Nq0).
  rewrite (accepts_path _ _ R). set (names := vertex_names sorted tr) in *.
  assert (P1 : forall q w r, path (A_edges g) q w r -> forall qn, nth_error names q = Some qn ->
     exists rn, nth_error names r = Some rn /\ npath tr qn w rn).
  { intros q w' r P. induction P as [q|q a r w' t I P IH]; intros qn Eq.
    - exists qn. split; [exact Eq|constructor].
    - apply HI in I. destruct I as (qn' & rn' & I & X & Y). destruct (IH _ Y) as (tn & Z & P').
      exists tn. split; [exact Z|]. econstructor; [|exact P']. congruence. }
  assert (P2 : forall qn w rn, npath tr qn w rn -> forall q, nth_error names q = Some qn ->
     exists r, nth_error names r = Some rn /\ path (A_edges g) q w r).
  { intros qn w' rn P. induction P as [qn|qn a rn w' tn I P IH]; intros q Eq.
    - exists q. split; [exact Eq|constructor].
    - assert (In rn names) as Ir by (apply H2; exists qn, a; right; exact I).
      apply In_nth_error in Ir. destruct Ir as (r & Er). destruct (IH _ Er) as (t & Z & P').
      exists t. split; [exact Z|]. econstructor; [|exact P']. apply HI. eauto. }
  split.
  - intros (q & r & X & P & Fr). assert (q = q0) by congruence. subst q.
    destruct (P1 _ _ _ P _ Nq0) as (rn & Er & P'). exists rn. split; [exact P'|]. rewrite F, Er in Fr. exact Fr.
  - intros (rn & P & Fr). destruct (P2 _ _ _ P _ Nq0) as (r & Er & P'). exists q0, r.
    split; [exact Q0|]. split; [exact P'|]. rewrite F, Er. exact Fr.
Qed.
Print Assumptions C15_make_automaton_language.

Example C15_nontrivial :
  let tr := [(20, 10, 1); (10, 20, 2); (20, 30, 3); (20, 10, 1)] in
  vertex_names (fun l => l) tr = [20; 10; 30] /\
  match make_automaton (fun l => l) tr 10 (fun x => x =? 30) with
  | Ok g => A_edges g = [Edge 0 1 1; Edge 0 2 3; Edge 1 0 2] /\ A_initial g = Some 1 /\ A_finals g = [2]
            /\ A_accepts g [2; 3] = true
  | Raise _ => False
  end.
Proof. vm_compute. auto. Qed.
