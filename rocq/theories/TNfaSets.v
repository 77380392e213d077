(** C119: the sets of states and of symbols of an Nfa. *)
From Verif Require Import Base BaseProofs Graph GraphProofs Automaton AutomatonProofs Nfa NfaSpec NfaProofs TNfa NfaSets NfaSetsSpec NfaSetsProofs.

Section T.
  Context {A : Type} {EA : EqDec A}.
  Lemma built_rep n ini (eps : A) ops : nrep (built n ini eps ops) (described n ini ops) eps.
  Proof. apply N_runs_rep. Qed.
  Lemma built_noted n ini (eps : A) ops q a : noted_in (built n ini eps ops) q a <-> In (q, a) (noted (an_init n ini) [] ops).
  Proof. apply (noted_runs ops _ _ eps [] (N_init_rep n ini eps)). intros p b. split; [intros X; destruct (noted_init n ini eps p b X)|intros []]. Qed.

  (** C119: the initial states, the final states and the epsilon-transitions are those of the description; num_edges() does not count the parallel copies. *)
  Theorem C119_states n ini (eps : A) ops :
    let g := built n ini eps ops in
    let s := described n ini ops in
    (forall q, N_is_initial g q = true <-> In q (an_I s)) /\
    (forall q, In q (N_finals g) <-> In q (an_V s) /\ an_F s q = true) /\ NoDup (N_finals g) /\
    (forall q r a k, In (Edge q r (a, k)) (N_edges g) -> (N_is_epsilon_transition g (Edge q r (a, k)) = true <-> a = eps)) /\
    NoDup (an_T s) /\ N_num_edges g = length (an_T s).
  Proof.
    intros g s. destruct (built_rep n ini eps ops) as [W Nx V T I F E]. fold g in W, Nx, V, T, I, F, E. fold s in Nx, V, T, I, F. split; [|split; [|split; [|split; [|split]]]].
    - intros q. unfold N_is_initial. rewrite mem_spec, I. reflexivity.
    - intros q. unfold N_finals. rewrite filter_In, V. unfold N_is_final. rewrite F. reflexivity.
    - apply NoDup_filter, W.
    - intros q r a k _. unfold N_is_epsilon_transition, N_label. cbn [distinguisher fst]. rewrite E. apply eqb_eq.
    - apply NoDup_an_T. constructor.
    - apply (num_edges_ok g s eps (built_rep n ini eps ops)). apply NoDup_an_T. constructor.
  Qed.

  (** Every symbol of a transition is in alphabet(), and every symbol which can be read from q is in sigma(q). *)
  Theorem C119_complete_partial n ini (eps : A) ops :
    let g := built n ini eps ops in
    let s := described n ini ops in
    (forall q a r, In (q, a, r) (an_T s) -> a <> eps -> In a (N_alphabet g)) /\
    (forall q, exists l, N_sigma g q = Some l /\ forall p a r, eps_star (steps s) eps q p -> In (p, a, r) (an_T s) -> a <> eps -> In a l).
  Proof.
    intros g s. destruct (built_rep n ini eps ops) as [W Nx V T I F E]. fold g in W, Nx, V, T, I, F, E. fold s in Nx, V, T, I, F. split.
    - intros q a r J N. apply (alphabet_iff g a W). split; [congruence|]. exists q. apply (ntrans_noted g q a r), T, J.
    - intros q. destruct (sigma_iff g q) as (l & E1 & H). exists l. split; [exact E1|]. intros p a r S J N. apply H. rewrite E. split; [exact N|]. exists p. split; [|apply (ntrans_noted g p a r), T, J].
      revert S. apply eps_star_ext. intros x b y K. apply T, K.
  Qed.
  (** Without calls of remove_edge and remove_vertex, they hold nothing else. *)
  Theorem C119_symbols_partial n ini (eps : A) ops : forallb keeps ops = true ->
    let g := built n ini eps ops in
    let s := described n ini ops in
    (forall a, In a (N_alphabet g) <-> a <> eps /\ exists q r, In (q, a, r) (an_T s)) /\
    (forall q, exists l, N_sigma g q = Some l /\ forall a, In a l <-> a <> eps /\ exists p r, eps_star (steps s) eps q p /\ In (p, a, r) (an_T s)).
  Proof.
    intros K g s. destruct (built_rep n ini eps ops) as [W Nx V T I F E]. fold g in W, Nx, V, T, I, F, E. fold s in Nx, V, T, I, F.
    assert (NT : forall q a, noted_in g q a <-> exists r, In (q, a, r) (an_T s)).
    { intros q a. unfold g. rewrite built_noted. apply (noted_keeps ops (an_init n ini) [] K). intros p b. split; [intros []|intros [r []]]. }
    split.
    - intros a. rewrite (alphabet_iff g a W), E. split; intros [N (q & J)]; (split; [exact N|]); exists q; apply NT, J.
    - intros q. destruct (sigma_iff g q) as (l & E1 & H). exists l. split; [exact E1|]. intros a. rewrite H, E. split.
      + intros [N (p & S & J)]. split; [exact N|]. apply NT in J. destruct J as [r J]. exists p, r. split; [|exact J]. revert S. apply eps_star_ext. intros x b y X. apply T, X.
      + intros [N (p & r & S & J)]. split; [exact N|]. exists p. split; [|apply NT; exists r; exact J]. revert S. apply eps_star_ext. intros x b y X. apply T, X.
  Qed.
  (** After any calls, they hold exactly the symbols of the transitions added to a state since it was created: what remove_edge removes, and remove_vertex on the target, is still there. *)
  Theorem C119_exact_partial n ini (eps : A) ops :
    let g := built n ini eps ops in
    let s := described n ini ops in
    let m := noted (an_init n ini) [] ops in
    NoDup (N_alphabet g) /\ (forall a, In a (N_alphabet g) <-> a <> eps /\ exists q, In (q, a) m) /\
    (forall q, exists l, N_sigma g q = Some l /\ forall a, In a l <-> a <> eps /\ exists p, eps_star (steps s) eps q p /\ In (p, a) m).
  Proof.
    intros g s m. destruct (built_rep n ini eps ops) as [W Nx V T I F E]. fold g in W, Nx, V, T, I, F, E. fold s in Nx, V, T, I, F.
    assert (NT : forall q a, noted_in g q a <-> In (q, a) m) by (intros q a; apply built_noted). split; [apply NoDup_sof|]. split.
    - intros a. rewrite (alphabet_iff g a W), E. split; intros [N (q & J)]; (split; [exact N|]); exists q; apply NT, J.
    - intros q. destruct (sigma_iff g q) as (l & E1 & H). exists l. split; [exact E1|]. intros a. rewrite H, E.
      split; intros [N (p & S & J)]; (split; [exact N|]); exists p; (split; [|apply NT, J]); revert S; apply eps_star_ext; intros x b y X; apply T, X.
  Qed.
End T.

(** A transition that is added then removed leaves its symbol, in the alphabet and in sigma of its source; so does the removal of its target. *)
Theorem C119_symbols_refuted : exists (ops1 ops2 : list (nfop nat)),
  let g1 := built 2 [] 0 ops1 in let g2 := built 2 [] 0 ops2 in
  (an_T (described 2 [] ops1) = [] /\ N_edges g1 = [] /\ N_alphabet g1 = [7] /\ N_sigma g1 0 = Some [7]) /\
  (an_T (described 2 [] ops2) = [] /\ N_edges g2 = [] /\ N_vertices g2 = [0] /\ N_alphabet g2 = [7] /\ N_sigma g2 0 = Some [7]).
Proof. exists [FAddEdge 0 1 7; FRemoveEdge 0 1 7], [FAddEdge 0 1 7; FRemoveVertex 1]. vm_compute. auto 10. Qed.

(** 0 -epsilon-> 1 -7-> 2 -8-> 0, where epsilon is 0 *)
Definition sets_ops : list (nfop nat) := [FAddEdge 0 1 0; FAddEdge 1 2 7; FAddEdge 2 0 8; FSetFinal 2 true; FSetFinal 9 true; FSetInitial 1 true].
Example C119_example : forallb keeps sets_ops = true /\ (let g := built 3 [] 0 sets_ops in
  N_alphabet g = [7; 8] /\ N_sigma g 0 = Some [7] /\ N_sigma g 2 = Some [8] /\ N_finals g = [2] /\ map (N_is_initial g) [0; 1; 2] = [true; true; false] /\
  map (fun e => (source e, N_is_epsilon_transition g e)) (N_edges g) = [(0, true); (1, false); (2, false)]).
Proof. vm_compute. auto 10. Qed.
Example C119_noted_example : noted (an_init 2 []) [] [FAddEdge 0 1 7; FAddEdge 1 0 8; FRemoveEdge 0 1 7; FRemoveVertex 1] = [(0, 7)] /\
  N_alphabet (built 2 [] 0 [FAddEdge 0 1 7; FAddEdge 1 0 8; FRemoveEdge 0 1 7; FRemoveVertex 1]) = [7].
Proof. vm_compute. auto. Qed.
Print Assumptions C119_states. Print Assumptions C119_complete_partial. Print Assumptions C119_symbols_partial. Print Assumptions C119_exact_partial. Print Assumptions C119_symbols_refuted.
