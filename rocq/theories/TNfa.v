(** Theorems C22, C23, C24, C71: non-deterministic automata and their determination. *)
From Verif Require Import Base BaseProofs Graph GraphProofs Automaton AutomatonProofs Nfa NfaSpec NfaProofs NfaProofs2.

Section T.
  Context {A : Type} {EA : EqDec A}.
  (** Any Nfa one can build: Nfa(n, initials, epsilon), then any calls; and the description of it as a
      set of transitions with initial and final states. *)
  Definition built (n : nat) (ini : list nat) (eps : A) (ops : list (nfop A)) : nfa A := fst (runs N_call (N_init n ini eps) ops).
  Definition described (n : nat) (ini : list nat) (ops : list (nfop A)) : anfa A := fold_left an_step ops (an_init n ini).
  Definition steps (s : anfa A) (q : nat) (a : A) (r : nat) : Prop := In (q, a, r) (an_T s).

  (** C71: the class maintains the description: vertices, transitions, initial and final states. *)
  Theorem C71_nfa_refinement n ini (eps : A) ops :
    let g := built n ini eps ops in
    let s := described n ini ops in
    N_vertices g = an_V s /\ nf_init g = an_I s /\ (forall q, N_is_final g q = an_F s q) /\ nf_eps g = eps /\
    (forall q a r, (exists k, In (Edge q r (a, k)) (N_edges g)) <-> In (q, a, r) (an_T s)) /\
    (forall q a r, (exists k, In (Edge q r (a, k)) (N_out_edges g q)) <-> In (q, a, r) (an_T s)) /\
    (forall q a r, In r (N_delta_one_step g [q] a) <-> In (q, a, r) (an_T s)).
  Proof.
    intros g s. pose proof (N_runs_rep n ini eps ops) as R. fold (built n ini eps ops) in R. fold (described n ini ops) in R. fold g s in R.
    destruct R as [W Nx V T I F E]. split; [exact V|]. split; [exact I|]. split; [exact F|]. split; [exact E|]. split; [|split].
    - intros q a r. rewrite <- T. symmetry. apply In_N_edges_ntrans. exact W.
    - intros q a r. rewrite <- T, (In_N_edges_ntrans g q r a W).
      split; intros (k & X); exists k; [apply In_N_out_edges in X; [|exact W]; apply In_N_edges; tauto|].
      apply In_N_out_edges; [exact W|]. split; [reflexivity|]. apply In_N_edges; assumption.
    - intros q a r. rewrite In_one_step, <- T. split; [intros (q' & [<-|[]] & X); exact X|]. intros X. exists q. split; [left; reflexivity|exact X].
  Qed.

  (** C71: what each call returns, and the copies of the transitions that edges() lists (their numbers
      are 1, 2, ... in the order of the insertions). *)
  Theorem C71_nfa_results n ini (eps : A) ops :
    let '(results, copies) := an_results (an_init n ini) (fun _ _ _ => 0) ops in
    snd (runs N_call (N_init n ini eps) ops) = results /\
    forall q a r k, In (Edge q r (a, k)) (N_edges (built n ini eps ops)) <-> k = seq 1 (copies q a r) /\ copies q a r <> 0.
  Proof.
    pose proof (N_runs_rep n ini eps ops) as R. fold (built n ini eps ops) in R.
    destruct (runs_copied ops (N_init n ini eps) (an_init n ini) eps (fun _ _ _ => 0) (N_init_rep n ini eps) (copied_init n ini eps)) as [C E].
    destruct (an_results (an_init n ini) (fun _ _ _ => 0) ops) as [rs c]. cbn [fst snd] in *. split; [exact E|]. fold (built n ini eps ops) in C.
    intros q a r k. rewrite (In_N_edges _ _ _ _ _ (r_wf _ _ _ R)). specialize (C q a r). destruct (dget (N_get (built n ini eps ops) q a) r) as [l|].
    - destruct C as [-> P]. split; [intros [= <-]; split; [reflexivity|lia]|]. intros [-> _]. reflexivity.
    - rewrite C. split; [discriminate|]. intros [_ X]. congruence.
  Qed.

  (** C22: delta_epsilon terminates and is the epsilon-closure. *)
  Theorem C22_delta_epsilon n ini (eps : A) ops qs :
    exists s, N_delta_epsilon (built n ini eps ops) qs = Some s /\
      forall t, In t s <-> exists q, In q qs /\ eps_star (steps (described n ini ops)) eps q t.
  Proof.
    pose proof (N_runs_rep n ini eps ops) as R. fold (built n ini eps ops) in R. fold (described n ini ops) in R.
    destruct (delta_epsilon_spec (built n ini eps ops) qs) as (s & E & H). exists s. split; [exact E|].
    intros t. rewrite H. rewrite (r_eps _ _ _ R). split; intros (q & I & St); exists q; (split; [exact I|]);
      (eapply eps_star_ext; [|exact St]); intros p a r X; apply (r_T _ _ _ R); exact X.
  Qed.

  (** C23: accepts terminates and decides the existence of an accepting run. *)
  Theorem C23_nfa_accepts n ini (eps : A) ops w : ~ In eps w ->
    exists b, N_accepts (built n ini eps ops) w = Some b /\
      (b = true <-> exists q t, In q (an_I (described n ini ops)) /\ nrun (steps (described n ini ops)) eps q w t /\
                                an_F (described n ini ops) t = true).
  Proof.
    intros NE. pose proof (N_runs_rep n ini eps ops) as R. fold (built n ini eps ops) in R. fold (described n ini ops) in R.
    rewrite <- (r_eps _ _ _ R) in NE.
    destruct (N_accepts_spec (built n ini eps ops) w NE) as (b & E & H). exists b. split; [exact E|].
    rewrite H, (r_I _ _ _ R), (r_eps _ _ _ R).
    split; intros (q & t & I & X & F); exists q, t; (split; [exact I|]); (split; [|rewrite (r_F _ _ _ R) in *; exact F]);
      (eapply nrun_ext; [|exact X]); intros p a r Y; apply (r_T _ _ _ R); exact Y.
  Qed.

  (** C24: moore_determination terminates without exception, whatever the orders in which the subsets
      are popped and the symbols are iterated; the automaton obtained accepts the same words, and it is
      complete on the alphabet of the NFA when [complete] is set. *)
  Theorem C24_moore_determination n ini (eps : A) ops complete opop osym fuel :
    let g := built n ini eps ops in
    valid_order opop -> valid_order osym -> 2 ^ (length (nf_init g) + N_num_edges g) + 1 <= fuel ->
    exists d, moore_determination g complete opop osym fuel = Some (d, Ok tt) /\
      (forall w, ~ In eps w -> N_accepts g w = Some (A_accepts d w)) /\
      (forall w, ~ In eps w -> (A_accepts d w = true <->
         exists q t, In q (an_I (described n ini ops)) /\ nrun (steps (described n ini ops)) eps q w t /\ an_F (described n ini ops) t = true)) /\
      (forall q q' a r, complete = true -> In q (A_vertices d) -> a <> eps -> steps (described n ini ops) q' a r ->
         exists r', A_delta d q a = Some r' /\ In r' (A_vertices d)).
  Proof.
    intros g OP OS L. pose proof (N_runs_rep n ini eps ops) as R. fold (built n ini eps ops) in R. fold (described n ini ops) in R. fold g in R.
    destruct (moore_run g complete opop osym OP OS fuel) as (d & E & H & HC & HV & _).
    { assert (X : length (universe g) <= length (nf_init g) + N_num_edges g).
      { unfold universe, N_num_edges. rewrite <- (map_length target (N_edges g)). rewrite <- app_length. apply NoDup_incl_length; [apply NoDup_sof|].
        intros x. apply In_sof. }
      assert (Y : 2 ^ length (universe g) <= 2 ^ (length (nf_init g) + N_num_edges g)) by (apply Nat.pow_le_mono_r; lia). lia. }
    assert (EQ : nf_eps g = eps) by apply (r_eps _ _ _ R). rewrite EQ in H.
    assert (L1 : forall w, ~ In eps w -> N_accepts g w = Some (A_accepts d w)).
    { intros w NE. destruct (N_accepts_spec g w) as (b & Eb & Hb); [rewrite EQ; exact NE|]. rewrite Eb. f_equal. rewrite EQ in Hb.
      destruct (H w NE) as [H1 H2]. destruct b, (A_accepts d w); try reflexivity.
      - symmetry. apply H2, Hb. reflexivity.
      - apply Hb, H1. reflexivity. }
    exists d. split; [exact E|]. split; [exact L1|]. split.
    - intros w NE. destruct (C23_nfa_accepts n ini eps ops w NE) as (b & Eb & Hb). rewrite <- Hb.
      assert (X : A_accepts d w = b).
      { specialize (L1 w NE). unfold g in L1. rewrite Eb in L1. injection L1 as ->. reflexivity. }
      rewrite X. reflexivity.
    - intros q q' a r Ct Iq Na X. apply (r_T _ _ _ R) in X. destruct (A_delta d q a) as [r'|] eqn:D.
      + exists r'. split; [reflexivity|]. apply (HV _ _ _ D).
      + exfalso. apply (HC q a Ct Iq); [|exact D]. eapply alphabet_spec; [rewrite EQ; exact Na|exact X].
  Qed.
End T.

(** ** Concrete cases: symbols are numbers, epsilon is 0 *)
Definition ex_ops : list (nfop nat) :=
  [FAddEdge 0 1 0; FAddEdge 1 0 0; FAddEdge 1 2 5; FAddEdge 2 2 5; FAddEdge 2 3 0; FAddEdge 1 2 5; FAddEdge 0 3 7;
   FRemoveEdge 0 3 7; FAddVertex; FAddEdge 4 3 5; FRemoveVertex 4; FSetFinal 3 true].
Example ex_C71 : an_T (described 4 [] ex_ops) = [(0, 0, 1); (1, 0, 0); (1, 5, 2); (2, 5, 2); (2, 0, 3)] /\
  N_vertices (built 4 [] 0 ex_ops) = [0; 1; 2; 3].
Proof. vm_compute. auto. Qed.
Example ex_C71_results : fst (an_results (an_init 2 []) (fun _ _ _ => 0) [FAddEdge 0 1 7; FAddEdge 0 1 7; FAddVertex; FRemoveEdge 0 1 7; FAddEdge 0 1 7; FRemoveVertex 9]) =
    [FOutEdge 0 1 7 1; FOutEdge 0 1 7 2; FOutVertex 2; FOutUnit; FOutEdge 0 1 7 1; FOutRaise KeyError] /\
  N_edges (built 2 [] 0 [FAddEdge 0 1 7; FAddEdge 0 1 7]) = [Edge 0 1 (7, [1; 2])].
Proof. vm_compute. auto. Qed.
Example ex_C22 : N_delta_epsilon (built 4 [] 0 ex_ops) [1] = Some [1; 0].
Proof. vm_compute. reflexivity. Qed.
Example ex_C23 : map (N_accepts (built 4 [] 0 ex_ops)) [[5]; [5; 5]; []; [7]] = [Some true; Some true; Some false; Some false].
Proof. vm_compute. reflexivity. Qed.
Example ex_C24 :
  match moore_determination (built 4 [] 0 ex_ops) true (fun _ l => l) (fun _ l => rev l) 100 with
  | Some (d, Ok _) => map (A_accepts d) [[5]; [5; 5]; []; [7]] = [true; true; false; false] /\ A_num_vertices d = 3
  | _ => False
  end.
Proof. vm_compute. auto. Qed.

Print Assumptions C71_nfa_refinement.
Print Assumptions C71_nfa_results.
Print Assumptions C22_delta_epsilon.
Print Assumptions C23_nfa_accepts.
Print Assumptions C24_moore_determination.
