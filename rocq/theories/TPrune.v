(** Theorem C42 on prune_incidence_automaton. *)
From Verif Require Import Base BaseProofs Graph GraphProofs Automaton AutomatonSpec AutomatonProofs AutomatonProofs2 Search SearchSpec SearchProofs SearchProofs2 View TSearch Prune.

Lemma filter_twice {X} (f h : X -> bool) l : filter f (filter h l) = filter (fun x => h x && f x) l.
Proof. induction l as [|x l IH]; [reflexivity|]. cbn. destruct (h x); cbn; [destruct (f x)|]; rewrite IH; reflexivity. Qed.

Section T.
  Context {A : Type} {EA : EqDec A}.

  Lemma find_reachable_spec (g : api (edge A)) sources : finite_graph (api_out_edges g) (api_target g) ->
    exists bound l, (forall fuel, bound <= fuel -> find_reachable_vertices fuel g sources = Some l) /\
      forall v, In v l <-> exists s, In s (match sources with [] => api_vertices g | _ => sources end) /\ steps (next (api_out_edges g) (api_target g) (fun _ => true)) s v.
  Proof.
    intros F. destruct (C33_depth_first_search_graph _ (api_target g) (fun _ => true) F (api_vertices g) sources [] (fun _ => eq_refl)) as (t & c' & P & _ & D & _ & _ & _ & K).
    destruct (P unit (fun _ st => Ok st)) as (k & H). exists k, (sof (dkeys c')). split.
    - intros fuel L. unfold find_reachable_vertices. rewrite (H tt fuel L).
      assert (X : calls (fun _ (st : unit) => Ok st) t tt = Ok tt) by (clear; induction t as [|x t IH]; [reflexivity|exact IH]). rewrite X. reflexivity.
    - intros v. rewrite In_sof, K, D. split; [intros [[]|X]; exact X|intros X; right; exact X].
  Qed.

  (** [useful]: on a path from the initial state to a final state *)
  Definition reachable (g : iaut A) (v : nat) : Prop := exists q0 w, A_initial (ia_base g) = Some q0 /\ path (IA_edges g) q0 w v.
  Definition coreachable (g : iaut A) (v : nat) : Prop := exists w f, path (IA_edges g) v w f /\ In f (A_finals (ia_base g)).

  Lemma path_app (T : list (edge A)) q w r w' s : path T q w r -> path T r w' s -> path T q (w ++ w') s.
  Proof. induction 1; cbn; [trivial|]. intros P. econstructor; [eassumption|auto]. Qed.
  Lemma steps_path (T : list (edge A)) (R : nat -> nat -> Prop) : (forall u v, R u v <-> exists a, In (Edge u v a) T) -> forall u v, steps R u v <-> exists w, path T u w v.
  Proof.
    intros H u v. split.
    - induction 1 as [u|u y z N S (w & P)]; [exists []; constructor|]. apply H in N. destruct N as (a & I). exists (a :: w). econstructor; eassumption.
    - intros (w & P). induction P as [|q a r w t I P IH]; [constructor|]. eapply steps_step; [apply H; eauto|exact IH].
  Qed.
  Lemma steps_rpath (T : list (edge A)) (R : nat -> nat -> Prop) : (forall u v, R u v <-> exists a, In (Edge v u a) T) -> forall u v, steps R u v <-> exists w, path T v w u.
  Proof.
    intros H u v. split.
    - induction 1 as [u|u y z N S (w & P)]; [exists []; constructor|]. apply H in N. destruct N as (a & I). exists (w ++ [a]). eapply path_app; [exact P|]. econstructor; [exact I|constructor].
    - intros (w & P). induction P as [|q a r w t I P IH]; [constructor|]. eapply steps_trans; [exact IH|]. apply steps_one, H. eauto.
  Qed.

  Lemma remove_all L : forall (g : iaut A) s, iarep g s -> exists g' s', foreach IA_remove_vertex g L = (g', Ok tt) /\ iarep g' s' /\
    aa_V s' = filter (fun v => negb (mem v L)) (aa_V s) /\ aa_q0 s' = aa_q0 s /\ aa_final s' = aa_final s /\
    aa_T s' = filter (fun e => negb (mem (source e) L || mem (target e) L)) (aa_T s).
  Proof.
    induction L as [|u L IH]; intros g s R; cbn [foreach].
    - exists g, s. split; [reflexivity|]. split; [exact R|]. split; [symmetry; apply filter_id; reflexivity|]. split; [reflexivity|]. split; [reflexivity|symmetry; apply filter_id; reflexivity].
    - destruct (IA_remove_vertex_spec g s u R) as (g1 & -> & R1).
      destruct (IH _ _ R1) as (g' & s' & -> & R' & V & Q & F & T). cbn [aa_V aa_q0 aa_final aa_T] in V, Q, F, T.
      exists g', s'. split; [reflexivity|]. split; [exact R'|]. split; [|split; [exact Q|split; [exact F|]]].
      + rewrite V, filter_twice. apply filter_ext. intros x. unfold mem. cbn. destruct (Nat.eqb_spec x u), (eqb_spec x u); try contradiction; destruct (existsb (eqb x) L); reflexivity.
      + rewrite T. unfold drop_incident. rewrite filter_twice. apply filter_ext. intros e. unfold mem. cbn.
        destruct (Nat.eqb_spec (source e) u), (eqb_spec (source e) u); try contradiction; destruct (Nat.eqb_spec (target e) u), (eqb_spec (target e) u); try contradiction;
          destruct (existsb (eqb (source e)) L), (existsb (eqb (target e)) L); reflexivity.
  Qed.

  Lemma iarep_edges (g : iaut A) s : iarep g s -> forall e, In e (IA_edges g) <-> In e (aa_T s).
  Proof. intros (R & _) e. pose proof (obs_edges _ _ R) as P. split; apply Permutation_in; [exact P|symmetry; exact P]. Qed.
  Lemma iarep_out (g : iaut A) s : iarep g s -> forall u v, next (IA_out_edges g) target (fun _ => true) u v <-> exists a, In (Edge u v a) (IA_edges g).
  Proof.
    intros RR u v. pose proof RR as (R & _). pose proof (obs_out _ _ R u) as P. split.
    - intros (e & I & _ & T). apply (Permutation_in _ P), filter_In in I. destruct I as [I S]. apply Nat.eqb_eq in S. destruct e as [q r a]. cbn in *. subst. exists a. apply (iarep_edges _ _ RR), I.
    - intros (a & I). exists (Edge u v a). split; [|auto]. apply (Permutation_in _ (Permutation_sym P)), filter_In. split; [apply (iarep_edges _ _ RR), I|apply Nat.eqb_refl].
  Qed.
  Lemma iarep_in (g : iaut A) s : iarep g s -> forall u v, next (IA_in_edges g) source (fun _ => true) u v <-> exists a, In (Edge v u a) (IA_edges g).
  Proof.
    intros RR u v. pose proof (iarep_in_edges _ _ u RR) as P. split.
    - intros (e & I & _ & T). apply (Permutation_in _ P), filter_In in I. destruct I as [I S]. apply Nat.eqb_eq in S. destruct e as [q r a]. cbn in *. subst. exists a. exact I.
    - intros (a & I). exists (Edge v u a). split; [|auto]. apply (Permutation_in _ (Permutation_sym P)), filter_In. split; [exact I|apply Nat.eqb_refl].
  Qed.
  Lemma in_finite (g : iaut A) s : iarep g s -> finite_graph (IA_in_edges g) source.
  Proof. intros RR. exists (map source (IA_edges g)). intros u e I. apply in_map. apply (Permutation_in _ (iarep_in_edges _ _ u RR)), filter_In in I. apply I. Qed.

  Lemma prune_rep (g : iaut A) s ord : iarep g s -> valid_order ord ->
    exists bound g' s', iarep g' s' /\ (forall fuel, bound <= fuel -> prune_incidence_automaton fuel ord g = Some (g', Ok tt)) /\
    (A_finals (ia_base g) <> [] -> forall v, In v (IA_vertices g') <-> In v (IA_vertices g) /\ reachable g v /\ coreachable g v) /\
    (A_finals (ia_base g) = [] -> forall v, In v (IA_vertices g') <-> In v (IA_vertices g) /\ reachable g v) /\
    (forall e, In e (IA_edges g') <-> In e (IA_edges g) /\ In (source e) (IA_vertices g') /\ In (target e) (IA_vertices g')) /\
    NoDup (IA_vertices g') /\ NoDup (IA_edges g') /\
    (forall r, Permutation (IA_in_edges g' r) (filter (fun e => target e =? r) (IA_edges g'))) /\
    A_initial (ia_base g') = A_initial (ia_base g) /\ (forall v, A_is_final (ia_base g') v = A_is_final (ia_base g) v) /\
    (forall w, A_accepts (ia_base g') w = A_accepts (ia_base g) w).
  Proof.
    intros RR O.
    assert (P1 : exists b1 l1, (forall fuel, b1 <= fuel -> (match A_initial (ia_base g) with Some q0 => find_reachable_vertices fuel (IA_api g) [q0] | None => Some [] end) = Some l1) /\ forall v, In v l1 <-> reachable g v).
    { destruct (A_initial (ia_base g)) as [q0|] eqn:Q.
      - destruct (find_reachable_spec (IA_api g) [q0] (A_finite (ia_base g))) as (b & l & H & K). exists b, l. split; [exact H|]. intros v. rewrite K. unfold reachable. rewrite Q.
        split.
        + intros (x & [<-|[]] & S). apply (steps_path (IA_edges g) _ (iarep_out _ _ RR)) in S. destruct S as (w & P). exists q0, w. auto.
        + intros (x & w & [= <-] & P). exists q0. split; [left; reflexivity|]. apply (steps_path (IA_edges g) _ (iarep_out _ _ RR)). eauto.
      - exists 0, []. split; [reflexivity|]. intros v. split; [intros []|]. intros (x & w & X & _). congruence. }
    destruct P1 as (b1 & l1 & H1 & K1).
    destruct (find_reachable_spec (reverse_graph (IA_api g)) (ord 0 (A_finals (ia_base g))) (in_finite _ _ RR)) as (b2 & l2 & H2 & K2).
    cbn [api_out_edges api_target api_vertices reverse_graph IA_api] in K2.
    set (keep := sinter l1 l2). set (L := ord 1 (sdiff (sof (IA_vertices g)) keep)).
    destruct (remove_all L g s RR) as (g' & s' & FE & RR' & V & Q & F & T).
    assert (IL : forall v, In v (IA_vertices g) -> (mem v L = false <-> In v keep)).
    { intros v I. assert (X : In v L <-> ~ In v keep).
      { transitivity (In v (sdiff (sof (IA_vertices g)) keep)); [split; apply Permutation_in; [|symmetry]; apply O|]. rewrite In_sdiff, In_sof. tauto. }
      destruct (mem_reflect v L) as [M|M].
      - split; [discriminate|]. intros Y. apply X in M. contradiction.
      - split; [|reflexivity]. intros _. destruct (in_dec' v keep) as [Y|Y]; [exact Y|]. apply X in Y. contradiction. }
    pose proof RR as (R & _ & _ & _ & CL). pose proof RR' as (R' & _).
    assert (VV : forall v, In v (IA_vertices g') <-> In v (IA_vertices g) /\ In v l1 /\ In v l2).
    { intros v. change (IA_vertices g') with (A_vertices (ia_base g')). change (IA_vertices g) with (A_vertices (ia_base g)). rewrite (obs_vertices _ _ R'), (obs_vertices _ _ R), V, filter_In.
      rewrite <- (obs_vertices _ _ R). change (A_vertices (ia_base g)) with (IA_vertices g). split.
      - intros [I M]. split; [exact I|]. apply negb_true_iff in M. apply (IL v I) in M. apply In_sinter in M. exact M.
      - intros [I M]. split; [exact I|]. apply negb_true_iff, (IL v I). apply In_sinter. exact M. }
    assert (OF : ord 0 (A_finals (ia_base g)) = [] <-> A_finals (ia_base g) = []).
    { pose proof (O 0 (A_finals (ia_base g))) as P. split; intros X; [rewrite X in P; apply Permutation_nil in P; exact P|]. rewrite X in P |- *. apply Permutation_nil, Permutation_sym, P. }
    assert (CO : A_finals (ia_base g) <> [] -> forall v, In v l2 <-> coreachable g v).
    { intros NE v. rewrite K2. destruct (ord 0 (A_finals (ia_base g))) as [|x l] eqn:OO; [exfalso; apply NE, OF; reflexivity|]. rewrite <- OO. unfold coreachable.
      split.
      - intros (f & I & S). apply (steps_rpath (IA_edges g) _ (iarep_in _ _ RR)) in S. destruct S as (w & P). exists w, f. split; [exact P|]. apply (Permutation_in _ (O 0 _)), I.
      - intros (w & f & P & I). exists f. split; [apply (Permutation_in _ (Permutation_sym (O 0 _))), I|]. apply (steps_rpath (IA_edges g) _ (iarep_in _ _ RR)). eauto. }
    assert (CA : A_finals (ia_base g) = [] -> forall v, In v (IA_vertices g) -> In v l2).
    { intros NE v I. apply K2. apply OF in NE. rewrite NE. exists v. split; [exact I|constructor]. }
    assert (EE : forall e, In e (IA_edges g') <-> In e (IA_edges g) /\ In (source e) (IA_vertices g') /\ In (target e) (IA_vertices g')).
    { intros e. rewrite (iarep_edges _ _ RR'), (iarep_edges _ _ RR), T, filter_In, negb_true_iff, orb_false_iff. split.
      - intros [I [M1 M2]]. destruct (CL e I) as [I1 I2]. rewrite <- (obs_vertices _ _ R) in I1, I2. split; [exact I|]. rewrite !VV. apply (IL _ I1) in M1. apply (IL _ I2) in M2. apply In_sinter in M1, M2. tauto.
      - intros [I [M1 M2]]. rewrite VV in M1, M2. split; [exact I|]. split; apply IL; try tauto; apply In_sinter; tauto. }
    assert (Q' : A_initial (ia_base g') = A_initial (ia_base g)).
    { destruct R as (_ & _ & _ & _ & X & _), R' as (_ & _ & _ & _ & X' & _). unfold A_initial. congruence. }
    assert (F' : forall v, A_is_final (ia_base g') v = A_is_final (ia_base g) v).
    { intros v. destruct R as (_ & _ & _ & _ & _ & X & _), R' as (_ & _ & _ & _ & _ & X' & _). unfold A_is_final. rewrite X, X', F. reflexivity. }
    exists (b1 + b2), g', s'. split; [exact RR'|]. split; [|split; [|split; [|split; [exact EE|split; [|split; [|split; [|split; [exact Q'|split; [exact F'|]]]]]]]]].
    - intros fuel LE. unfold prune_incidence_automaton. rewrite H1 by lia. rewrite H2 by lia. fold keep. fold L. rewrite FE. reflexivity.
    - intros NE v. rewrite VV, K1, (CO NE). reflexivity.
    - intros NE v. rewrite VV, K1. split; [tauto|]. intros [I X]. split; [exact I|]. split; [exact X|apply (CA NE), I].
    - destruct R' as (_ & _ & [X _] & _). exact X.
    - apply NoDup_tedges. apply R'.
    - intros r. apply (iarep_in_edges _ _ r RR').
    - intros w.
      assert (X : A_accepts (ia_base g') w = true <-> A_accepts (ia_base g) w = true).
      { rewrite (accepts_path _ _ R'), (accepts_path _ _ R). rewrite Q'. split.
        - intros (q0 & r & I & P & FI). exists q0, r. rewrite <- F'. split; [exact I|]. split; [|exact FI].
          revert P. change (A_edges (ia_base g')) with (IA_edges g'). change (A_edges (ia_base g)) with (IA_edges g). clear -EE. induction 1 as [|q a r w t I P IH]; [constructor|]. econstructor; [apply EE, I|exact IH].
        - intros (q0 & r & I & P & FI). exists q0, r. rewrite F'. split; [exact I|]. split; [|exact FI].
          change (A_edges (ia_base g')) with (IA_edges g'). change (A_edges (ia_base g)) with (IA_edges g) in P.
          assert (RC : reachable g q0) by (exists q0, []; split; [exact I|constructor]). clear I.
          induction P as [q|q a r w t J P IH]; [constructor|].
          assert (RC' : reachable g r).
          { destruct RC as (x & w' & X1 & X2). exists x, (w' ++ [a]). split; [exact X1|]. eapply path_app; [exact X2|]. econstructor; [exact J|constructor]. }
          pose proof (CL _ (proj1 (iarep_edges _ _ RR _) J)) as [I1 I2]. cbn in I1, I2.
          assert (I3 : In t (aa_V s)).
          { clear -P RR CL I2. induction P as [q|q b r w t K P IH]; [exact I2|]. apply IH. apply (iarep_edges _ _ RR) in K. apply CL in K. apply K. }
          rewrite <- (obs_vertices _ _ R) in I1, I2, I3.
          assert (FIN : In t (A_finals (ia_base g))) by (apply filter_In; split; [exact I3|exact FI]).
          assert (NE : A_finals (ia_base g) <> []) by (intros X; rewrite X in FIN; destruct FIN).
          econstructor; [|apply (IH FI RC')]. apply EE. cbn [source target]. split; [exact J|].
          split; apply VV; (split; [assumption|]); (split; [apply K1; assumption|]); apply (CO NE).
          + exists (a :: w), t. split; [econstructor; [exact J|exact P]|exact FIN].
          + exists w, t. split; [exact P|exact FIN]. }
      destruct (A_accepts (ia_base g') w), (A_accepts (ia_base g) w); try reflexivity; [apply proj1 in X|apply proj2 in X]; specialize (X eq_refl); congruence.
  Qed.
  (** Any history of calls that respects the discipline of C13; any iteration order of the sets. *)
  Theorem C42_prune_partial n (ops : list (aop A)) ord : disciplined (aa_init n) ops -> valid_order ord ->
    let g := fst (runs IA_call (IA_init n) ops) in
    exists bound g', (forall fuel, bound <= fuel -> prune_incidence_automaton fuel ord g = Some (g', Ok tt)) /\
    (A_finals (ia_base g) <> [] -> forall v, In v (IA_vertices g') <-> In v (IA_vertices g) /\ reachable g v /\ coreachable g v) /\
    (A_finals (ia_base g) = [] -> forall v, In v (IA_vertices g') <-> In v (IA_vertices g) /\ reachable g v) /\
    (forall e, In e (IA_edges g') <-> In e (IA_edges g) /\ In (source e) (IA_vertices g') /\ In (target e) (IA_vertices g')) /\
    NoDup (IA_vertices g') /\ NoDup (IA_edges g') /\
    (forall r, Permutation (IA_in_edges g' r) (filter (fun e => target e =? r) (IA_edges g'))) /\
    A_initial (ia_base g') = A_initial (ia_base g) /\ (forall v, A_is_final (ia_base g') v = A_is_final (ia_base g) v) /\
    (forall w, A_accepts (ia_base g') w = A_accepts (ia_base g) w).
  Proof.
    intros D O g. destruct (iarep_runs ops _ _ (iarep_init n) D) as [RR _]. destruct (prune_rep g _ ord RR O) as (b & g' & s' & _ & H). exists b, g'. exact H.
  Qed.
End T.
(** C42 as stated is false: without final state, the search on the reversed graph starts from every vertex, and the
    reachable states are kept although no final state can be reached from them. *)
Definition prune_ex (final : bool) : list (aop nat) :=
  [AAddEdge 0 1 7; AAddEdge 1 2 7; AAddEdge 0 3 8; AAddEdge 4 2 7; AAddEdge 1 1 9; ASetFinal 2 final; AAddEdge 3 3 7].
Theorem C42_no_final_refuted : exists n (ops : list (aop nat)), disciplined (aa_init n) ops /\
  match prune_incidence_automaton 50 (fun _ l => l) (fst (runs IA_call (IA_init n) ops)) with
  | Some (g', Ok _) => exists v, In v (IA_vertices g') /\ ~ coreachable (fst (runs IA_call (IA_init n) ops)) v
  | _ => False
  end.
Proof.
  exists 5, (prune_ex false). split; [vm_compute; intuition (congruence || auto 10)|]. set (P := coreachable _).
  assert (X : ~ P 0). { intros (w & f & _ & F). vm_compute in F. destruct F. }
  clearbody P. vm_compute. exists 0. split; [left; reflexivity|exact X].
Qed.
Example C42_example : disciplined (aa_init 5) (prune_ex true) /\ valid_order (fun _ (l : list nat) => rev l) /\
  match prune_incidence_automaton 50 (fun _ l => rev l) (fst (runs IA_call (IA_init 5) (prune_ex true))) with
  | Some (g', Ok _) => (IA_vertices g', IA_edges g') = ([0; 1; 2], [Edge 0 1 7; Edge 1 2 7; Edge 1 1 9])
  | _ => False
  end.
Proof. split; [vm_compute; intuition (congruence || auto 10)|]. split; [intros n l; symmetry; apply Permutation_rev|]. vm_compute. reflexivity. Qed.
Print Assumptions C42_prune_partial.
Print Assumptions C42_no_final_refuted.
