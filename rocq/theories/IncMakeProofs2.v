(** make_incidence_node_automaton: the automaton of make_node_automaton, and the predecessors. *)
From Verif Require Import Graph GraphProofs Automaton AutomatonSpec AutomatonProofs AutomatonProofs2 AutomatonProofs3 NodeAut NodeAutSpec NodeAutProofs NodeAutProofs2 IncMake IncMakeSpec Base BaseProofs.
#[local] Arguments dkeys : simpl never.

Section I.
  Context {A N : Type} {EA : EqDec A} {EN : EqDec N}.
  Definition pinv (g : naut A) : Prop :=
    twf (na_adj g) /\ NoDup (dkeys (na_pred g)) /\ (forall r, NoDup (preds_of (na_pred g) r)) /\
    (forall q r, In q (preds_of (na_pred g) r) <-> tr (na_adj g) q (na_symbol g r) = Some r) /\
    (forall q a r, tr (na_adj g) q a = Some r -> a = na_symbol g r).
  Definition erase (g : naut A) : naut A := na_with_pred g [].

  Lemma INA_add_edge_erase g q r : match INA_add_edge g q r with (g', o) => NA_add_edge (erase g) q r = (erase g', o) end.
  Proof.
    unfold INA_add_edge, NA_add_edge. cbn [erase na_with_pred na_adj na_symbol]. destruct (dget (na_adj g) q) as [d|]; [|reflexivity]. destruct (dmem d (na_symbol g r)); reflexivity.
  Qed.
  Lemma pinv_add_edge g q r : pinv g -> pinv (fst (INA_add_edge g q r)).
  Proof.
    intros (W & K & D & P & Y). unfold INA_add_edge, NA_add_edge. destruct (dget (na_adj g) q) as [d|] eqn:Dq; [|repeat split; assumption || apply P || apply W].
    unfold dmem. destruct (dget d (na_symbol g r)) as [x|] eqn:Dx; [repeat split; assumption || apply P || apply W|].
    unfold pinv. cbn [fst na_with_pred na_with_adj na_adj na_pred na_symbol].
    assert (TR : forall q' a', tr (dset (na_adj g) q (dset d (na_symbol g r) r)) q' a' = if eqb q' q && eqb a' (na_symbol g r) then Some r else tr (na_adj g) q' a').
    { intros q' a'. rewrite tr_dset. destruct (BaseProofs.eqb_spec q' q) as [->|]; [|reflexivity]. rewrite dget_dset. destruct (BaseProofs.eqb_spec a' (na_symbol g r)); [reflexivity|]. unfold tr. rewrite Dq. reflexivity. }
    split; [apply twf_dset; [exact W|apply NoDup_dset; apply (proj2 W q); exact Dq]|]. split; [apply NoDup_dset; exact K|]. split; [|split].
    - intros r'. rewrite preds_dset. destruct (r' =? r); [apply NoDup_sadd|]; apply D.
    - intros q' r'. rewrite preds_dset, TR. destruct (Nat.eqb_spec r' r) as [->|Nr].
      + rewrite In_sadd, eqb_refl, andb_true_r. destruct (BaseProofs.eqb_spec q' q) as [->|Nq]; [tauto|]. rewrite P. tauto.
      + rewrite P. destruct (BaseProofs.eqb_spec q' q) as [->|]; [|tauto]. destruct (BaseProofs.eqb_spec (na_symbol g r') (na_symbol g r)) as [E|]; [|tauto]. cbn [andb].
        rewrite E. unfold tr. rewrite Dq, Dx. split; [discriminate|]. intros [= ->]. congruence.
    - intros q' a' r'. rewrite TR. destruct (eqb q' q && eqb a' (na_symbol g r)) eqn:E; [|apply Y]. intros [= <-]. apply andb_prop in E. destruct E as [_ E]. destruct (BaseProofs.eqb_spec a' (na_symbol g r)); [assumption|discriminate].
  Qed.

  Lemma imake_node_edges_erase names (l : list (N * N)) : forall g, match imake_node_edges names g l with (g', o) => make_node_edges names (erase g) l = (erase g', o) /\ (pinv g -> pinv g') end.
  Proof.
    unfold imake_node_edges, make_node_edges. induction l as [|[qn rn] l IH]; intros g; [split; auto|]. cbn [foreach].
    destruct (index_of names qn) as [q|], (index_of names rn) as [r|]; try (split; auto; fail).
    pose proof (INA_add_edge_erase g q r) as E. pose proof (pinv_add_edge g q r) as PI. destruct (INA_add_edge g q r) as [g1 [x|ex]]; rewrite E; cbn [fst] in PI; [|auto].
    specialize (IH g1). destruct (foreach _ g1 l) as [g2 o]. destruct IH as [IH1 IH2]. split; [exact IH1|auto].
  Qed.

  Lemma vertices_pinv lab (fin : key N -> bool) (names : list N) : forall g : naut A, (forall q a, tr (na_adj g) q a = None) -> twf (na_adj g) -> na_pred g = [] ->
    let g' := fst (make_node_vertices lab fin g names) in (forall q a, tr (na_adj g') q a = None) /\ twf (na_adj g') /\ na_pred g' = [].
  Proof.
    unfold make_node_vertices. induction names as [|x l IH]; intros g T W P; [auto|]. cbn [foreach]. destruct lab as [lab|]; [|auto]. cbn [NA_add_vertex].
    set (g1 := if fin (ByDescriptor (na_last g)) then _ else _). 
    assert (G : na_adj g1 = dset (na_adj g) (na_last g) [] /\ na_pred g1 = na_pred g) by (unfold g1; destruct (fin _); split; reflexivity). destruct G as [G1 G2].
    specialize (IH g1). cbv zeta in IH. apply IH.
    - intros q a. rewrite G1, tr_dset. destruct (eqb q (na_last g)); [reflexivity|apply T].
    - rewrite G1. apply twf_dset; [exact W|constructor].
    - congruence.
  Qed.

  Lemma imake_node_spec sorted (l : list (N * N)) lab q0n (fin : key N -> bool) :
    match make_incidence_node_automaton sorted l lab q0n fin with
    | Ok g => make_node_automaton sorted l lab q0n fin = Ok (erase g) /\ pinv g
    | Raise ex => make_node_automaton sorted l lab q0n fin = Raise ex
    end.
  Proof.
    unfold make_incidence_node_automaton, make_node_automaton. set (names := node_names sorted l).
    pose proof (vertices_pinv lab fin names NA_init) as VP. cbv zeta in VP. destruct (make_node_vertices lab fin NA_init names) as [g1 [u|ex]]; [|reflexivity]. cbn [fst] in VP.
    destruct VP as (T & W & P); [reflexivity|split; [constructor|intros q d; discriminate]|reflexivity|].
    pose proof (imake_node_edges_erase names l g1) as E. destruct (imake_node_edges names g1 l) as [g2 o]. destruct E as [E1 E2].
    assert (G : erase g1 = g1) by (unfold erase, na_with_pred; rewrite <- P; destruct g1; reflexivity). rewrite G in E1. rewrite E1.
    assert (I2 : pinv g2).
    { apply E2. split; [exact W|]. rewrite P. split; [constructor|]. split; [intros r; constructor|]. split; [intros q r; rewrite T; cbn; split; [intros []|discriminate]|].
      intros q a r. rewrite T. discriminate. }
    destruct o as [u'|ex]; [|reflexivity]. change (NA_vertices (erase g2)) with (NA_vertices g2). destruct (NA_vertices g2); [auto|]. destruct (index_of names q0n) as [q0|]; [|reflexivity]. split; [reflexivity|exact I2].
  Qed.

  Lemma pinv_in_edges g r : pinv g -> Permutation (INA_in_edges g r) (filter (fun e => target e =? r) (NA_edges g)).
  Proof.
    intros (W & K & D & P & Y). change (NA_edges g) with (tedges (na_adj g)). apply NoDup_Permutation.
    - unfold INA_in_edges. apply NoDup_map_inj_in; [apply D|]. intros x y _ _ [= ->]. reflexivity.
    - apply NoDup_filter. apply NoDup_tedges. exact W.
    - intros [q r' a]. rewrite filter_In, (In_tedges _ _ _ _ W). cbn [target]. unfold INA_in_edges. rewrite in_map_iff. split.
      + intros (x & [= <- <- <-] & I). apply P in I. split; [exact I|apply Nat.eqb_refl].
      + intros [E X]. apply Nat.eqb_eq in X. subst r'. pose proof (Y _ _ _ E) as Ea. subst a. exists q. split; [reflexivity|]. apply P. exact E.
  Qed.
End I.
