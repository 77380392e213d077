(** Theorems C144: what the visitor of revuz_minimize is told, on the class IncidenceNodeAutomaton, with labels and leaves. *)
From Coq Require Import ZArith.
From Verif Require Import Graph GraphProofs Automaton AutomatonSpec AutomatonProofs AutomatonProofs2 AutomatonProofs3 NodeAut NodeAutSpec NodeAutProofs Heap Revuz RevuzSpec RevuzProofs RevuzProofs2 RevuzProofs3 TRevuz RevuzNode RevuzNodeSpec RevuzNodeProofs TRevuzNode RevuzLab RevuzLabProofs RevuzNodeLab RevuzNodeLabProofs TRevuzNodeLab RevuzVis RevuzVisProofs RevuzNodeVis RevuzNodeVisSpec RevuzNodeVisProofs Base BaseProofs.

Section A.
  Context {A B C : Type} {EA : EqDec A} {EB : EqDec B} {EC : EqDec C}.
  (** C144: the automaton and the returned value do not depend on the presence of the visitor (on any automaton, with any orders, labels and leaves). *)
  Theorem C144_same_result (pmap_vlabel : option (nat -> B)) (pmap_elabel : option (edge (option A) -> C)) fuel ord ord_v leaves (g : naut A) :
    option_map (fun out => (fst (fst out), snd out)) (nvrevuz_minimize pmap_vlabel pmap_elabel fuel ord ord_v leaves g) = nlrevuz_minimize pmap_vlabel pmap_elabel fuel ord ord_v leaves g.
  Proof. apply nerase_minimize. Qed.

  (** C144: on an automaton built by a disciplined program, with or without cycles, with any set of leaves and any labels of the transitions, if two states with the same label have the same symbol: a call
      that terminates raises no exception and its visitor is told each merge in order. *)
  Theorem C144_told (pmap_vlabel : option (nat -> B)) (pmap_elabel : option (edge (option A) -> C)) (ops : list (rop A)) fuel ord ord_v leaves out :
    ndisciplined ns_init (graph_calls ops) -> valid_order ord -> valid_order ord_v ->
    let g := INA_history ops in
    let lab q := match pmap_vlabel with Some f => inr (f q) | None => inl (na_symbol g q) end in
    (forall x y, In x (NA_vertices g) -> In y (NA_vertices g) -> lab x = lab y -> na_symbol g x = na_symbol g y) ->
    NoDup leaves -> (forall q, In q leaves -> In q (NA_vertices g)) ->
    nvrevuz_minimize pmap_vlabel pmap_elabel fuel ord ord_v leaves g = Some out ->
    exists g' tr h V E, out = ((g', tr), Ok h) /\ na_q0 g' = na_q0 g /\ (forall q, na_final g' q = na_final g q) /\
      ntold (na_symbol g) lab (na_final g) (NA_vertices g) (NA_edges g) tr V E /\ nshows (na_symbol g) g' V E.
  Proof.
    intros D OE OV g lab RF NL IL H. pose proof (history_rep ops _ _ nrep_init D) as NR. fold (INA_history ops) in NR. fold g in NR. set (s1 := fst (runs ns_step ns_init (graph_calls ops))) in NR.
    pose (sym := ns_sym s1). pose (s := AA (ns_next s1) (ns_V s1) (ns_T s1) (na_q0 g) (na_final g)).
    assert (R : narep sym g s) by (split; [unfold sym; cbn; destruct s1; exact NR|split; reflexivity]).
    assert (HS : forall q, na_symbol g q = sym q) by (intros q; apply (narep_sym sym g s q R)).
    assert (LE : forall q, lab q = vlab sym pmap_vlabel q) by (intros q; unfold lab, vlab; destruct pmap_vlabel; [reflexivity|]; rewrite HS; reflexivity).
    pose proof (narep_V sym g s R) as EV.
    assert (RFS : forall x y, In x (aa_V s) -> In y (aa_V s) -> vlab sym pmap_vlabel x = vlab sym pmap_vlabel y -> sym x = sym y).
    { intros x y Vx Vy. rewrite <- !LE, <- !HS. rewrite <- EV in Vx, Vy. apply RF; assumption. }
    clearbody lab g sym s. clear D ops NR s1 RF.
    pose proof (C144_same_result pmap_vlabel pmap_elabel fuel ord ord_v leaves g) as SR. rewrite H in SR. unfold nvrevuz_minimize in H.
    destruct (revuz_height (NA_vertices g) (NA_out_degree g) (INA_in_edges g) fuel ord_v [] []) as [[r m]|]; [|discriminate H].
    apply (nvloop_spec sym pmap_vlabel pmap_elabel ord ord_v m fuel OE OV _ _ g s) in H; [|exact RFS|exact R| |].
    - destruct H as (g' & s' & tr & k & -> & R' & F' & T). assert (HF : forall q, na_final g q = aa_final s q) by apply R. assert (HF' : forall q, na_final g' q = aa_final s' q) by apply R'.
      pose proof (nlrevuz_q0 pmap_vlabel pmap_elabel fuel ord ord_v leaves g g' (Ok k) (eq_sym SR)) as HQ.
      destruct (ntold_ext _ _ _ _ _ _ _ _ (NA_edges g) (fun e => In_obs_nedges sym g s e R) (ntold_ext_all sym (na_symbol g) _ lab HS _ _ _ _ _ _ _ LE HF T)) as (E' & T' & X'). exists g', tr, k, (aa_V s'), E'. split; [reflexivity|].
      split; [exact HQ|]. split; [intros q; rewrite HF, HF', F'; reflexivity|]. rewrite EV. split; [exact T'|]. apply (nshows_sym sym (na_symbol g)); [exact HS|]. apply (nshows_ext sym g' _ (aa_T s') E' X'), nshows_rep, R'.
    - destruct leaves; cbn [leaves_of]; [|exact NL]. rewrite EV. apply NoDup_filter, (narep_nodup sym g s R).
    - destruct leaves; cbn [leaves_of]; rewrite <- EV; [|exact IL]. intros x I. apply filter_In in I. apply I.
  Qed.

  (** C144: what follows from the calls alone. The states that remain are the states of the automaton minus the second arguments of states_merged, which are given once; they accept the same words and the same
      words can be read from them; the two states of a merge had the same symbol and the same label, accepted the same words, and the same words could be read from them, in the automaton before the call. *)
  Theorem C144_words {L} (sym : nat -> option A) (lab : nat -> L) final V (E : list (edge (option A))) tr V' E' : ntold sym lab final V E tr V' E' ->
    (forall q, In q V' <-> In q V /\ ~ In q (nremoved tr)) /\ NoDup (nremoved tr) /\
    (forall q w, In q V' -> (right E' final q w <-> right E final q w) /\ (readable E' q w <-> readable E q w)) /\
    (forall q, In q (nremoved tr) -> In q V /\ exists q1 g, In (MergingStates q1 q, g) tr) /\
    (forall q1 q2 g, In (MergingStates q1 q2, g) tr -> q1 < q2 /\ In q1 V /\ In q2 V /\ (sym q1 = sym q2 /\ lab q1 = lab q2) /\
      forall w, (right E final q1 w <-> right E final q2 w) /\ (readable E q1 w <-> readable E q2 w)).
  Proof. intros T. destruct (ntold_words _ _ _ _ _ _ _ _ T) as (K1 & K2 & K3 & K4 & K5). split; [exact K3|]. split; [exact K4|]. split; [exact K1|]. split; [exact K5|exact K2]. Qed.

  (** C144: hence revuz_minimize, on any such automaton and any such leaves, merges only equivalent states whenever it terminates. *)
  Theorem C144_any_leaves (pmap_vlabel : option (nat -> B)) (pmap_elabel : option (edge (option A) -> C)) (ops : list (rop A)) fuel ord ord_v leaves out :
    ndisciplined ns_init (graph_calls ops) -> valid_order ord -> valid_order ord_v ->
    let g := INA_history ops in
    let lab q := match pmap_vlabel with Some f => inr (f q) | None => inl (na_symbol g q) end in
    (forall x y, In x (NA_vertices g) -> In y (NA_vertices g) -> lab x = lab y -> na_symbol g x = na_symbol g y) ->
    NoDup leaves -> (forall q, In q leaves -> In q (NA_vertices g)) ->
    nlrevuz_minimize pmap_vlabel pmap_elabel fuel ord ord_v leaves g = Some out ->
    exists g' h, out = (g', Ok h) /\ na_q0 g' = na_q0 g /\ forall q, In q (NA_vertices g') -> In q (NA_vertices g) /\ na_symbol g' q = na_symbol g q /\ forall w, naccepted g' q w <-> naccepted g q w.
  Proof.
    intros D OE OV g lab RF NL IL H. rewrite <- C144_same_result in H. destruct (nvrevuz_minimize pmap_vlabel pmap_elabel fuel ord ord_v leaves g) as [out'|] eqn:EM; [|discriminate H].
    destruct (C144_told pmap_vlabel pmap_elabel ops fuel ord ord_v leaves out' D OE OV RF NL IL EM) as (g' & tr & h & V & E & -> & HQ & HF & T & (S1 & S3 & S2)). cbn [option_map fst snd] in H. exists g', h. split; [congruence|]. split; [exact HQ|]. intros q I. apply S1 in I.
    destruct (C144_words _ _ _ _ _ _ _ _ T) as (K1 & _ & K3 & _). split; [apply (K1 q), I|]. split; [apply (S3 q I)|]. intros w. destruct (K3 q w I) as [K _]. etransitivity; [|exact K]. unfold naccepted.
    split; intros (t & P & F); exists t; (split; [revert P; apply path_perm; intros e; rewrite S2; tauto|]); [rewrite <- HF|rewrite HF]; exact F.
  Qed.
End A.
Print Assumptions C144_same_result.
Print Assumptions C144_told.
Print Assumptions C144_words.
Print Assumptions C144_any_leaves.

(** With labels that are the same on states with different symbols, the visitor may receive None as the new transition: 0 -> 1, 0 -> 2, where 1 and 2 have the symbols 7 and 8. The transition that reads 8
    is removed, and add_edge does not add it to 1 since 0 already has a transition that reads 7. *)
Theorem C144_coarse_labels_refuted : exists (ops : list (rop nat)) (f : nat -> bool) g' tr, ndisciplined ns_init (graph_calls ops) /\
  nvrevuz_minimize (Some f) (@None (edge (option nat) -> bool)) 3 id_ord id_ord [] (INA_history ops) = Some ((g', tr), Ok 1%Z) /\
  In (MoveTransition (Edge 0 2 (Some 8)) None) (map fst tr) /\ NA_edges g' = [Edge 0 1 (Some 7)].
Proof.
  exists [RCall (NAddVertex None); RCall (NAddVertex (Some 7)); RCall (NAddVertex (Some 8)); RCall (NAddEdge 0 1); RCall (NAddEdge 0 2); RSetFinal 1 true; RSetFinal 2 true], (fun _ => true). eexists. eexists.
  split; [cbn; tauto|]. split; [vm_compute; reflexivity|]. split; [right; left; reflexivity|vm_compute; reflexivity].
Qed.
Print Assumptions C144_coarse_labels_refuted.

(** the automaton of the Example of C106: two pairs of states to merge, in two levels; the calls of the visitor *)
Example C144_example :
  option_map (fun out => (map fst (snd (fst out)), snd out, NA_vertices (fst (fst out)))) (nvrevuz_minimize (@None (nat -> nat)) (@None (edge (option nat) -> nat)) 6 id_ord id_ord [] rn_g) =
    Some ([MergingStates 3 5; MoveTransition (Edge 4 5 (Some 3)) (Some (Edge 4 3 (Some 3))); RemoveVertex 5; StatesMerged 3 5;
           MergingStates 1 4; MoveTransition (Edge 2 4 (Some 1)) (Some (Edge 2 1 (Some 1))); RemoveVertex 4; StatesMerged 1 4], Ok 3%Z, [0; 1; 2; 3]).
Proof. vm_compute. reflexivity. Qed.
(** with the labels of the Example of C143, 4 is not merged with 1 *)
Example C144_example_labels :
  option_map (fun out => (map fst (snd (fst out)), snd out, NA_vertices (fst (fst out)))) (nvrevuz_minimize (Some rl_lab) (Some (fun e : edge (option nat) => target e)) 6 id_ord id_ord [] rn_g) =
    Some ([MergingStates 3 5; MoveTransition (Edge 4 5 (Some 3)) (Some (Edge 4 3 (Some 3))); RemoveVertex 5; StatesMerged 3 5], Ok 3%Z, [0; 1; 2; 3; 4]).
Proof. vm_compute. reflexivity. Qed.
(** with one leaf only, the states 3 and 5 are not compared *)
Example C144_example_one_leaf :
  option_map (fun out => (map fst (snd (fst out)), snd out, NA_vertices (fst (fst out)))) (nvrevuz_minimize (@None (nat -> nat)) (@None (edge (option nat) -> nat)) 6 id_ord id_ord [5] rn_g) =
    Some ([], Ok 3%Z, [0; 1; 2; 3; 4; 5]).
Proof. vm_compute. reflexivity. Qed.
(** the theorem applies to the call with labels, with the leaves given in another order *)
Example C144_example_applies : exists g' tr h V E, nvrevuz_minimize (Some rl_lab) (Some (fun e : edge (option nat) => target e)) 6 id_ord id_ord [5; 3] rn_g = Some ((g', tr), Ok h) /\
  ntold (na_symbol rn_g) (fun q => @inr (option nat) nat (rl_lab q)) (na_final rn_g) (NA_vertices rn_g) (NA_edges rn_g) tr V E /\ nremoved tr = [5].
Proof.
  destruct (nvrevuz_minimize (Some rl_lab) (Some (fun e : edge (option nat) => target e)) 6 id_ord id_ord [5; 3] rn_g) as [out|] eqn:EM; [|vm_compute in EM; discriminate EM].
  destruct (C144_told (Some rl_lab) (Some (fun e => target e)) rn_ops 6 id_ord id_ord [5; 3] out rn_disciplined (id_ord_valid _) (id_ord_valid _)) as (g' & tr & h & V & E & -> & _ & _ & T & _).
  - change (INA_history rn_ops) with rn_g. assert (EV : NA_vertices rn_g = [0; 1; 2; 3; 4; 5]) by (vm_compute; reflexivity). rewrite EV. intros x y Vx Vy LE. cbn [In] in Vx, Vy.
    repeat (destruct Vx as [<-|Vx]; [repeat (destruct Vy as [<-|Vy]; [first [reflexivity|discriminate LE]|]); destruct Vy|]). destruct Vx.
  - repeat constructor; cbn; intuition discriminate.
  - intros q [<-|[<-|[]]]; vm_compute; tauto.
  - exact EM.
  - exists g', tr, h, V, E. split; [reflexivity|]. split; [exact T|]. vm_compute in EM. injection EM as <- <- <-. reflexivity.
Qed.
(** an automaton with a cycle: 1 leads to itself and to no leaf, 0 leads to 1 and 2, and 4 leads to 3; 3 is merged with 2 *)
Definition rv_cyc : list (rop nat) := [RCall (NAddVertex None); RCall (NAddVertex (Some 7)); RCall (NAddVertex (Some 8)); RCall (NAddVertex (Some 8)); RCall (NAddVertex (Some 9)); RCall (NAddEdge 0 1); RCall (NAddEdge 1 1); RCall (NAddEdge 0 2); RCall (NAddEdge 4 3); RSetFinal 2 true; RSetFinal 3 true].
Example C144_example_cycle : ndisciplined ns_init (graph_calls rv_cyc) /\
  option_map (fun out => (map fst (snd (fst out)), snd out, NA_vertices (fst (fst out)))) (nvrevuz_minimize (@None (nat -> nat)) (@None (edge (option nat) -> nat)) 6 id_ord id_ord [] (INA_history rv_cyc)) =
    Some ([MergingStates 2 3; MoveTransition (Edge 4 3 (Some 8)) (Some (Edge 4 2 (Some 8))); RemoveVertex 3; StatesMerged 2 3], Ok 1%Z, [0; 1; 2; 4]).
Proof. split; [cbn; intuition discriminate|vm_compute; reflexivity]. Qed.
