(** Theorems C117: what the visitor of revuz_minimize is told. *)
From Coq Require Import ZArith.
From Verif Require Import Graph GraphProofs Automaton AutomatonSpec AutomatonProofs AutomatonProofs2 Heap Revuz RevuzSpec RevuzProofs RevuzProofs2 RevuzProofs3 MinSpec MinProofs RevuzVis RevuzVisSpec TRevuz RevuzVisProofs Base BaseProofs.

Section A.
  Context {A : Type} {EA : EqDec A}.
  (** C117: the automaton and the returned value do not depend on the presence of the visitor (on any automaton, with any orders and leaves). *)
  Theorem C117_same_result fuel ord ord_v leaves (g : iaut A) :
    option_map (fun out => (fst (fst out), snd out)) (vrevuz_minimize fuel ord ord_v leaves g) = revuz_minimize fuel ord ord_v leaves g.
  Proof. apply erase_minimize. Qed.

  (** C117: on an automaton built by a disciplined program, with or without cycles, and with any set of leaves, a call that terminates raises no exception and its visitor is told each merge in order. *)
  Theorem C117_told n (ops : list (aop A)) fuel ord ord_v leaves out : disciplined (aa_init n) ops -> valid_order ord -> valid_order ord_v ->
    let g := fst (runs IA_call (IA_init n) ops) in
    NoDup leaves -> (forall q, In q leaves -> In q (IA_vertices g)) ->
    vrevuz_minimize fuel ord ord_v leaves g = Some out ->
    exists g' tr h V E, out = ((g', tr), Ok h) /\ (forall q, A_is_final (ia_base g') q = A_is_final (ia_base g) q) /\
      told (A_is_final (ia_base g)) (IA_vertices g) (IA_edges g) tr V E /\ shows g' V E.
  Proof.
    intros D OE OV g NL IL H. destruct (iarep_runs ops _ _ (iarep_init n) D) as [R _]. fold g in R. set (s := fst (runs ia_step (aa_init n) ops)) in R. clearbody g s. clear D ops n.
    assert (EV : IA_vertices g = aa_V s) by apply (obs_vertices _ _ (proj1 R)). unfold vrevuz_minimize in H.
    destruct (revuz_height (IA_vertices g) (fun q => length (IA_out_edges g q)) (IA_in_edges g) fuel ord_v [] []) as [[r m]|]; [|discriminate H].
    apply (vloop_spec ord ord_v m fuel OE OV _ _ g s) in H; [|exact R| |].
    - destruct H as (g' & s' & tr & k & -> & R' & F' & T). assert (HF : forall q, A_is_final (ia_base g) q = aa_final s q) by apply R. assert (HF' : forall q, A_is_final (ia_base g') q = aa_final s' q) by apply R'.
      destruct (told_ext _ _ _ _ _ _ (IA_edges g) (edges_iff g s R) (told_ext_final _ _ _ _ _ _ _ HF T)) as (E' & T' & X'). exists g', tr, k, (aa_V s'), E'. split; [reflexivity|].
      split; [intros q; rewrite HF, HF', F'; reflexivity|]. rewrite EV. split; [exact T'|]. apply (shows_ext g' _ (aa_T s') E' X'), shows_rep, R'.
    - destruct leaves; cbn [leaves_of]; [|exact NL]. rewrite EV. apply NoDup_filter, (iarep_nodup g s R).
    - destruct leaves; cbn [leaves_of]; rewrite <- EV; [|exact IL]. intros x I. apply filter_In in I. apply I.
  Qed.

  (** C117: what follows from the calls alone. The states that remain are the states of the automaton minus the second arguments of states_merged, which are given once; they accept the same words and the same
      words can be read from them; the two states of a merge accepted the same words, and the same words could be read from them, in the automaton before the call. *)
  Theorem C117_words final V (E : list (edge A)) tr V' E' : told final V E tr V' E' ->
    (forall q, In q V' <-> In q V /\ ~ In q (removed tr)) /\ NoDup (removed tr) /\
    (forall q w, In q V' -> (right E' final q w <-> right E final q w) /\ (readable E' q w <-> readable E q w)) /\
    (forall q, In q (removed tr) -> In q V /\ exists q1 g, In (MergingStates q1 q, g) tr) /\
    (forall q1 q2 g, In (MergingStates q1 q2, g) tr -> q1 < q2 /\ In q1 V /\ In q2 V /\ forall w, (right E final q1 w <-> right E final q2 w) /\ (readable E q1 w <-> readable E q2 w)).
  Proof. intros T. destruct (told_words _ _ _ _ _ _ T) as (K1 & K2 & K3 & K4 & K5). auto. Qed.

  (** C117: hence revuz_minimize, on any such automaton and any such leaves, merges only equivalent states whenever it terminates. *)
  Theorem C117_any_leaves n (ops : list (aop A)) fuel ord ord_v leaves out : disciplined (aa_init n) ops -> valid_order ord -> valid_order ord_v ->
    let g := fst (runs IA_call (IA_init n) ops) in
    NoDup leaves -> (forall q, In q leaves -> In q (IA_vertices g)) ->
    revuz_minimize fuel ord ord_v leaves g = Some out ->
    exists g' h, out = (g', Ok h) /\ forall q, In q (IA_vertices g') -> In q (IA_vertices g) /\ forall w, accepted g' q w <-> accepted g q w.
  Proof.
    intros D OE OV g NL IL H. rewrite <- C117_same_result in H. destruct (vrevuz_minimize fuel ord ord_v leaves g) as [out'|] eqn:EM; [|discriminate H].
    destruct (C117_told n ops fuel ord ord_v leaves out' D OE OV NL IL EM) as (g' & tr & h & V & E & -> & HF & T & [S1 S2]). cbn [option_map fst snd] in H. exists g', h. split; [congruence|]. intros q I. apply S1 in I.
    destruct (C117_words _ _ _ _ _ _ T) as (K1 & _ & K3 & _). split; [apply (K1 q), I|]. intros w. destruct (K3 q w I) as [K _]. fold g in K. etransitivity; [|exact K]. unfold accepted.
    split; intros (t & P & F); exists t; (split; [revert P; apply path_perm; intros e; rewrite S2; tauto|]); rewrite HF in *; exact F.
  Qed.
End A.

(** two pairs of states to merge, in two levels; the calls of the visitor *)
Definition ex_rv_ops : list (aop nat) := [AAddEdge 0 1 7; AAddEdge 0 2 8; AAddEdge 1 3 7; AAddEdge 2 4 7; ASetFinal 3 true; ASetFinal 4 true].
Example C117_example :
  let g := fst (runs IA_call (IA_init 5) ex_rv_ops) in
  disciplined (aa_init 5) ex_rv_ops /\
  option_map (fun out => (map fst (snd (fst out)), snd out, IA_vertices (fst (fst out)), IA_edges (fst (fst out)))) (vrevuz_minimize 5 id_ord id_ord [] g) =
    Some ([MergingStates 3 4; MoveTransition (Edge 2 4 7) (Some (Edge 2 3 7)); RemoveVertex 4; StatesMerged 3 4;
           MergingStates 1 2; MoveTransition (Edge 0 2 8) (Some (Edge 0 1 8)); RemoveVertex 2; StatesMerged 1 2], Ok 2%Z, [0; 1; 3], [Edge 0 1 7; Edge 0 1 8; Edge 1 3 7]).
Proof. split; [cbn; intuition discriminate|vm_compute; reflexivity]. Qed.
(** leaves given by the caller *)
Example C117_example_leaves :
  let g := fst (runs IA_call (IA_init 5) ex_rv_ops) in
  option_map (fun out => (map fst (snd (fst out)), snd out, IA_vertices (fst (fst out)))) (vrevuz_minimize 5 id_ord id_ord [4; 3] g) =
    Some ([MergingStates 3 4; MoveTransition (Edge 2 4 7) (Some (Edge 2 3 7)); RemoveVertex 4; StatesMerged 3 4;
           MergingStates 1 2; MoveTransition (Edge 0 2 8) (Some (Edge 0 1 8)); RemoveVertex 2; StatesMerged 1 2], Ok 2%Z, [0; 1; 3]).
Proof. vm_compute. reflexivity. Qed.
(** with one leaf only, the states 3 and 4 are not compared *)
Example C117_example_one_leaf :
  let g := fst (runs IA_call (IA_init 5) ex_rv_ops) in
  option_map (fun out => (map fst (snd (fst out)), snd out, IA_vertices (fst (fst out)))) (vrevuz_minimize 5 id_ord id_ord [4] g) = Some ([], Ok 2%Z, [0; 1; 2; 3; 4]).
Proof. vm_compute. reflexivity. Qed.
Print Assumptions C117_same_result.
Print Assumptions C117_told.
Print Assumptions C117_words.
Print Assumptions C117_any_leaves.
